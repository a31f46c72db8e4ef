(** * Property C63: the constants of every bound orbit come back from its apex parameters

    The converse of C17.  For all constants whose radial potential has two turning points
    r2 <= r1 outside the horizon and above the inner roots, apex_from_constants returns
    parameters that are accepted as stable, and constants_of_motion of those parameters are
    the constants one started from. *)
From Coq Require Import Reals Lra ZArith String List Psatz.
From Coquelicot Require Import Coquelicot.
From Verif Require Import Num Outcome External Checked ExternalSpec Spec Model_Units Model_Constants
  P_Validation Props_Validation SepPoly Props_Separatrix P_Bounds P_Poly P_Roots P_Schmidt P_Constants Props_Constants
  P_Stability P_Stability2 P_Stability3 P_Stability4 P_Stability5 Props_Stability Props_Stability3 Props_Finite P_Apex.
Import ListNotations.
Open Scope R_scope.

Section S.
Context {X : External R} (HX : root_spec X) (HP : polyroots_spec X).

(** the polar motion: cosine squared z of the turning point and total angular momentum l *)
Lemma polar_split a E L Q : 0 <= a -> E^2 < 1 -> 0 <= Q -> (a = 0 -> 0 < Q + L^2) ->
  exists z l zp, 0 <= z <= 1 /\ 0 <= l /\ L^2 = (1 - z) * l^2 /\ Q = z * (a^2 * (1 - E^2) + l^2) /\
  polar_roots_of (Some a) (Some E) (Some L) (Some Q) = Ret (Some z, Some zp).
Proof.
  intros Ha HE HQ H0. pose proof (pow2_ge_0 L) as L2.
  unfold polar_roots_of. rewrite polar_poly_some.
  change (neqb (Some a) (nZ 0)) with (Some (Reqb a 0)).
  destruct (Reqb_spec a 0) as [->|Ha0]; cbn [ifo].
  - specialize (H0 eq_refl). set (z := Q / (Q + L^2)).
    assert (Ez : z * (Q + L^2) = Q) by (unfold z; field; lra).
    assert (Hz : 0 <= z <= 1).
    { split; [unfold z; apply Rmult_le_pos; [lra | left; apply Rinv_0_lt_compat; lra] | unfold z; apply Rle_div_l; lra]. }
    clearbody z. exists z, (sqrt (Q + L^2)), z. refine (conj Hz (conj (sqrt_pos _) _)).
    rewrite pow2_sqrt by lra. refine (conj _ (conj _ _)); [lra | lra |].
    assert (EQ : polyroots (polar_poly 0 E L Q) = map (fun x => (x, 0)) [z]).
    { cbn [map]. unfold polar_poly. rnum. apply (poly1_real HP (- (Q + L^2))); try lra. }
    rewrite (real_of_roots_some _ _ EQ). reflexivity.
  - assert (A2 : 0 < a^2) by (apply pow_lt; lra).
    assert (HB : exists B, B = a^2 * (1 - E^2) /\ 0 < B) by (eexists; split; [reflexivity | apply Rmult_lt_0_compat; lra]).
    destruct HB as (B & EB & HB). rewrite <- EB.
    set (D := (Q + L^2 + B)^2 - 4 * B * Q).
    assert (HD : 0 <= D).
    { replace D with ((Q + L^2 - B)^2 + 4 * B * L^2) by (unfold D; ring).
      assert (0 <= 4 * B * L^2) by (apply Rmult_le_pos; lra). pose proof (pow2_ge_0 (Q + L^2 - B)). lra. }
    pose proof (sqrt_pos D) as S0. assert (S2 : sqrt D ^ 2 = D) by (apply pow2_sqrt; exact HD).
    set (z := (Q + L^2 + B - sqrt D) / (2 * B)). set (zp := (Q + L^2 + B + sqrt D) / (2 * B)).
    assert (V1 : B * (z + zp) = Q + L^2 + B) by (unfold z, zp; field; lra).
    assert (V2 : B * (z * zp) = Q).
    { transitivity (((Q + L^2 + B)^2 - sqrt D ^ 2) / (4 * B)); [unfold z, zp; field; lra|]. rewrite S2. unfold D. field. lra. }
    assert (O : z <= zp) by (unfold z, zp; apply Rmult_le_compat_r; [left; apply Rinv_0_lt_compat; lra | lra]).
    clearbody z zp. clear S2 S0. clearbody D. clear HD D.
    assert (K : B * ((1 - z) * (1 - zp)) = - L^2) by lra.
    assert (K' : (1 - z) * (1 - zp) <= 0).
    { apply Rnot_lt_le. intros N. assert (0 < B * ((1 - z) * (1 - zp))) by (apply Rmult_lt_0_compat; lra). lra. }
    assert (Z1 : z <= 1).
    { apply Rnot_lt_le. intros N. assert (0 < (z - 1) * (zp - 1)) by (apply Rmult_lt_0_compat; lra). lra. }
    assert (Z2 : 1 <= zp).
    { apply Rnot_lt_le. intros N. assert (0 < (1 - z) * (1 - zp)) by (apply Rmult_lt_0_compat; lra). lra. }
    assert (Z0 : 0 <= z).
    { apply Rnot_lt_le. intros N. assert (0 < B * (- z * zp)) by (apply Rmult_lt_0_compat; [lra | apply Rmult_lt_0_compat; lra]). lra. }
    exists z, (sqrt (B * (zp - 1))), zp. refine (conj (conj Z0 Z1) (conj (sqrt_pos _) _)).
    rewrite pow2_sqrt by (apply Rmult_le_pos; lra). refine (conj _ (conj _ _)); [lra | lra |].
    assert (EQ : polyroots (polar_poly a E L Q) = map (fun x => (x, 0)) [z; zp]).
    { cbn [map]. unfold polar_poly. rnum. apply (poly2_real HP (a^2 * (1 - E^2))); rewrite ?EB in *; try lra. }
    rewrite (real_of_roots_some _ _ EQ). reflexivity.
Qed.

(** constants whose radial potential leaves room for a bound orbit between r2 and r1 *)
Definition bound_region (a E L Q r1 r2 r3 r4 : R) : Prop :=
  (forall r, radial_potential a E L Q r = (1 - E^2) * (r1 - r) * (r - r2) * (r - r3) * (r - r4)) /\
  r4 <= r3 /\ r3 < r2 /\ r2 <= r1 /\ 1 - sqrt (1 - a^2) < r2.

Section B.
Context (a E L Q r1 r2 r3 r4 : R) (Ha : 0 <= a < 1) (HE : 0 < E) (HE1 : E^2 < 1) (HQ : 0 <= Q).
Context (HB : bound_region a E L Q r1 r2 r3 r4).

Lemma no_negative_root r : r < 0 -> radial_potential a E L Q r < 0.
Proof.
  intros Hr. replace (radial_potential a E L Q r) with
    (- ((1 - E^2) * (r^2)^2) + 2 * r * r^2 - (a^2 * (1 - E^2) + L^2 + Q) * r^2 + 2 * r * ((L - a * E)^2 + Q) - a^2 * Q)
    by (unfold radial_potential, Delta; ring).
  assert (R2 : 0 < r^2) by nra. assert (0 < (r^2)^2) by (apply pow_lt; lra). pose proof (pow2_ge_0 a). pose proof (pow2_ge_0 L). pose proof (pow2_ge_0 (L - a * E)).
  assert (0 < (1 - E^2) * (r^2)^2) by (apply Rmult_lt_0_compat; lra).
  assert (0 < - r * r^2) by (apply Rmult_lt_0_compat; lra).
  assert (0 <= a^2 * (1 - E^2)) by (apply Rmult_le_pos; lra).
  assert (0 <= (a^2 * (1 - E^2) + L^2 + Q) * r^2) by (apply Rmult_le_pos; lra).
  assert (0 <= - r * ((L - a * E)^2 + Q)) by (apply Rmult_le_pos; lra).
  assert (0 <= a^2 * Q) by (apply Rmult_le_pos; lra). lra.
Qed.

Lemma r4_nonneg : 0 <= r4.
Proof.
  destruct HB as (F & _). apply Rnot_lt_le. intros K. apply no_negative_root in K. rewrite F in K. lra.
Qed.

Lemma r2_outside : 1 < r2.
Proof.
  destruct HB as (F & O4 & O3 & O2 & Hm). pose proof r4_nonneg as R4.
  pose proof (pow2_ge_0 a) as A2. assert (A21 : a^2 < 1) by nra.
  assert (S1 : 0 < sqrt (1 - a^2)) by (apply sqrt_lt_R0; lra). assert (S2 : sqrt (1 - a^2) ^ 2 = 1 - a^2) by (apply pow2_sqrt; lra).
  assert (P2 : 0 < r2) by lra.
  assert (Z : (E * (r2^2 + a^2) - a * L)^2 = Delta a r2 * (r2^2 + ((L - a * E)^2 + Q))).
  { assert (K : radial_potential a E L Q r2 = 0) by (rewrite F; ring). unfold radial_potential in K. lra. }
  assert (D : 0 <= Delta a r2).
  { apply Rnot_lt_le. intros N. pose proof (pow2_ge_0 (E * (r2^2 + a^2) - a * L)). pose proof (pow2_ge_0 (L - a * E)).
    assert (0 < r2^2) by (apply pow_lt; lra). assert (0 < - Delta a r2 * (r2^2 + ((L - a * E)^2 + Q))) by (apply Rmult_lt_0_compat; lra). lra. }
  unfold Delta in D. apply Rnot_le_lt. intros N. nra.
Qed.

(** the orbit in the variables of P_Apex *)
Lemma core x l : -1 <= x <= 1 -> 0 <= l -> L = x * l -> Q = (1 - x^2) * (a^2 * (1 - E^2) + l^2) ->
  let c := r1 / r2 in let k := a^2 * (1 - x^2) in let b := a * x in let y := l - b * E in let t := k / r2^2 in
  dom c t /\ 0 <= k /\ 1 < r2 /\ b^2 + k < 1 /\
  E^2 = al_ c r2 + be_ c t r2 * y^2 /\ P_ c t r2 b + W_ c t r2 * y^2 = 2 * b * (E * y) /\
  y^2 < Yc_ c t r2 /\ 0 < y /\ bc c k r2 < b.
Proof.
  intros Hx Hl EL EQ c k b y t. pose proof HB as (F & O4 & O3 & O2 & Hm). pose proof r4_nonneg as R4.
  pose proof r2_outside as R2.
  pose proof (pow2_ge_0 a) as A2. assert (A21 : a^2 < 1) by nra. assert (X2 : 0 <= 1 - x^2 <= 1) by nra.
  assert (Hk : 0 <= k < 1) by (unfold k; nra).
  assert (Hbk : b^2 + k < 1) by (unfold b, k; replace ((a * x)^2 + a^2 * (1 - x^2)) with (a^2) by ring; lra).
  assert (Hc : 1 <= c) by (unfold c; apply Rle_div_r; lra).
  assert (Ec : c * r2 = r1) by (unfold c; field; lra).
  assert (RP : forall r, Rp k b E y r = (E^2 - 1) * (r - c * r2) * (r - r2) * (r - r3) * (r - r4)).
  { intros r. rewrite Ec. transitivity (radial_potential a E L Q r).
    - rewrite EL, EQ. unfold Rp, radial_potential, Delta, y, b, k. ring.
    - rewrite F. ring. }
  destruct (inner_roots c k r2 b E y r3 r4 Hc Hk R2 HE1 RP ltac:(lra) O3) as (Hd & E1 & E2 & HY). fold t in Hd, E1, E2, HY.
  assert (Hly : 0 <= y + b * E) by (unfold y; lra).
  pose proof (sol_y c k r2 b E y Hd ltac:(lra) R2 Hbk HE Hly E1 E2) as Y0.
  pose proof (sol_above_critical c k r2 b E y Hd ltac:(lra) R2 Hbk HE Hly E1 E2 HY) as BC.
  exact (conj Hd (conj (proj1 Hk) (conj R2 (conj Hbk (conj E1 (conj E2 (conj HY (conj Y0 BC)))))))).
Qed.

(** the x of apex_from_constants *)
Lemma apex_x : exists x l zp, -1 <= x <= 1 /\ 0 <= l /\ L = x * l /\ Q = (1 - x^2) * (a^2 * (1 - E^2) + l^2) /\
  polar_roots_of (Some a) (Some E) (Some L) (Some Q) = Ret (Some (1 - x^2), zp) /\ x = Rsgn L * sqrt (x^2).
Proof.
  pose proof HB as (F & O4 & O3 & O2 & Hm). pose proof r4_nonneg as R4.
  destruct (polar_split a E L Q) as (z & l & zp & Hz & Hl & EL & EQ & PR); try lra.
  { intros A0. apply Rnot_le_lt. intros K. pose proof (pow2_ge_0 L) as L2.
    assert (Q0 : Q = 0) by lra. assert (L0 : L = 0) by nra.
    assert (1 < r2) by apply r2_outside.
    pose proof (F 1) as G1. pose proof (F (-1)) as G2. pose proof (F 0) as G0. pose proof (F 2) as G3. pose proof (F (-2)) as G4.
    unfold radial_potential, Delta in G0, G1, G2, G3, G4. rewrite A0, L0, Q0 in G0, G1, G2, G3, G4.
    assert (C2 : (1 - E^2) * (r1 * r2 + (r1 + r2) * (r3 + r4) + r3 * r4) = 0) by lra.
    assert (0 < r1 * r2) by (apply Rmult_lt_0_compat; lra). assert (0 <= r3 * r4) by (apply Rmult_le_pos; lra).
    assert (0 <= (r1 + r2) * (r3 + r4)) by (apply Rmult_le_pos; lra).
    assert (0 < (1 - E^2) * (r1 * r2 + (r1 + r2) * (r3 + r4) + r3 * r4)) by (apply Rmult_lt_0_compat; lra). lra. }
  set (x0 := sqrt (1 - z)). assert (X0 : 0 <= x0) by apply sqrt_pos. assert (X2 : x0^2 = 1 - z) by (apply pow2_sqrt; lra).
  assert (X1 : x0 <= 1) by nra.
  assert (ABS : Rabs L = x0 * l).
  { assert (0 <= x0 * l) by (apply Rmult_le_pos; assumption). rewrite <- (Rabs_right (x0 * l)) by lra.
    apply Rsqr_eq_abs_0. unfold Rsqr. transitivity (L^2); [ring|]. rewrite EL, <- X2. ring. }
  destruct (Rtotal_order L 0) as [K|[K|K]].
  - exists (- x0), l, (Some zp). rewrite Rabs_left in ABS by exact K. rewrite Rsgn_neg by exact K.
    replace ((- x0)^2) with (x0^2) by ring. rewrite sqrt_pow2 by exact X0.
    refine (conj _ (conj Hl (conj _ (conj _ (conj _ _))))); [lra | lra | rewrite X2, EQ; ring | rewrite X2; replace (1 - (1 - z)) with z by ring; exact PR | lra].
  - assert (Z1 : z = 1).
    { rewrite K, Rabs_R0 in ABS. destruct (Req_dec x0 0) as [X00|X00]; [rewrite X00 in X2; lra|]. exfalso.
      assert (l = 0) as L0 by nra.
      destruct (core x0 l) as (_ & _ & _ & _ & _ & _ & _ & Y0 & _); [lra | lra | rewrite K, L0; ring | rewrite X2, EQ; ring|].
      rewrite L0 in Y0. assert (0 <= a * x0 * E) by (apply Rmult_le_pos; [apply Rmult_le_pos|]; lra). lra. }
    exists 0, l, (Some zp).
    refine (conj _ (conj Hl (conj _ (conj _ (conj _ _))))); [lra | rewrite K; ring | rewrite EQ, Z1; ring | replace (1 - 0^2) with z by (rewrite Z1; ring); exact PR |].
    replace (0^2) with 0 by ring. rewrite sqrt_0. ring.
  - exists x0, l, (Some zp). rewrite Rabs_right in ABS by lra. rewrite Rsgn_pos by exact K. rewrite sqrt_pow2 by exact X0.
    refine (conj _ (conj Hl (conj _ (conj _ (conj _ _))))); [lra | lra | rewrite X2, EQ; ring | rewrite X2; replace (1 - (1 - z)) with z by ring; exact PR | lra].
Qed.

Theorem C63_apex_of_bound_constants :
  exists p e x,
  apex_from_constants (Some a) (Some E) (Some L) (Some Q) = Ret (Some a, Some p, Some e, Some x) /\
  0 <= e < 1 /\ -1 <= x <= 1 /\ p / (1 + e) = r2 /\ p / (1 - e) = r1 /\
  (0 < x -> 0 < L) /\ (x < 0 -> L < 0) /\ (x = 0 -> L = 0) /\
  is_stable (Some a) (Some p) (Some e) (Some x) = Ret true /\
  check_constants_params a p e x = Ret tt /\
  (~ exceptional a p e x ->
   constants_of_motion (Some a) (Some p) (Some e) (Some x) = Ret (Some E, Some L, Some Q)).
Proof.
  pose proof HB as (F & O4 & O3 & O2 & Hm). pose proof r4_nonneg as R4. pose proof r2_outside as R2.
  destruct apex_x as (x & l & zp & Hx & Hl & EL & EQ & PR & Sx).
  destruct (core x l Hx Hl EL EQ) as (Hd & Hk & _ & Hbk & E1 & E2 & HY & Y0 & BC).
  set (p := 2 * r1 * r2 / (r1 + r2)). set (e := (r1 - r2) / (r1 + r2)).
  assert (N1 : 1 + e = 2 * r1 / (r1 + r2)) by (unfold e; field; lra).
  assert (N2 : 1 - e = 2 * r2 / (r1 + r2)) by (unfold e; field; lra).
  assert (Eq2 : p / (1 + e) = r2) by (rewrite N1; unfold p; field; lra).
  assert (Eq1 : p / (1 - e) = r1) by (rewrite N2; unfold p; field; lra).
  assert (He : 0 <= e < 1).
  { split; [unfold e; apply Rmult_le_pos; [lra | left; apply Rinv_0_lt_compat; lra] |]. assert (0 < 2 * r2 / (r1 + r2)) by (apply Rdiv_lt_0_compat; lra). lra. }
  assert (Ecc : cc e = r1 / r2) by (unfold cc; rewrite N1, N2; field; lra).
  assert (AP : apex_from_constants (Some a) (Some E) (Some L) (Some Q) = Ret (Some a, Some p, Some e, Some x)).
  { unfold apex_from_constants. rewrite radial_poly_some.
    assert (PL : polyroots (radial_poly a E L Q) = map (fun x => (x, 0)) [r4; r3; r2; r1]).
    { pose proof (F 0) as F0. pose proof (F 1) as F1. pose proof (F (-1)) as F2. pose proof (F 2) as F3. pose proof (F (-2)) as F4.
      unfold radial_potential, Delta in *. cbn [map]. unfold radial_poly. rnum. apply (poly4_real HP (E^2 - 1)); try lra. }
    rewrite (real_of_roots_some _ _ PL). cbn [bind map unpack4]. rewrite PR. cbn [bind].
    assert (S0 : r1 + r2 <> 0) by lra. cnum. rewrite !(cdiv_some _ _ S0). cbv beta iota.
    replace (1 - (1 - x^2)) with (x^2) by ring. rewrite csqrt_some by apply pow2_ge_0.
    change (nsign (Some L)) with (Some (Rsgn L)). cbv beta iota.
    rewrite <- Sx. reflexivity. }
  clearbody p e.
  assert (SEP : exists s, separatrix a e x = Ret s /\ s < p).
  { destruct (separatrix_total HX a e x Ha ltac:(lra) Hx) as (s & Hs & _). exists s. split; [exact Hs|].
    destruct (separatrix_exact HX a e x s Ha He Hx Hs) as (Q1 & D1 & B1). rewrite Ecc in D1, B1.
    apply Rnot_le_lt. intros K. set (qs := s / (1 + e)) in *.
    assert (Kq : r2 <= qs) by (rewrite <- Eq2; unfold qs; apply Rmult_le_compat_r; [left; apply Rinv_0_lt_compat; lra | exact K]).
    destruct Kq as [Kq|Kq]; [|rewrite <- Kq in B1; lra].
    pose proof (bc_decreases (r1 / r2) (a^2 * (1 - x^2)) r2 qs Hk ltac:(lra) Hd). lra. }
  destruct SEP as (s & Hs & Hsp).
  assert (CK : check_constants_params a p e x = Ret tt).
  { destruct (check_constants_cases a p e x (proj1 Ha)) as (_ & _ & C). rewrite (C s) by (repeat split; lra || exact Hs).
    destruct (Rlt_dec s p); [reflexivity | contradiction]. }
  exists p, e, x. refine (conj AP (conj He (conj Hx (conj Eq2 (conj Eq1 (conj _ (conj _ (conj _ (conj _ (conj CK _)))))))))).
  { intros K. apply Rnot_le_lt. intros [N|N]; [rewrite Rsgn_neg in Sx by exact N; pose proof (sqrt_pos (x^2)); lra|].
    rewrite EL in N. assert (l = 0) by nra. subst l. assert (0 <= a * x * E) by (apply Rmult_le_pos; [apply Rmult_le_pos|]; lra). lra. }
  { intros K. apply Rnot_le_lt. intros N. pose proof (sqrt_pos (x^2)).
    assert (0 <= Rsgn L) by (unfold Rsgn; destruct (Rlt_dec 0 L); [lra|]; destruct (Rlt_dec L 0); lra).
    assert (0 <= Rsgn L * sqrt (x^2)) by (apply Rmult_le_pos; lra). lra. }
  { intros K. rewrite EL, K. ring. }
  { unfold is_stable. rewrite separatrix_lift, Hs. cbn [lift bind]. change (nltb (Some s) (Some p)) with (Some (Rltb s p)).
    rewrite Rltb_true by exact Hsp. reflexivity. }
  intros NX.
  assert (SS1 : spin_sign a = 1) by (unfold spin_sign; destruct (Rlt_dec a 0); [lra | reflexivity]).
  pose proof (C50_finite_exactly HX a p e x) as FE. cbv zeta in FE. rewrite SS1, Rmult_1_r, Rabs_right in FE by lra.
  destruct (proj2 (FE CK) NX) as (E' & L' & Q' & HC).
  rewrite HC.
  destruct (orbit_equations HX a p e x E' L' Q' ltac:(lra) ltac:(lra) HC) as (y' & _ & HQ' & HL' & X1 & X2 & Br1 & Br2 & HE').
  rewrite Eq2, Ecc in X1, X2, Br2.
  destruct (C14_polar_turning_point HX a p e x E' L' Q' HC) as (_ & S1 & S2 & _). rewrite SS1, Rmult_1_r in S1, S2.
  assert (Hl' : 0 <= y' + a * x * E').
  { destruct (Rtotal_order x 0) as [K|[K|K]].
    - specialize (S2 K). rewrite HL' in S2. nra.
    - rewrite K in *. specialize (Br1 ltac:(lra)). lra.
    - specialize (S1 K). rewrite HL' in S1. nra. }
  assert (BC' : y'^2 < Yc_ (r1 / r2) (a^2 * (1 - x^2) / r2^2) r2).
  { apply (below_critical (r1 / r2) (a^2 * (1 - x^2)) r2 (a * x) E' y'); assumption. }
  destruct (sol_unique (r1 / r2) (a^2 * (1 - x^2)) r2 (a * x) E (l - a * x * E) E' y') as [<- Ey]; try assumption; try lra.
  assert (El : y' + a * x * E = l) by lra.
  repeat f_equal; [rewrite HL', El | rewrite HQ', El]; auto.
Qed.
End B.
End S.

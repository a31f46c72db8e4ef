(** * Property C58: plunges whose four radial roots are real (plunge.py:614-713) *)
From Coq Require Import Reals Lra Lia ZArith String List Psatz.
From Coquelicot Require Import Coquelicot.
From Verif Require Import Num Outcome External Checked ExternalSpec Spec SpecElliptic Elliptic.
From Verif Require Import Model_Units Model_Constants Model_Frequencies Model_Stable Model_Plunge.
From Verif Require Import P_Validation P_Poly P_Roots Props_Constants Props_Elliptic Props_Elliptic2 P_Radial P_Polar P_Traj P_Traj2 P_Traj3 Props_Stability3.
From Verif Require Import Props_Trajectory Props_Plunge P_Plunge Props_Plunge2 P_RealPlunge.
Import ListNotations.
Open Scope R_scope.

(** the initial data has four real radial roots, returned as (r1, r2, r3, r4); neither r1 nor r2 is a double root *)
Definition real_plunge {X : External R} (a E L Q r1 r2 r3 r4 : R) : Prop :=
  plunging_radial_roots (Some a) (Some E) (Some L) (Some Q) = Ret (RealRoots (Some r1) (Some r2) (Some r3) (Some r4)) /\
  r1 <> r4 /\ r2 <> r3.
(** the conserved quantities do not make E (r^2 + a^2) - a L vanish on a horizon *)
Definition not_marginal (a E L : R) : Prop := forall h, Delta a h = 0 -> 2 * E * h <> a * L.

Lemma shift_sum4 (f g : R -> R) q0 u v w p s k l df dg :
  is_derive f (v * l + p) df -> is_derive g (w * l + s) dg ->
  is_derive (fun l => q0 + u * l + f (v * l + p) + g (w * l + s) - k) l (u + v * df + w * dg).
Proof.
  intros D1 D2. auto_derive.
  - repeat split; eexists; eassumption.
  - rewrite (is_derive_unique (fun x : R => f x) _ _ D1), (is_derive_unique (fun x : R => g x) _ _ D2). ring.
Qed.

Section Plunge.
Context {X : External R} (HP : polyroots_spec X) (HX : special_spec X).
Context (a E L Q : R) (Ha : 0 < a^2 < 1) (HE : E^2 < 1) (HL : L <> 0) (HQ : 0 <= Q).
Lemma a_nz : a <> 0. Proof. intros ->. lra. Qed.
Local Notation An := a_nz.

(** ** where the roots lie *)
Section Roots.
Context (r1 r2 r3 r4 : R) (HC : real_plunge a E L Q r1 r2 r3 r4).
Local Notation c := (1 - E^2).
Lemma real_order : 
  (forall r, radial_potential a E L Q r = c * (r1 - r) * (r - r2) * (r - r3) * (r - r4)) /\
  ((r4 <= r3 /\ r3 < r2 /\ r2 <= r1 /\ r3 <= rm a) \/ (r2 <= r1 /\ r1 < r4 /\ r4 <= r3 /\ rm a < r1)).
Proof.
  destruct HC as (H & N1 & N2). destruct (C36_returned_roots HP a E L Q _ H) as (_ & [(s1 & s2 & s3 & s4 & K & F & O)|(s1 & s2 & u & v & K & _)]); [|discriminate].
  assert (s1 = r1 /\ s2 = r2 /\ s3 = r3 /\ s4 = r4) as (-> & -> & -> & ->) by (repeat split; congruence).
  split; [exact F|]. unfold rm. destruct O as [O|O]; [left|right]; repeat split; try tauto; lra.
Qed.
Lemma negative_r r : r < 0 -> radial_potential a E L Q r < 0.
Proof.
  intros H. replace (radial_potential a E L Q r)
    with (- (a^2 * Q) + (2 * (L - a * E)^2 + 2 * Q) * r - (a^2 * (1 - E^2) + L^2 + Q) * r^2 + 2 * r^3 - (1 - E^2) * r^4)
    by (unfold radial_potential, Delta; ring).
  pose proof (pow2_ge_0 (L - a * E)). pose proof (pow2_ge_0 L).
  assert (0 <= a^2 * Q) by (apply Rmult_le_pos; lra).
  assert ((2 * (L - a * E)^2 + 2 * Q) * r <= 0) by (assert (0 <= (2 * (L - a * E)^2 + 2 * Q) * - r) by (apply Rmult_le_pos; lra); lra).
  assert (0 < r^2) by (apply pow2_gt_0; lra).
  assert (0 <= (a^2 * (1 - E^2) + L^2 + Q) * r^2).
  { apply Rmult_le_pos; [|lra]. assert (0 <= a^2 * (1 - E^2)) by (apply Rmult_le_pos; lra). lra. }
  assert (0 < - r^3). { replace (- r^3) with (r^2 * - r) by ring. apply Rmult_lt_0_compat; lra. }
  assert (0 < (1 - E^2) * r^4). { apply Rmult_lt_0_compat; [lra|]. replace (r^4) with (r^2 * r^2) by ring. apply Rmult_lt_0_compat; lra. }
  lra.
Qed.
Lemma root_nonneg r : radial_potential a E L Q r = 0 -> 0 <= r.
Proof. intros H. apply Rnot_lt_le. intros K. apply negative_r in K. lra. Qed.
Lemma real_signs : 0 <= r2 <= r1 /\ 0 < r1 /\ 0 <= r3 /\ 0 < sr2 c r1 r2 r3 r4 /\ 0 <= kr2 r1 r2 r3 r4 < 1 /\ 0 < (r1 - r3) * (r2 - r3).
Proof.
  destruct real_order as [F O].
  assert (Z1 : 0 <= r1) by (apply root_nonneg; rewrite F; ring).
  assert (Z2 : 0 <= r2) by (apply root_nonneg; rewrite F; ring).
  assert (Z3 : 0 <= r3) by (apply root_nonneg; rewrite F; ring).
  assert (Rm0 : 0 <= rm a).
  { unfold rm. assert (K : sqrt (1 - a^2) <= sqrt 1) by (apply sqrt_le_1; lra). rewrite sqrt_1 in K. lra. }
  assert (P : 0 < (r1 - r3) * (r2 - r4)).
  { destruct O as [O|O]; [apply Rmult_lt_0_compat; lra|].
    replace ((r1 - r3) * (r2 - r4)) with ((r3 - r1) * (r4 - r2)) by ring. apply Rmult_lt_0_compat; lra. }
  assert (P2 : 0 < (r1 - r4) * (r2 - r3)).
  { destruct O as [O|O]; [apply Rmult_lt_0_compat; lra|].
    replace ((r1 - r4) * (r2 - r3)) with ((r4 - r1) * (r3 - r2)) by ring. apply Rmult_lt_0_compat; lra. }
  assert (P3 : 0 <= (r1 - r2) * (r3 - r4)) by (apply Rmult_le_pos; destruct O; lra).
  refine (conj (conj Z2 _) (conj _ (conj Z3 (conj _ (conj (conj _ _) _))))).
  - destruct O; lra.
  - destruct O; lra.
  - unfold sr2. rewrite Rmult_assoc. apply Rmult_lt_0_compat; lra.
  - unfold kr2. apply Rdiv_le_0_compat; lra.
  - unfold kr2. apply Rlt_div_l; lra.
  - destruct O as [O|O]; [apply Rmult_lt_0_compat; lra|].
    replace ((r1 - r3) * (r2 - r3)) with ((r3 - r1) * (r3 - r2)) by ring. apply Rmult_lt_0_compat; lra.
Qed.
Lemma potential_on_horizon h : Delta a h = 0 -> radial_potential a E L Q h = (2 * E * h - a * L)^2.
Proof. intros H. unfold radial_potential. rewrite H. unfold Delta in H. replace (h^2 + a^2) with (2 * h) by lra. ring. Qed.
Context (HN : not_marginal a E L).
Lemma Delta_rm : Delta a (rm a) = 0. Proof. rewrite Delta_rpm' by lra. ring. Qed.
Lemma Delta_rp : Delta a (rp a) = 0. Proof. rewrite Delta_rpm' by lra. ring. Qed.
Lemma no_root_between r : rm a <= r <= rp a -> radial_potential a E L Q r <> 0.
Proof.
  intros H Z. pose proof (Delta_rpm' a (proj2 Ha) r) as D.
  assert (D0 : Delta a r <= 0) by (rewrite D; clear - H; nra).
  destruct (Req_dec (Delta a r) 0) as [D1|D1].
  - rewrite (potential_on_horizon r D1) in Z. apply (HN r D1). assert (2 * E * r - a * L = 0); [|lra].
    destruct (Req_dec (2 * E * r - a * L) 0) as [K|K]; [exact K|]. pose proof (pow2_gt_0 _ K). lra.
  - assert (0 < r).
    { assert (0 < rm a); [|lra]. destruct (rpm' a (proj2 Ha)) as (S0 & S1 & S2 & _). unfold rm, rp in *. 
      assert (K : sqrt (1 - a^2) < sqrt 1) by (apply sqrt_lt_1; lra). rewrite sqrt_1 in K. lra. }
    unfold radial_potential in Z. pose proof (pow2_ge_0 (E * (r^2 + a^2) - a * L)). pose proof (pow2_ge_0 (L - a * E)).
    assert (0 < r^2) by (apply pow_lt; lra).
    assert (0 < - Delta a r * (r^2 + (L - a * E)^2 + Q)) by (apply Rmult_lt_0_compat; lra). lra.
Qed.
(** both horizons lie strictly between the turning points *)
Lemma horizons_inside : r2 < rm a /\ rm a < rp a /\ rp a < r1 /\ r3 - rp a <> 0 /\ r3 - rm a <> 0.
Proof.
  destruct real_order as [F O]. destruct (rpm' a (proj2 Ha)) as (S0 & S1 & S2 & _).
  assert (RM : rm a < 1 < rp a) by (unfold rm, rp; lra).
  assert (T : forall r, (r1 - r) * (r - r2) * (r - r3) * (r - r4) = 0 -> r < rm a \/ rp a < r).
  { intros r K. destruct (Rlt_dec r (rm a)); [now left|]. destruct (Rlt_dec (rp a) r); [now right|].
    exfalso. apply (no_root_between r); [lra|]. rewrite F. rewrite !Rmult_assoc in *. rewrite K. ring. }
  assert (T1 := T r1 ltac:(ring)). assert (T2 := T r2 ltac:(ring)). assert (T3 := T r3 ltac:(ring)). assert (T4 := T r4 ltac:(ring)).
  assert (P : 0 < radial_potential a E L Q 1).
  { unfold radial_potential, Delta. pose proof (pow2_ge_0 (E * (1^2 + a^2) - a * L)). pose proof (pow2_ge_0 (L - a * E)).
    assert (0 < (1 - a^2) * (1 + (L - a * E)^2 + Q)) by (apply Rmult_lt_0_compat; lra). lra. }
  rewrite F in P. 
  assert (P' : 0 < (r1 - 1) * (1 - r2) * ((1 - r3) * (1 - r4))).
  { apply Rmult_lt_reg_l with c; [lra|]. rewrite Rmult_0_r. rewrite <- !Rmult_assoc. exact P. }
  destruct O as [O|O].
  - assert (0 < (1 - r3) * (1 - r4)) by (apply Rmult_lt_0_compat; lra).
    assert (P2 : 0 < (r1 - 1) * (1 - r2)).
    { apply Rmult_lt_reg_r with ((1 - r3) * (1 - r4)); [lra|]. rewrite Rmult_0_l. exact P'. }
    assert (r2 < 1). { apply Rnot_le_lt. intros K. assert (0 <= (r1 - 1) * (r2 - 1)) by (apply Rmult_le_pos; lra). lra. }
    assert (1 < r1). { apply Rnot_le_lt. intros K. assert (0 <= (1 - r1) * (1 - r2)) by (apply Rmult_le_pos; lra). lra. }
    repeat split; lra.
  - assert (0 < (1 - r3) * (1 - r4)) by (replace ((1 - r3) * (1 - r4)) with ((r3 - 1) * (r4 - 1)) by ring; apply Rmult_lt_0_compat; lra).
    assert (P2 : 0 < (r1 - 1) * (1 - r2)).
    { apply Rmult_lt_reg_r with ((1 - r3) * (1 - r4)); [lra|]. rewrite Rmult_0_l. exact P'. }
    assert (r2 < 1). { apply Rnot_le_lt. intros K. assert (0 <= (r1 - 1) * (r2 - 1)) by (apply Rmult_le_pos; lra). lra. }
    repeat split; lra.
Qed.
Lemma hp2 : (r1 - rp a) * (r2 - rp a) < 0.
Proof. pose proof horizons_inside. assert (0 < (r1 - rp a) * (rp a - r2)) by (apply Rmult_lt_0_compat; lra). lra. Qed.
Lemma hm2 : (r1 - rm a) * (r2 - rm a) < 0.
Proof. pose proof horizons_inside. assert (0 < (r1 - rm a) * (rm a - r2)) by (apply Rmult_lt_0_compat; lra). lra. Qed.
End Roots.

(** ** the polar data *)
Local Notation A2 := (a^2 * (1 - E^2)).
Local Notation zm := (pzm a E L Q).
Local Notation zp := (pzp a E L Q).
Local Notation be := (pbeta a E L Q).
Local Notation Kt := (ellK (kt2 A2 zm be)).
Lemma Hz : 0 <= zm < 1. Proof. apply pz_order; try assumption. apply An. Qed.
Lemma Hb : 0 < be. Proof. apply pbeta_pos; try assumption. apply An. Qed.
Lemma Hkt : 0 <= kt2 A2 zm be < 1. Proof. apply pkt; try assumption. apply An. Qed.
Lemma A2_pos : 0 < A2. Proof. apply Rmult_lt_0_compat; lra. Qed.
Lemma Hbeta : be = (A2 * (1 - zm) + L^2) / (1 - zm).
Proof.
  pose proof (p_factor a E L Q An HE HL HQ 1) as F. unfold polar_polynomial in F. pose proof Hz as Z.
  apply (Rmult_eq_reg_r (1 - zm)); [|lra]. transitivity (A2 * (1 - zm) + L^2); [lra | field; lra].
Qed.
Lemma kt_val : kt2 A2 zm be = zm / zp.
Proof.
  pose proof A2_pos. pose proof (pz_order a E L Q An HE HL HQ). unfold kt2, pbeta. field. pose proof An. repeat split; try assumption; lra.
Qed.
Lemma Hk : ktheta_of (Some a) (Some zm) (Some zp) = Some (sqrt (kt2 A2 zm be)).
Proof.
  pose proof (pz_order a E L Q An HE HL HQ) as Z. pose proof Hkt as K. rewrite kt_val in *. unfold ktheta_of.
  change (neqb (Some a) (nZ 0)) with (Some (Reqb a 0)). rewrite (Reqb_false a 0 An). cbn [nif]. cnum.
  rewrite cdiv_some by lra. apply csqrt_some. lra.
Qed.
Definition ra2s : R := a^2 * zp / (sqrt be / Rabs L).
Lemma Ha2 : a2sqrt_of (Some a) (Some E) (Some L) (Some zm) (Some zp) = Some ra2s.
Proof.
  unfold a2sqrt_of. cnum. rewrite (Reqb_false a 0 An). cbn [nif].
  assert (0 < L^2) by now apply pow2_gt_0. rewrite (cdiv_some _ (L^2)) by lra.
  replace (A2 / L^2 * zp) with (be / L^2) by (unfold pbeta; field; assumption).
  rewrite (sqrt_e0zp L be HL Hb). rewrite cdiv_some; [reflexivity|]. apply Rgt_not_eq, Rdiv_lt_0_compat; [apply sqrt_lt_R0, Hb | now apply Rabs_pos_lt].
Qed.
Lemma HA : ra2s * sqrt be / Rabs L * kt2 A2 zm be = a^2 * zm.
Proof.
  pose proof (pz_order a E L Q An HE HL HQ) as Z. pose proof (sqrt_lt_R0 _ Hb). pose proof (Rabs_pos_lt _ HL).
  rewrite kt_val. unfold ra2s. field. repeat split; lra.
Qed.
Lemma polar_roots_run : polar_roots_of (Some a) (Some E) (Some L) (Some Q) = Ret (Some zm, Some zp).
Proof.
  unfold polar_roots_of. rewrite polar_poly_some.
  change (neqb (Some a) (nZ 0)) with (Some (Reqb a 0)). rewrite (Reqb_false a 0 An).
  rewrite (real_of_roots_some _ [zm; zp]); [reflexivity|].
  pose proof (p_factor a E L Q An HE HL HQ 0) as F0. pose proof (p_factor a E L Q An HE HL HQ 1) as F1.
  pose proof (pz_order a E L Q An HE HL HQ) as Z. pose proof A2_pos as AP. unfold polar_polynomial, pbeta in *.
  cbn [map]. unfold polar_poly. rnum. apply (poly2_real HP A2); try lra.
Qed.

(** ** the frequencies *)
Section Run.
Context (r1 r2 r3 r4 : R) (HC : real_plunge a E L Q r1 r2 r3 r4).
Local Notation c := (1 - E^2).
Local Notation mr := (kr2 r1 r2 r3 r4).
Local Notation rrs := (Some r1, Some r2, Some r3, Some r4).
Definition rur : R := PI * sqrt (sr2 c r1 r2 r3 r4) / (2 * ellK mr).
Definition rut : R := PI * sqrt be / (2 * Kt).
Definition rv : R := PI * L * (sqrt be / Rabs L) / (2 * Kt).
Definition rup : R := L * ellPi zm (PI / 2) (kt2 A2 zm be) / Kt + Gth_p a E L r1 r2 r3 r4.
Definition rga : R := 4 * E + Gth a E L zm be ra2s + Gth_t a E L r1 r2 r3 r4.
Lemma Kt_pos' : 0 < Kt. Proof. apply ellK_pos, Hkt. Qed.
Lemma rut_pos : 0 < rut.
Proof. pose proof Kt_pos'. pose proof PI_RGT_0. pose proof (sqrt_lt_R0 _ Hb). apply Rdiv_lt_0_compat; [apply Rmult_lt_0_compat|]; lra. Qed.
Lemma rur_pos : 0 < rur.
Proof.
  destruct (real_signs _ _ _ _ HC) as (_ & _ & _ & Hs & Hm & _). pose proof PI_RGT_0. pose proof (s_pos _ _ _ _ _ Hs). pose proof (K_pos _ _ _ _ Hm).
  apply Rdiv_lt_0_compat; [now apply Rmult_lt_0_compat | lra].
Qed.
Lemma rv_abs : Rabs rv = rut.
Proof.
  pose proof rut_pos as P. pose proof (Rabs_pos_lt _ HL) as L0. pose proof Kt_pos' as K0. unfold rv, rut in *.
  replace (PI * L * (sqrt be / Rabs L) / (2 * Kt)) with (L / Rabs L * (PI * sqrt be / (2 * Kt))) by (field; lra).
  rewrite Rabs_mult, (Rabs_pos_eq (PI * sqrt be / (2 * Kt))) by lra.
  replace (Rabs (L / Rabs L)) with 1; [ring|]. unfold Rdiv. rewrite Rabs_mult, Rabs_inv, Rabs_Rabsolu. field. lra.
Qed.
Lemma theta_freq_real : theta_frequency_from_constants (Some a) (Some E, Some L, Some Q) rrs (Some zm, Some zp) = Ret (Some rv).
Proof.
  unfold theta_frequency_from_constants. change (neqb (Some a) (nZ 0)) with (Some (Reqb a 0)). rewrite (Reqb_false a 0 An). cbn [ifo]. f_equal.
  unfold theta_freq_formula. rewrite (e0zp_run a E L zm be Hz HL Hbeta). pose proof Hk as K. unfold ktheta_of in K.
  change (neqb (Some a) (nZ 0)) with (Some (Reqb a 0)) in K. rewrite (Reqb_false a 0 An) in K. cbn [nif] in K. rewrite K. cnum.
  rewrite (kt_sq _ _ _ _ Hz Hkt), (ellipk_checked HX), (sqrt_e0zp L be HL Hb) by apply Hkt. pose proof Kt_pos'. rewrite cdiv_some by lra. reflexivity.
Qed.
Lemma e_run : exists e, ndiv (nsub (Some r1) (Some r2)) (nadd (Some r1) (Some r2)) = Some e /\ (e = 1 <-> r2 = 0).
Proof.
  destruct (real_signs _ _ _ _ HC) as (H2 & H1 & _). cnum. rewrite cdiv_some by lra. eexists. split; [reflexivity|]. split; intros Z.
  - assert (r1 - r2 = r1 + r2); [|lra]. transitivity ((r1 - r2) / (r1 + r2) * (r1 + r2)); [field; lra | rewrite Z; ring].
  - rewrite Z. field. lra.
Qed.
Lemma freqs_real : exists up ga,
  mino_frequencies_from_constants (Some a) (Some E, Some L, Some Q) rrs (Some zm, Some zp) = Ret (Some rur, Some rut, up, ga) /\
  (r2 = 0 -> ga = None) /\ (not_marginal a E L -> up = Some rup /\ (r2 <> 0 -> ga = Some rga)).
Proof.
  destruct (real_signs _ _ _ _ HC) as (H2 & H1 & H3 & Hs & Hm & Ho).
  unfold mino_frequencies_from_constants, r_frequency_from_constants. rewrite (r_freq_run HX E r1 r2 r3 r4 Hs Hm Ho). fold rur.
  rewrite theta_freq_real. cbn [bind]. unfold phi_frequency_from_constants, gamma_from_constants.
  change (neqb (Some a) (nZ 0)) with (Some (Reqb a 0)). rewrite (Reqb_false a 0 An). cbn [ifo default bind].
  destruct e_run as (e & -> & He). change (neqb (Some e) (nZ 1)) with (Some (Reqb e 1)).
  assert (PP : not_marginal a E L -> phi_freq_formula (Some a) (Some E) (Some L) rrs (Some zm, Some zp) (Some rur) (Some rv) = Some rup).
  { intros HN. destruct (horizons_inside _ _ _ _ HC HN) as (_ & _ & _ & N3 & N4).
    pose proof PI_RGT_0. pose proof Kt_pos'. pose proof (sqrt_lt_R0 _ Hb). pose proof (Rabs_pos_lt _ HL).
    apply (phi_run' HX a E L zm (Some zp) be Hz HL Hb Hkt Hbeta Hk r1 r2 r3 r4 Hs Hm Ho (proj2 Ha) (hp2 _ _ _ _ HC HN) (hm2 _ _ _ _ HC HN) N3 N4); [|apply An].
    unfold rv. field. repeat split; lra. }
  destruct (Req_dec r2 0) as [Z|Z].
  - rewrite (Reqb_true e 1) by tauto. cbn [ifo bind]. do 2 eexists. split; [|split; [reflexivity|]].
    + change (nabs (Some rv)) with (Some (Rabs rv)). rewrite rv_abs. reflexivity.
    + intros HN. split; [now apply PP | intros; contradiction].
  - rewrite (Reqb_false e 1) by tauto. cbn [ifo bind]. do 2 eexists. split; [|split; [intros; contradiction|]].
    + change (nabs (Some rv)) with (Some (Rabs rv)). rewrite rv_abs. reflexivity.
    + intros HN. split; [now apply PP|]. intros _. destruct (horizons_inside _ _ _ _ HC HN) as (_ & _ & _ & N3 & N4).
      pose proof PI_RGT_0. pose proof Kt_pos'. pose proof (sqrt_lt_R0 _ Hb). pose proof (Rabs_pos_lt _ HL).
      apply (gamma_run' HX a E L zm (Some zp) be ra2s Hz HL Hkt Hk Ha2 r1 r2 r3 r4 Hs Hm Ho (proj2 Ha) (hp2 _ _ _ _ HC HN) (hm2 _ _ _ _ HC HN) N3 N4).
      unfold rv, Gth. field. repeat split; lra.
Qed.

(** ** the coordinate functions *)
Local Notation rho_ := (rho r1 r2 r3 (psi_r (X := X) r1 r2 r3 r4)).
Local Notation th_ := (th zm (psi_t (X := X) a E zm be)).
Local Notation tr_ := (trh (X := X) a E L r1 r2 r3 r4).
Local Notation pr_ := (phrh (X := X) a E L r1 r2 r3 r4).
Local Notation tt_ := (tth (X := X) a E L zm be ra2s).
Local Notation pt_ := (pth (X := X) a E L zm be).
Context (qt qr qth qph : R).
Definition rlr (l : R) : R := rho_ (rur * l + qr).
Definition rlth (l : R) : R := th_ (rut * l + qth).
Definition rlt (l : R) : R := qt + rga * l + tr_ (rur * l + qr) + tt_ (rut * l + qth) - (tr_ qr + tt_ qth).
Definition rlph (l : R) : R := qph + rup * l + pr_ (rur * l + qr) + pt_ (rut * l + qth) - (pr_ qr + pt_ qth).
Lemma off_horizon q : Delta a (rho_ q) <> 0 -> rho_ q - rp a <> 0 /\ rho_ q - rm a <> 0.
Proof. intros H. rewrite Delta_rpm' in H by lra. split; intros Z; apply H; rewrite Z; ring. Qed.

Lemma run_real : exists T1 T2 T3 T4, plunge_run a E L Q qt qr qth qph = Ret (T1, T2, T3, T4) /\
  (forall l, T2 (Some l) = Ret (Some (rlr l)) /\ T3 (Some l) = Ret (Some (rlth l))) /\
  (r2 = 0 -> forall l, T1 (Some l) = Ret None) /\
  (not_marginal a E L -> Delta a (rlr 0) <> 0 -> forall l, Delta a (rlr l) <> 0 ->
     T4 (Some l) = Ret (Some (rlph l)) /\ (r2 <> 0 -> T1 (Some l) = Ret (Some (rlt l)))).
Proof.
  destruct freqs_real as (up & ga & HF & F0 & F1). destruct (real_signs _ _ _ _ HC) as (H2 & H1 & H3 & Hs & Hm & Ho).
  unfold plunge_run, plunging_trajectory. rewrite (proj1 HC). cbn [bind]. unfold real_plunge_trajectory.
  change (check_units None "natural" "natural") with (Ret (A := unit) tt). cbn [bind]. rewrite (proj1 HC). cbn [bind].
  rewrite polar_roots_run. cbn [bind]. rewrite HF. cbn [bind fst snd].
  unfold radial_solutions, polar_solutions, unpack2. cbn [bind]. unfold assemble_trajectory.
  change (distance_conversion "natural") with (Ret (fun (d : option R) (_ : option (option R)) => d)).
  change (time_conversion "natural") with (Ret (fun (d : option R) (_ : option (option R)) => d)).
  cbn [bind]. eexists _, _, _, _. split; [reflexivity|]. 
  pose proof (radial_r_run HX E r1 r2 r3 r4 Hs Hm Ho) as R1. pose proof (polar_theta_run HX a E zm (Some zp) be Hz Hkt Hk) as R2.
  pose proof (polar_t_run HX a E L zm (Some zp) be ra2s Hz HL Hkt Hk Ha2) as R3.
  pose proof (polar_phi_run HX a E L zm (Some zp) be Hz HL Hb Hkt Hbeta Hk) as R4.
  split; [|split].
  - intros l. cnum. rewrite R1, R2. split; reflexivity.
  - intros Z l. rewrite (F0 Z). cnum. reflexivity.
  - intros HN N0 l Nl. destruct (F1 HN) as [-> F3]. unfold rlr in N0, Nl. rewrite Rmult_0_r, Rplus_0_l in N0.
    destruct (horizons_inside _ _ _ _ HC HN) as (_ & _ & _ & N3 & N4). destruct (off_horizon _ N0) as [U1 U2]. destruct (off_horizon _ Nl) as [V1 V2].
    pose proof (radial_t_run' HX a E L r1 r2 r3 r4 Hs Hm Ho (proj2 Ha) (hp2 _ _ _ _ HC HN) (hm2 _ _ _ _ HC HN) N3 N4) as Rt.
    pose proof (radial_phi_run' HX a E L r1 r2 r3 r4 Hs Hm Ho (proj2 Ha) (hp2 _ _ _ _ HC HN) (hm2 _ _ _ _ HC HN) N3 N4) as Rp.
    split.
    + cnum. cnum_in Rp; cnum_in R4. rewrite (Rp qr U1 U2), (Rp _ V1 V2), !R4. reflexivity.
    + intros Nz. rewrite (F3 Nz). cnum. cnum_in Rt; cnum_in R3. rewrite (Rt qr U1 U2), (Rt _ V1 V2), !R3. reflexivity.
Qed.

Lemma rlr_ode l : exists d, is_derive rlr l d /\ d^2 = radial_potential a E L Q (rlr l).
Proof.
  destruct (real_order _ _ _ _ HC) as [F _]. destruct (real_signs _ _ _ _ HC) as (H2 & H1 & H3 & Hs & Hm & Ho).
  exists (rur * rho' r1 r2 r3 r4 (ellK mr / PI) (psi_r (X := X) r1 r2 r3 r4) (rur * l + qr)). split.
  - unfold rlr. apply comp_lin. apply (rho_derive (1 - E^2) _ _ _ _ Hs Ho). intros q'. now apply (psi_r_derive HX).
  - rewrite F. apply (rho_ode _ _ _ _ _ Hs Hm Ho).
    pose proof PI_RGT_0. pose proof (K_pos _ _ _ _ Hm). unfold rur.
    replace (PI * sqrt (sr2 c r1 r2 r3 r4) / (2 * ellK mr) * (ellK mr / PI))
      with (sqrt (sr2 c r1 r2 r3 r4) / 2) by (field; lra).
    rewrite <- (pow2_sqrt (sr2 c r1 r2 r3 r4)) at 2 by lra. field.
Qed.
Lemma rlth_ode l : exists d, is_derive rlth l d /\ d^2 = polar_potential a E L Q (rlth l).
Proof.
  exists (rut * th' A2 zm be (2 * Kt / PI) (psi_t (X := X) a E zm be) (rut * l + qth)). split.
  - unfold rlth. apply comp_lin. apply (th_derive _ _ _ Hz). intros q'. apply (psi_t_derive HX), Hkt.
  - rewrite (th_ode _ _ _ Hz Hb Hkt).
    + fold (rlth l). assert (Sn : 0 < sin (rlth l)) by (unfold rlth; apply sin_th_pos, Hz).
      unfold polar_potential. rewrite <- (p_factor a E L Q An HE HL HQ). unfold polar_polynomial.
      replace (cos (rlth l) ^ 2) with (1 - sin (rlth l) ^ 2) by (rewrite cos2_sin2; ring). field. lra.
    + pose proof PI_RGT_0. pose proof Kt_pos'. unfold rut.
      replace (PI * sqrt be / (2 * Kt) * (2 * Kt / PI)) with (sqrt be) by (field; lra). apply pow2_sqrt. left. apply Hb.
Qed.
Lemma rlt_derive l : not_marginal a E L -> Delta a (rlr l) <> 0 -> is_derive rlt l (dt_dlambda a E L (rlr l) (rlth l)).
Proof.
  intros HN Nl. destruct (real_signs _ _ _ _ HC) as (H2 & H1 & H3 & Hs & Hm & Ho). pose proof rur_pos as U. pose proof rut_pos as V.
  destruct (horizons_inside _ _ _ _ HC HN) as (_ & _ & _ & N3 & N4). destruct (off_horizon _ Nl) as [V1 V2].
  pose proof (trh_derive HX a E L r1 r2 r3 r4 Hs Hm Ho (proj2 Ha) (hp2 _ _ _ _ HC HN) (hm2 _ _ _ _ HC HN) N3 N4 _ V1 V2) as D1.
  pose proof (tth_derive HX a E L zm be ra2s Hz HL Hb Hkt HA (rut * l + qth)) as D2. fold rur in D1. fold rut in D2.
  pose proof (Vt_dt' a E L r1 r2 r3 (proj2 Ha) (hm2 _ _ _ _ HC HN) N3 N4 _ (rlth l) V1 V2) as W.
  fold (rlr l) in *. fold (rlth l) in *. rewrite <- W.
  evar_last. { unfold rlt. apply (shift_sum4 tr_ tt_ qt rga rur rut qr qth _ l _ _ D1 D2). }
  unfold rga. field. lra.
Qed.
Lemma rlph_derive l : not_marginal a E L -> Delta a (rlr l) <> 0 -> is_derive rlph l (dphi_dlambda a E L (rlr l) (rlth l)).
Proof.
  intros HN Nl. destruct (real_signs _ _ _ _ HC) as (H2 & H1 & H3 & Hs & Hm & Ho). pose proof rur_pos as U. pose proof rut_pos as V.
  destruct (horizons_inside _ _ _ _ HC HN) as (_ & _ & _ & N3 & N4). destruct (off_horizon _ Nl) as [V1 V2].
  pose proof (phrh_derive HX a E L r1 r2 r3 r4 Hs Hm Ho (proj2 Ha) (hp2 _ _ _ _ HC HN) (hm2 _ _ _ _ HC HN) N3 N4 _ V1 V2) as D1.
  pose proof (pth_derive HX a E L zm be Hz Hb Hkt (rut * l + qth)) as D2. fold rur in D1. fold rut in D2.
  pose proof (Vph_dphi' a E L r1 r2 r3 (proj2 Ha) (hm2 _ _ _ _ HC HN) N3 N4 _ (rlth l) V1 V2) as W.
  fold (rlr l) in *. fold (rlth l) in *. rewrite <- W.
  evar_last. { unfold rlph. apply (shift_sum4 pr_ pt_ qph rup rur rut qr qth _ l _ _ D1 D2). }
  unfold rup. set (Y := L / sin (rlth l)^2) in *. clearbody Y. set (Z := L * _ / Kt) in *. clearbody Z. field. lra.
Qed.
Lemma rlr_continuous l : continuous rlr l.
Proof. destruct (rlr_ode l) as (d & D & _). apply (ex_derive_continuous (V := R_NormedModule)). now exists d. Qed.
Lemma coords_real r theta : coordinates (plunge_run a E L Q qt qr qth qph) r theta -> forall l, r l = rlr l /\ theta l = rlth l.
Proof.
  intros (T1 & T2 & T3 & T4 & H & K) l. destruct run_real as (U1 & U2 & U3 & U4 & H' & K' & _).
  rewrite H in H'. apply Ret_inj in H'. apply pair_equal_spec in H' as [H' _]. apply pair_equal_spec in H' as [H' E3].
  apply pair_equal_spec in H' as [_ E2]. subst U2 U3. destruct (K l) as [K1 K2], (K' l) as [K1' K2'].
  rewrite K1 in K1'. rewrite K2 in K2'. split; congruence.
Qed.

(** ** C58 *)
(** radius and inclination are defined at every Mino time, the radius moves between r2 and r1 and both obey their equations of motion *)
Theorem C58_radial_and_polar_equations :
  exists r theta, coordinates (plunge_run a E L Q qt qr qth qph) r theta /\
  (qr = 0 -> r 0 = r2) /\ (qr = PI -> r 0 = r1) /\ (exists l, r l = r1) /\ (exists l, r l = r2) /\
  forall l, r2 <= r l <= r1 /\ 0 < theta l < PI /\
    (forall z, 0 <= z <= 1 -> polar_polynomial a E L Q z = 0 -> cos (theta l) ^ 2 <= z) /\
    (exists d, is_derive r l d /\ d^2 = radial_potential a E L Q (r l)) /\
    (exists d, is_derive theta l d /\ d^2 = polar_potential a E L Q (theta l)).
Proof.
  destruct (real_signs _ _ _ _ HC) as (H2 & H1 & H3 & Hs & Hm & Ho). pose proof rur_pos as U.
  exists rlr, rlth. split.
  { destruct run_real as (T1 & T2 & T3 & T4 & H & K & _). now exists T1, T2, T3, T4. }
  pose proof (rho_0 HX E r1 r2 r3 r4 Hs Hm Ho) as Z0. pose proof (rho_PI HX E r1 r2 r3 r4 Hs Hm Ho) as Z1.
  refine (conj _ (conj _ (conj _ (conj _ _)))).
  - intros Zq. unfold rlr. rewrite Zq. replace (rur * 0 + 0) with 0 by ring. exact Z0.
  - intros Zq. unfold rlr. rewrite Zq. replace (rur * 0 + PI) with PI by ring. exact Z1.
  - exists ((PI - qr) / rur). unfold rlr. replace (rur * ((PI - qr) / rur) + qr) with PI by (field; lra). exact Z1.
  - exists ((0 - qr) / rur). unfold rlr. replace (rur * ((0 - qr) / rur) + qr) with 0 by (field; lra). exact Z0.
  - intros l. refine (conj _ (conj _ (conj _ (conj (rlr_ode l) (rlth_ode l))))).
    + apply (rx_bounds c _ _ _ _ Hs Ho); [tauto|]. apply sn2_bound.
    + unfold rlth. pose proof (sin_th_pos _ Hz (psi_t (X := X) a E zm be) (rut * l + qth)) as S.
      pose proof (acos_bound (cth zm (psi_t (X := X) a E zm be) (rut * l + qth))) as B.
      fold (th_ (rut * l + qth)) in B. set (t := th_ (rut * l + qth)) in *. clearbody t. split; apply Rnot_le_lt; intros G.
      * replace t with 0 in S by lra. rewrite sin_0 in S. lra.
      * replace t with PI in S by lra. rewrite sin_PI in S. lra.
    + intros z Zb Z. unfold rlth. rewrite cos_th by exact Hz. rewrite (p_factor a E L Q An HE HL HQ) in Z.
      pose proof (cth_sq_bound _ Hz (psi_t (X := X) a E zm be) (rut * l + qth)) as B.
      apply Rmult_integral in Z as [Z|Z]; [lra|]. exfalso.
      pose proof (pz_order a E L Q An HE HL HQ) as [_ Z2]. pose proof A2_pos. unfold pbeta in Z.
      assert (0 < A2 * (zp - z)) by (apply Rmult_lt_0_compat; lra). lra.
Qed.
(** the horizons lie strictly between the turning points; off the horizons the time and the azimuth are defined and obey
    their equations of motion *)
Theorem C58_time_and_azimuth_equations r theta : not_marginal a E L -> r2 <> 0 ->
  coordinates (plunge_run a E L Q qt qr qth qph) r theta -> Delta a (r 0) <> 0 ->
  (forall h, Delta a h = 0 -> r2 < h < r1) /\
  exists T1 T2 T3 T4 t phi, plunge_run a E L Q qt qr qth qph = Ret (T1, T2, T3, T4) /\ t 0 = qt /\ phi 0 = qph /\
  forall l, Delta a (r l) <> 0 ->
    locally l (fun s => T1 (Some s) = Ret (Some (t s)) /\ T4 (Some s) = Ret (Some (phi s))) /\
    is_derive t l (dt_dlambda a E L (r l) (theta l)) /\
    is_derive phi l (dphi_dlambda a E L (r l) (theta l)).
Proof.
  intros HN N2 C N0. pose proof (coords_real r theta C) as Eq. destruct (Eq 0) as [E0 _]. rewrite E0 in N0. split.
  - intros h Hh. destruct (horizons_inside _ _ _ _ HC HN) as (I1 & I2 & I3 & _).
    rewrite (Delta_rpm' a (proj2 Ha)) in Hh. apply Rmult_integral in Hh as [Hh|Hh]; lra.
  - destruct run_real as (T1 & T2 & T3 & T4 & H & _ & _ & K). specialize (K HN N0).
    exists T1, T2, T3, T4, rlt, rlph. split; [exact H | split; [|split]].
    + unfold rlt. rewrite !Rmult_0_r, !Rplus_0_l. ring.
    + unfold rlph. rewrite !Rmult_0_r, !Rplus_0_l. ring.
    + intros l Nl. destruct (Eq l) as [El Et]. rewrite El in Nl. rewrite El, Et. split; [|split; [exact (rlt_derive l HN Nl) | exact (rlph_derive l HN Nl)]].
      assert (O : locally l (fun s => Delta a (rlr s) <> 0)).
      { assert (CD : continuous (fun s => Delta a (rlr s)) l).
        { destruct (rlr_ode l) as (d & D & _). apply (ex_derive_continuous (V := R_NormedModule) (fun s => Delta a (rlr s)) l).
          unfold Delta. auto_derive. repeat split; exists d; exact D. }
        apply (CD (fun y => y <> 0)). now apply open_neq. }
      generalize O. apply filter_imp. intros s Hs. destruct (K s Hs) as [K1 K2]. split; [now apply K2 | exact K1].
Qed.
(** the time coordinate of a plunge that reaches r = 0 is never a number *)
Theorem C58_refuted_time_at_zero_root : r2 = 0 ->
  exists T1 T2 T3 T4, plunge_run a E L Q qt qr qth qph = Ret (T1, T2, T3, T4) /\ forall l, T1 (Some l) = Ret None.
Proof. intros Z. destruct run_real as (T1 & T2 & T3 & T4 & H & _ & K & _). exists T1, T2, T3, T4. split; [exact H|]. exact (K Z). Qed.
End Run.
(** ... and every equatorial plunge below a bound orbit reaches r = 0 *)
Theorem C58_equatorial_reaches_zero r1 r2 r3 r4 : real_plunge a E L Q r1 r2 r3 r4 -> Q = 0 -> r1 < r4 -> r2 = 0.
Proof.
  intros HC Z N. destruct (real_order _ _ _ _ HC) as [F [O|O]]; [lra|]. destruct (real_signs _ _ _ _ HC) as (H2 & H1 & _).
  pose proof (F 0) as F0. unfold radial_potential, Delta in F0. rewrite Z in F0.
  assert (K : (1 - E^2) * (r1 * r2 * (r3 * r4)) = 0) by lra.
  apply Rmult_integral in K as [K|K]; [lra|]. apply Rmult_integral in K as [K|K]; apply Rmult_integral in K as [K|K]; lra.
Qed.
End Plunge.

(** ** concrete cases *)
(** the returned order when the two smallest roots bracket the horizons *)
Lemma real_roots_inner {X : External R} (HP : polyroots_spec X) a E L Q r1 r2 r3 r4 : a^2 < 1 -> E^2 <> 1 ->
  r2 <= r1 -> r1 <= r4 -> r4 <= r3 -> 1 < r1 ->
  (forall r, radial_potential a E L Q r = (1 - E^2) * (r1 - r) * (r - r2) * (r - r3) * (r - r4)) ->
  plunging_radial_roots (Some a) (Some E) (Some L) (Some Q) = Ret (RealRoots (Some r1) (Some r2) (Some r3) (Some r4)).
Proof.
  intros Ha He O1 O2 O3 N F.
  assert (K : split_roots (polyroots (radial_poly (Some a) (Some E) (Some L) (Some Q))) = Some (map Some [r2; r1; r4; r3], [])).
  { rewrite radial_poly_some, checked_polyroots_some, split_roots_some.
    assert (P : polyroots (radial_poly a E L Q) = map (fun x => (x, 0)) [r2; r1; r4; r3]).
    { pose proof (F 0) as F0. pose proof (F 1) as F1. pose proof (F (-1)) as F2. pose proof (F 2) as F3. pose proof (F (-2)) as F4.
      unfold radial_potential, Delta in *. unfold radial_poly. rnum.
      rewrite (poly4_real HP (E^2 - 1) r3 r4 r1 r2); [reflexivity|lra|assumption|assumption|assumption|lra|lra|lra|lra|reflexivity]. }
    rewrite P, split_all_real. reflexivity. }
  unfold plunging_radial_roots. rewrite K. cbn [map]. cbv zeta. cnum. rewrite csqrt_some by lra.
  pose proof (sqrt_pos (1 - a^2)). destruct (Rltb_spec (1 - sqrt (1 - a^2)) r1) as [G|G]; [reflexivity | lra].
Qed.
(** an inclined plunge below a stable orbit, started at its inner turning point *)
Definition w_case : R := sqrt ((2028/695)^2 - 4 * (12/139)).
Example C58_case {X : External R} (HP : polyroots_spec X) (HX : special_spec X) :
  0 < (1/2)^2 < 1 /\ (67/72)^2 < 1 /\ 403/144 <> 0 /\ 0 <= 5/3 /\ not_marginal (1/2) (67/72) (403/144) /\
  exists r1 r2, r2 <> 0 /\ real_plunge (1/2) (67/72) (403/144) (5/3) r1 r2 6 6 /\
  exists r theta, coordinates (plunge_run (1/2) (67/72) (403/144) (5/3) 0 0 0 0) r theta /\ Delta (1/2) (r 0) <> 0.
Proof.
  assert (A1 : 0 < (1/2)^2 < 1) by lra. assert (A2 : (67/72)^2 < 1) by lra. assert (A3 : 403/144 <> 0) by lra. assert (A4 : 0 <= 5/3) by lra.
  assert (M : not_marginal (1/2) (67/72) (403/144)).
  { intros h D Z. assert (h = 403/536) by lra. subst h. unfold Delta in D. lra. }
  split; [exact A1|]. split; [exact A2|]. split; [exact A3|]. split; [exact A4|]. split; [exact M|].
  assert (W2 : w_case^2 = (2028/695)^2 - 4 * (12/139)) by (apply pow2_sqrt; lra).
  assert (W0 : 0 <= w_case) by apply sqrt_pos.
  assert (WB : 28/10 < w_case < 29/10) by (clear - W0 W2; split; nra).
  set (r1 := (2028/695 + w_case) / 2). set (r2 := (2028/695 - w_case) / 2).
  exists r1, r2. 
  assert (C : real_plunge (1/2) (67/72) (403/144) (5/3) r1 r2 6 6).
  { split; [|unfold r1, r2; split; lra]. apply (real_roots_inner HP); unfold r1, r2; try lra.
    intros r. replace ((1 - (67/72)^2) * ((2028/695 + w_case) / 2 - r) * (r - (2028/695 - w_case) / 2) * (r - 6) * (r - 6))
      with ((1 - (67/72)^2) * (- r^2 + 2028/695 * r - ((2028/695)^2 - w_case^2) / 4) * (r - 6) * (r - 6)) by field.
    rewrite W2. unfold radial_potential, Delta. field. }
  split; [unfold r2; lra|]. split; [exact C|].
  destruct (C58_radial_and_polar_equations HP HX _ _ _ _ A1 A2 A3 A4 r1 r2 6 6 C 0 0 0 0) as (r & theta & K & Z & _).
  exists r, theta. split; [exact K|]. rewrite (Z eq_refl). unfold Delta, r2. clear - WB W2. nra.
Qed.
(** the equatorial plunge below the circular orbit of radius 4 around a hole of spin 9/16 *)
Example C58_refuted_case {X : External R} (HP : polyroots_spec X) :
  0 < (9/16)^2 < 1 /\ (73/80)^2 < 1 /\ 3601/1280 <> 0 /\
  real_plunge (9/16) (73/80) (3601/1280) 0 (4232/1071) 0 4 4.
Proof.
  repeat split; try lra. apply (real_roots_inner HP); try lra. intros r. unfold radial_potential, Delta. field.
Qed.
Print Assumptions C58_radial_and_polar_equations.
Print Assumptions C58_time_and_azimuth_equations.
Print Assumptions C58_refuted_time_at_zero_root.

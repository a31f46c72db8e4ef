(** * C90: sharp bounds on the energy and the total angular momentum of bound orbits *)
From Coq Require Import Reals Lra Lia ZArith String List.
From Coquelicot Require Import Coquelicot.
From Verif Require Import Num Outcome External Checked ExternalSpec.
From Verif Require Import Model_Constants.
From Verif Require Import Spec P_Validation Props_Validation P_Bounds P_Constants Props_Constants Props_Separatrix.
From Verif Require Import Props_Stability Props_Finite Props_Future Props_ISCO Props_Circular.
Open Scope R_scope.

(** Vieta's formulas for the radial potential *)
Lemma radial_vieta a E L Q r1 r2 r3 r4 :
  (forall r, radial_potential a E L Q r = (1 - E^2) * (r1 - r) * (r - r2) * (r - r3) * (r - r4)) ->
  (1 - E^2) * (r1 + r2 + r3 + r4) = 2 /\
  (1 - E^2) * (r1 * r2 + r1 * r3 + r1 * r4 + r2 * r3 + r2 * r4 + r3 * r4) = a^2 * (1 - E^2) + L^2 + Q.
Proof.
  intros H. pose proof (H 0) as H0. pose proof (H 1) as H1. pose proof (H (-1)) as H2. pose proof (H 2) as H3. pose proof (H (-2)) as H4.
  unfold radial_potential, Delta in *. split; lra.
Qed.

Section S.
Context {X : External R} (HR : root_spec X).

Theorem C90_binding_energy a p e x E L Q :
  constants_of_motion (Some a) (Some p) (Some e) (Some x) = Ret (Some E, Some L, Some Q) -> e < 1 ->
  1/3 <= 1 - 2 / (3 * (1 + sqrt (1 - a^2))) < E^2 /\ E^2 < 1 /\ 4/3 < L^2 + Q.
Proof.
  intros HC He. destruct (C23_bound_orbits HR a p e x E L Q HC He) as (HE & HQ & _).
  destruct (C15_roots_defined HR a p e x E L Q None HC He (or_introl eq_refl)) as (r1 & r2 & r3 & r4 & _ & _ & _ & R4 & R3 & R12 & HF).
  destruct (radial_vieta _ _ _ _ _ _ _ _ HF) as (V1 & V2). rewrite pow2_abs in V2.
  destruct (constants_bounds HR a p e x E L Q HC) as ((_ & HA) & _).
  assert (HA2 : a^2 < 1). { rewrite <- pow2_abs. pose proof (Rabs_pos a). nra. }
  set (k := sqrt (1 - a^2)) in *. assert (K0 : 0 <= k) by apply sqrt_pos. clearbody k.
  assert (G0 : 0 < 1 - E^2) by nra. set (g := 1 - E^2) in *.
  assert (I : 0 < / (3 * (1 + k)) <= / 3). { split; [apply Rinv_0_lt_compat; lra | apply Rinv_le_contravar; lra]. }
  assert (B : g < 2 / (3 * (1 + k))).
  { apply Rlt_div_r; [lra|]. rewrite <- V1. apply Rmult_lt_compat_l; lra. }
  refine (conj (conj _ _) (conj _ _)); [unfold Rdiv; lra | unfold g in *; lra | unfold g in *; lra |].
  assert (T : 2/3 * (r1 + r2 + r3 + r4) < r1 * r2 + r1 * r3 + r1 * r4 + r2 * r3 + r2 * r4 + r3 * r4 - a^2).
  { assert (0 <= (r1 - 1) * (r2 - 1)) by (apply Rmult_le_pos; lra). assert (0 <= (r1 - 1) * (r3 - 1)) by (apply Rmult_le_pos; lra). assert (0 <= (r2 - 1) * (r3 - 1)) by (apply Rmult_le_pos; lra).
    assert (0 <= r4 * (r1 + r2 + r3 - 3)) by (apply Rmult_le_pos; lra). lra. }
  assert (g * (2/3 * (r1 + r2 + r3 + r4)) < g * (r1 * r2 + r1 * r3 + r1 * r4 + r2 * r3 + r2 * r4 + r3 * r4 - a^2)) by (apply Rmult_lt_compat_l; assumption).
  lra.
Qed.

(** The bounds are sharp: direct circular equatorial orbits of a nearly extremal hole approach them. *)
Definition spin_of (d : R) : R := 1 - d^3.
Definition radius_of (d : R) : R := (1 + d)^2.

Lemma family_accepted d : 0 < d <= 1/8 -> check_constants_params (spin_of d) (radius_of d) 0 1 = Ret tt.
Proof.
  intros Hd. assert (D3 : 0 < d^3 <= 1/512). { split; [apply pow_lt; lra|]. replace (1/512) with ((1/8)^3) by field. apply pow_incr; lra. }
  assert (HA : 0 <= spin_of d < 1) by (unfold spin_of; lra).
  destruct (check_constants_cases (spin_of d) (radius_of d) 0 1 ltac:(lra)) as [_ [_ H]].
  destruct (separatrix_total HR (spin_of d) 0 1) as (s & Es & Bs & _); try lra.
  rewrite (H s); [|lra|exact Es]. destruct (Rlt_dec s (radius_of d)) as [K|K]; [reflexivity | exfalso].
  assert (Es' : separatrix (Some (spin_of d)) (Some 0) (Some 1) = Ret (Some s)) by (rewrite separatrix_lift, Es; reflexivity).
  destruct (C80_equatorial HR (spin_of d) 0 1 s HA ltac:(lra) (or_introl eq_refl) Es') as (Z0 & Z).
  cbv zeta in Z. set (z := sqrt (s / (1 + 0))) in *.
  assert (Z2 : z^2 = s) by (unfold z; rewrite pow2_sqrt by (apply Rlt_le, Rdiv_lt_0_compat; lra); field).
  clearbody z. apply Rnot_lt_le in K. unfold radius_of in K. rewrite <- Z2 in K.
  assert (ZD : 1 + d <= z) by nra.
  set (y := z - 1). assert (Ey : z = 1 + y) by (unfold y; ring). assert (Y : d <= y) by lra. clearbody y. subst z.
  unfold spin_of in Z. set (t := d^3) in *.
  assert (ZZ : y^3 * (4 + y) - t * (2 + 8 * y + 3 * t) = 0) by lra.
  assert (Y3 : t <= y^3) by (apply pow_incr; lra).
  assert (TY : t * y <= 1/8 * y^3). { assert (d^2 <= y^2) by (apply pow_incr; lra). assert (d^2 * (d * y) <= y^2 * (d * y)) by (apply Rmult_le_compat_r; [apply Rmult_le_pos; lra | lra]).
    assert (d * y^3 <= 1/8 * y^3) by (apply Rmult_le_compat_r; lra). replace (t * y) with (d^2 * (d * y)) by (unfold t; ring). lra. }
  assert (T2 : t * t <= 1/512 * y^3) by (apply Rmult_le_compat; lra).
  assert (Y4 : 0 < y^4) by (apply pow_lt; lra). assert (0 < y^3) by (apply pow_lt; lra). lra.
Qed.

Lemma family_constants d : 0 < d <= 1/8 -> exists E L,
  constants_of_motion (Some (spin_of d)) (Some (radius_of d)) (Some 0) (Some 1) = Ret (Some E, Some L, Some 0) /\
  E^2 = (1 + 3 * d)^2 / ((3 - d) * (1 + d)^3) /\ L^2 = (2 + 6 * d + 4 * d^2 + 3 * d^3 + d^5)^2 / ((3 - d) * (1 + d)^3).
Proof.
  intros Hd. pose proof (family_accepted d Hd) as CK.
  assert (D3 : 0 < d^3 <= 1/512). { split; [apply pow_lt; lra|]. replace (1/512) with ((1/8)^3) by field. apply pow_incr; lra. }
  set (a := spin_of d) in *. set (p := radius_of d) in *.
  assert (HA : 0 <= a < 1) by (unfold a, spin_of; lra).
  assert (S1 : spin_sign a = 1) by (unfold spin_sign; destruct (Rlt_dec a 0); lra).
  assert (P0 : 0 < p) by (unfold p, radius_of; apply pow_lt; lra).
  assert (SQ : sqrt p = 1 + d) by (unfold p, radius_of; rewrite sqrt_pow2; lra).
  destruct (proj2 (C50_finite_exactly HR a p 0 1 ltac:(rewrite Rabs_pos_eq, S1, Rmult_1_r by lra; exact CK))) as (E & L & Q & HC).
  { rewrite Rabs_pos_eq, S1, Rmult_1_r by lra. unfold exceptional. replace (p / (1 - 0)) with p by field. replace (p / (1 + 0)) with p by field.
    intros (_ & _ & [(_ & [K|K])|(K & _)]); [| |lra].
    - unfold on_static_limit in K. assert (p < 2) by (unfold p, radius_of; nra). nra.
    - apply light_ring_equatorial in K; [|assumption].
      unfold p, a, radius_of, spin_of in K.
      assert (((1 + d)^2 - 3)^2 * (1 + d)^2 - 4 * (1 - d^3)^2 = (d^2 * (3 - d)) * ((1 + d)^3 - 3 * (1 + d) - 2 * (1 - d^3))) by ring.
      assert (KZ : (d^2 * (3 - d)) * ((1 + d)^3 - 3 * (1 + d) - 2 * (1 - d^3)) = 0) by lra.
      apply Rmult_integral in KZ as [KZ|KZ]; [assert (0 < d^2 * (3 - d)) by (apply Rmult_lt_0_compat; [apply pow_lt|]; lra); lra|].
      assert (d^2 <= 1/64) by nra. lra. }
  assert (He1 : 0 < 1) by lra.
  destruct (C15_roots_defined HR a p 0 1 E L Q None HC He1 (or_introl eq_refl)) as (s1 & s2 & s3 & s4 & _ & Q1 & Q2 & R4 & R3 & R21 & F).
  destruct (C23_bound_orbits HR a p 0 1 E L Q HC He1) as (HE & HQ & _).
  rewrite (Rabs_pos_eq a (proj1 HA)) in F.
  replace (p / (1 + 0)) with p in Q2 by field. replace (p / (1 - 0)) with p in Q1 by field.
  pose proof (C12_equatorial a p 0 1 E L Q (or_introl eq_refl) HC) as Q0.
  assert (KS : 0 < sqrt (1 - a^2)) by (apply sqrt_lt_R0; nra).
  assert (SS : sqrt (1 - a^2) ^2 = 1 - a^2) by (apply pow2_sqrt; nra).
  assert (P1 : 1 + sqrt (1 - a^2) < p) by lra.
  assert (DP : 0 < Delta a p) by (unfold Delta; nra).
  assert (PP : 0 < E * (p^2 + a^2) - a * L).
  { apply (P_pos a E L Q s1 s2 s3 s4); try assumption; try lra; [nra|]. rewrite Q2. exact DP. }
  destruct (C13_turning_points HR a p 0 1 E L Q HC) as (_ & _ & T & _). rewrite (Rabs_pos_eq a (proj1 HA)) in T. destruct (T eq_refl) as (T1 & T2).
  assert (H2 : 2 * p * E * (E * (p^2 + a^2) - a * L) = (p - 1) * (p^2 + (L - a * E)^2) + p * Delta a p).
  { assert (D : is_derive (radial_potential a E L Q) p
     (4 * E * p * (E * (p^2 + a^2) - a * L) - (2 * p - 2) * (p^2 + (L - a * E)^2 + Q) - Delta a p * (2 * p))).
    { unfold radial_potential, Delta. auto_derive; [trivial|]. ring. }
    pose proof (is_derive_unique _ _ _ D) as U1. pose proof (is_derive_unique _ _ _ T2) as U2. rewrite U1, Q0 in U2. lra. }
  assert (H1 : (E * (p^2 + a^2) - a * L)^2 = Delta a p * (p^2 + (L - a * E)^2)).
  { unfold radial_potential in T1. rewrite Q0 in T1. lra. }
  destruct (circular_algebra a E L p ltac:(lra) ltac:(lra) DP PP H1 H2) as (w & u & W2 & U0 & UU & PU & YU & EU & LU & G1 & _).
  destruct (C14_polar_turning_point HR a p 0 1 E L Q HC) as (_ & LP & _). rewrite S1 in LP. specialize (LP ltac:(lra)).
  rewrite (G1 LP), SQ in *. clear G1 W2 PU YU. exists E, L. split; [rewrite HC, Q0; reflexivity|].
  assert (PD : p^2 - 3 * p + 2 * a * (1 + d) = (1 + d) * (d^2 * (3 - d))) by (unfold p, a, radius_of, spin_of; ring).
  assert (D0 : 0 < d^2 * (3 - d)) by (apply Rmult_lt_0_compat; [apply pow_lt|]; lra).
  assert (U2 : u^2 = (1 + d)^3 / (d^2 * (3 - d))).
  { rewrite PD in UU. apply (Rmult_eq_reg_r ((1 + d) * (d^2 * (3 - d)))); [|apply Rgt_not_eq, Rmult_lt_0_compat; lra]. rewrite UU. unfold p, radius_of. field. lra. }
  assert (E2 : E^2 = u^2 * (p^2 - 2 * p + a * (1 + d))^2 / p^4) by (rewrite EU; field; lra).
  assert (L2 : L^2 = u^2 * (1 + d)^2 * (p^2 - 2 * a * (1 + d) + a^2)^2 / p^4) by (rewrite LU; field; lra).
  rewrite E2, L2, U2. unfold p, a, radius_of, spin_of. split; field; lra.
Qed.

Theorem C90_bounds_are_sharp eps : 0 < eps -> exists a p E L, 0 < a < 1 /\
  constants_of_motion (Some a) (Some p) (Some 0) (Some 1) = Ret (Some E, Some L, Some 0) /\
  1/3 < E^2 < 1/3 + eps /\ 4/3 < L^2 < 4/3 + eps.
Proof.
  intros He. set (d := Rmin (1/8) (eps / 13)).
  assert (D : 0 < d) by (apply Rmin_pos; lra). assert (D1 : d <= 1/8) by apply Rmin_l. assert (D2 : d <= eps / 13) by apply Rmin_r. clearbody d.
  destruct (family_constants d (conj D D1)) as (E & L & HC & E2 & L2). exists (spin_of d), (radius_of d), E, L.
  destruct (C90_binding_energy _ _ _ _ _ _ _ HC ltac:(lra)) as ((B0 & B1) & _ & B2).
  assert (d^2 <= 1/8 * d) by nra. assert (0 < d^2) by (apply pow_lt; lra). assert (D3 : 0 < d^3 <= 1/64 * d) by (split; [apply pow_lt; lra | replace (d^3) with (d^2 * d) by ring; nra]).
  assert (D5 : 0 < d^5 <= 1/64 * d) by (split; [apply pow_lt; lra | replace (d^5) with (d^2 * d^3) by ring; nra]).
  assert (N : 3 <= (3 - d) * (1 + d)^3). { assert (1 + 3 * d <= (1 + d)^3) by lra. assert ((3 - d) * (1 + 3 * d) <= (3 - d) * (1 + d)^3) by (apply Rmult_le_compat_l; lra). lra. }
  refine (conj _ (conj HC (conj (conj _ _) (conj _ _)))); [unfold spin_of; lra | lra | | lra |].
  - rewrite E2. apply Rlt_div_l; [lra|]. assert ((1/3 + eps) * 3 <= (1/3 + eps) * ((3 - d) * (1 + d)^3)) by (apply Rmult_le_compat_l; lra). lra.
  - rewrite L2. apply Rlt_div_l; [lra|]. assert ((4/3 + eps) * 3 <= (4/3 + eps) * ((3 - d) * (1 + d)^3)) by (apply Rmult_le_compat_l; lra).
    set (q := 2 + 6 * d + 4 * d^2 + 3 * d^3 + d^5). assert (Q : 0 <= q <= 2 + 7 * d) by (unfold q; lra). assert (q^2 <= (2 + 7 * d)^2) by (apply pow_incr; lra). lra.
Qed.

(** a concrete orbit to which the bounds apply, close to them: E^2 < 0.36 at d = 1/8 *)
Example C90_case : exists a p E L, 0 < a < 1 /\ constants_of_motion (Some a) (Some p) (Some 0) (Some 1) = Ret (Some E, Some L, Some 0) /\ 1/3 < E^2 < 1/2.
Proof.
  destruct (family_constants (1/8)) as (E & L & HC & E2 & _); [lra|]. exists (spin_of (1/8)), (radius_of (1/8)), E, L.
  split; [unfold spin_of; lra|]. split; [exact HC|]. rewrite E2. lra.
Qed.
End S.
Print Assumptions C90_bounds_are_sharp.

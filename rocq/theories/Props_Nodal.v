(** * C78: the nodes of an orbit are dragged forward by the spin

    For a > 0 and every stable orbit, uph > uth on prograde orbits and uph > - uth on
    retrograde ones: between two ascending nodes the azimuth advances (in the direction of
    rotation of the hole) relative to the full turn of a non-rotating hole (Lense-Thirring). *)
From Coq Require Import Reals Lra Lia ZArith String List.
From Coquelicot Require Import Coquelicot.
From Verif Require Import Num Outcome External Checked ExternalSpec.
From Verif Require Import Model_Units Model_Constants Model_Frequencies Model_Stable.
From Verif Require Import Spec SpecElliptic Elliptic P_Roots P_Poly P_Validation Props_Validation P_Bounds P_Constants Props_Constants.
From Verif Require Import P_Radial P_Polar P_Traj P_Traj2 P_Traj3 P_Traj4 Props_Trajectory Props_Trajectory2.
From Verif Require Import Props_Stability Props_Stability3 Props_Phases Props_Restart Props_Future Props_Frequencies Props_Constructors Props_Schwarzschild Props_Precession.
Open Scope R_scope.

(** l Pi(z, m) <= sqrt beta * pi / (2 sqrt (1-z)) <= l Pi(z, m) + B / (2 l) K(m), where
    beta = l^2 + B and m = z B / beta *)
Lemma polar_average l B z beta m : 0 < l -> 0 <= B -> 0 <= z < 1 -> beta = l^2 + B -> m * beta = z * B -> 0 <= m < 1 ->
  l * ellPi z (PI / 2) m <= sqrt beta * (PI / (2 * sqrt (1 - z))) /\
  sqrt beta * (PI / (2 * sqrt (1 - z))) <= l * ellPi z (PI / 2) m + B / (2 * l) * ellK m.
Proof.
  intros Hl HB Hz Eb Em Hm. pose proof PI_RGT_0 as PP. rewrite <- ellPi_m0 by lra.
  assert (b0 : 0 < beta) by (rewrite Eb; assert (0 < l^2) by (apply pow_lt; lra); lra).
  assert (SQ : forall t, 0 <= sin t ^2 <= 1).
  { intros t. pose proof (sin2_cos2 t) as W; unfold Rsqr in W; pose proof (pow2_ge_0 (cos t)); pose proof (pow2_ge_0 (sin t)); lra. }
  assert (W : forall t, 0 < 1 - z * sin t ^2). { intros t. pose proof (SQ t). nra. }
  assert (D : forall t, 0 < 1 - m * sin t ^2). { intros t. pose proof (SQ t). nra. }
  assert (I1 : forall m, 0 <= m < 1 -> ex_RInt (hP z m) 0 (PI / 2)).
  { intros k Hk. apply (ex_RInt_continuous (V := R_CompleteNormedModule)). intros t _. apply hP_cont; lra. }
  assert (I2 : ex_RInt (hF m) 0 (PI / 2)).
  { apply (ex_RInt_continuous (V := R_CompleteNormedModule)). intros t _. apply hF_cont; lra. }
  assert (PT : forall t, l * hP z m t <= sqrt beta * hP z 0 t /\ sqrt beta * hP z 0 t <= l * hP z m t + B / (2 * l) * hF m t).
  { intros t. pose proof (W t) as Wt. pose proof (D t) as Dt. unfold hP, hF, dl. replace (1 - 0 * sin t ^2) with 1 by ring. rewrite sqrt_1.
    set (w := 1 - z * sin t ^2) in *. set (d := sqrt (1 - m * sin t ^2)).
    assert (d0 : 0 < d) by (apply sqrt_lt_R0; lra).
    assert (Eg : (sqrt beta * d)^2 = l^2 + B * w).
    { rewrite Rpow_mult_distr. unfold d. rewrite !pow2_sqrt by lra. unfold w. replace (beta * (1 - m * sin t ^2)) with (beta - m * beta * sin t ^2) by ring. rewrite Em, Eb. ring. }
    assert (s0 : 0 < sqrt beta) by now apply sqrt_lt_R0.
    assert (g0 : 0 < sqrt beta * d) by now apply Rmult_lt_0_compat.
    assert (Bw : 0 <= B * w) by (apply Rmult_le_pos; lra).
    assert (lg : l <= sqrt beta * d) by (clear - Eg Bw g0 Hl; nra).
    assert (wd : 0 < w * d) by now apply Rmult_lt_0_compat.
    split; apply (Rmult_le_reg_r (w * d)); try exact wd.
    - replace (l * / (w * d) * (w * d)) with l by (field; lra).
      replace (sqrt beta * / (w * 1) * (w * d)) with (sqrt beta * d) by (field; lra). exact lg.
    - replace (sqrt beta * / (w * 1) * (w * d)) with (sqrt beta * d) by (field; lra).
      replace ((l * / (w * d) + B / (2 * l) * / d) * (w * d)) with (l + B * w / (2 * l)) by (field; lra).
      set (g := sqrt beta * d) in *. clearbody g.
      apply (Rmult_le_reg_r (2 * l)); [lra|]. replace ((l + B * w / (2 * l)) * (2 * l)) with (2 * l^2 + B * w) by (field; lra).
      rewrite <- (Rplus_0_r (g * (2 * l))). pose proof (pow2_ge_0 (g - l)). lra. }
  assert (S : forall c f, ex_RInt f 0 (PI / 2) -> is_RInt (fun t => c * f t) 0 (PI / 2) (c * RInt f 0 (PI / 2))).
  { intros c f Hi. apply (is_RInt_scal (V := R_NormedModule)). now apply (RInt_correct (V := R_CompleteNormedModule)). }
  change (ellPi z (PI / 2) m) with (RInt (hP z m) 0 (PI / 2)). change (ellPi z (PI / 2) 0) with (RInt (hP z 0) 0 (PI / 2)).
  change (ellK m) with (RInt (hF m) 0 (PI / 2)).
  pose proof (S l _ (I1 m Hm)) as S1. pose proof (S (sqrt beta) _ (I1 0 ltac:(lra))) as S2. pose proof (S (B / (2 * l)) _ I2) as S3.
  split.
  - apply (is_RInt_le (fun t => l * hP z m t) (fun t => sqrt beta * hP z 0 t) 0 (PI / 2)); [lra | exact S1 | exact S2 |]. intros t _. apply PT.
  - eapply (is_RInt_le (fun t => sqrt beta * hP z 0 t) (fun t => l * hP z m t + B / (2 * l) * hF m t) 0 (PI / 2)); [lra | exact S2 | |].
    + apply (is_RInt_plus (V := R_NormedModule)); [exact S1 | exact S3].
    + intros t _. apply PT.
Qed.

(** the radial part of dphi/dlambda exceeds a (1 - E) wherever motion is possible *)
Lemma dragging a E L Q r : 0 < a < 1 -> 0 < E < 1 -> 0 <= Q -> 1 < r -> 0 < Delta a r ->
  0 < E * (r^2 + a^2) - a * L -> 0 <= radial_potential a E L Q r ->
  a * (1 - E) < a * (2 * E * r - a * L) / Delta a r.
Proof.
  intros Ha HE HQ Hr HD HP HR.
  set (P := E * (r^2 + a^2) - a * L) in *. set (D := Delta a r) in *.
  set (S := r^2 + (L - a * E)^2 + Q).
  assert (RP : D * S <= P^2) by (unfold radial_potential in HR; fold D P in HR; unfold S; lra).
  assert (DS : D < S) by (unfold D, S, Delta; pose proof (pow2_ge_0 (L - a * E)); nra).
  assert (DP : D < P) by (clear - RP DS HD HP; nra).
  assert (I : 2 * E * r - a * L = P - E * D) by (unfold P, D, Delta; ring).
  unfold Rdiv. rewrite Rmult_assoc. apply Rmult_lt_compat_l; [lra|].
  apply (proj1 (Rlt_div_r _ _ _ HD)). rewrite I. lra.
Qed.

Section S.
Context {X : External R} (HX : special_spec X) (HR : root_spec X).

(** the radial part of the azimuthal frequency is a value of the radial part of dphi/dlambda *)
Lemma Gph_attained a p e x ur uth uph gam E L Q r1 r2 r3 r4 zp beta a2s
  (F : orbit_facts a p e x ur uth uph gam E L Q r1 r2 r3 r4 zp beta a2s) :
  exists r, r2 <= r <= r1 /\ Gph a E L r1 r2 r3 r4 = a * (2 * E * r - a * L) / Delta a r.
Proof.
  pose proof (ur_pos _ _ _ _ _ _ _ _ _ _ _ _ _ _ _ _ _ _ F) as Up. pose proof PI_RGT_0 as PP.
  assert (DP : forall q, is_derive (phr a E L r1 r2 r3 r4) q ((Vph a E L (rho r1 r2 r3 (psi_r r1 r2 r3 r4) q) - Gph a E L r1 r2 r3 r4) / ur)).
  { intros q. destruct F. rewrite of_ur. now apply (phr_derive HX). }
  assert (PS : phr a E L r1 r2 r3 r4 (2 * PI) = phr a E L r1 r2 r3 r4 0).
  { replace (2 * PI) with (0 + 1 * (2 * PI)) by ring. destruct F. now apply (phr_shift HX a E L r1 r2 r3 r4) with (k := 1%Z). }
  destruct (MVT_gen (phr a E L r1 r2 r3 r4) 0 (2 * PI) _ (fun q _ => DP q)) as (q & _ & Z).
  { intros q _. apply continuity_pt_filterlim. apply (ex_derive_continuous (V := R_NormedModule) (phr a E L r1 r2 r3 r4) q). eexists; apply DP. }
  cbv beta in Z. rewrite PS in Z.
  set (r := rho r1 r2 r3 (psi_r r1 r2 r3 r4) q) in *.
  assert (VE : Vph a E L r = Gph a E L r1 r2 r3 r4).
  { assert (K : (Vph a E L r - Gph a E L r1 r2 r3 r4) / ur = 0) by (apply (Rmult_eq_reg_r (2 * PI - 0)); [lra | apply Rgt_not_eq; lra]).
    apply Rmult_integral in K. destruct K as [K|K]; [lra|]. exfalso. apply (Rinv_neq_0_compat ur); [apply Rgt_not_eq; exact Up | exact K]. }
  pose proof (fr_bounds _ _ _ _ _ _ _ _ _ _ _ _ _ _ _ _ _ _ F q) as B. unfold fr in B. fold r in B.
  rewrite <- (of_r1 _ _ _ _ _ _ _ _ _ _ _ _ _ _ _ _ _ _ F), <- (of_r2 _ _ _ _ _ _ _ _ _ _ _ _ _ _ _ _ _ _ F) in B.
  exists r. split; [exact B|]. rewrite <- VE.
  assert (NZ : r - rp a <> 0 /\ r - rm a <> 0).
  { destruct F. split; intros K; [clear - K of_p2 B | clear - K of_m2 B]; nra. }
  destruct NZ as [N1 N2]. destruct F.
  assert (V : Vph a E L r + L / sin (PI / 2) ^ 2 = dphi_dlambda a E L r (PI / 2)) by (now apply (Vph_dphi a E L r1 r2 r3)). clearbody r. unfold dphi_dlambda in V. rewrite sin_PI2 in V.
  assert (D0 : Delta a r <> 0).
  { rewrite (Delta_rpm a of_a). now apply Rmult_integral_contrapositive. }
  replace (Vph a E L r) with (Vph a E L r + L / 1^2 - L) by field. rewrite V.
  unfold Delta in *. field. exact D0.
Qed.
Theorem C78_nodes_dragged_forward a p e x ur uth uph gam : 0 < a ->
  mino_frequencies (Some a) (Some p) (Some e) (Some x) = Ret (Some ur, Some uth, Some uph, Some gam) ->
  (0 < x -> uth < uph /\ uth / gam < uph / gam) /\
  (x < 0 -> - uth < uph /\ - (uth / gam) < uph / gam).
Proof.
  intros A0 HF.
  destruct (C65_fundamental_frequencies HX HR a p e x ur uth uph gam HF) as (G0 & _ & _ & UT & _).
  assert (K : (0 < x -> uth < uph) /\ (x < 0 -> - uth < uph)).
  2:{ destruct K as [K1 K2]. assert (0 < / gam) by (apply Rinv_0_lt_compat; lra).
      split; intros Hx; [specialize (K1 Hx) | specialize (K2 Hx)]; (split; [assumption|]).
      - now apply Rmult_lt_compat_r.
      - unfold Rdiv. rewrite Ropp_mult_distr_l. now apply Rmult_lt_compat_r. }
  destruct (mino_facts HX HR a p e x ur uth uph gam (Rlt_le _ _ A0) HF) as (E & L & Q & r1 & r2 & r3 & r4 & zp & beta & a2s & F).
  destruct (Gph_attained _ _ _ _ _ _ _ _ _ _ _ _ _ _ _ _ _ _ F) as (r & Br & GV).
  destruct F. pose proof of_constants as HC.
  destruct (C15_roots_defined HR a p e x E L Q (Some (Some E, Some L, Some Q)) HC (proj2 of_e) (or_intror eq_refl))
    as (r1' & r2' & r3' & r4' & Hrr & Q1 & Q2 & R4 & R3 & R21 & _).
  rewrite of_roots in Hrr. apply Ret_inj in Hrr.
  assert (r1 = r1' /\ r2 = r2' /\ r3 = r3' /\ r4 = r4') as (<- & <- & <- & <-) by (repeat split; congruence).
  destruct (C23_bound_orbits HR a p e x E L Q HC (proj2 of_e)) as (HE & HQ & _).
  pose proof (sqrt_pos (1 - a^2)) as SB.
  assert (E2 : 0 < 1 - E^2) by (clear - HE; nra).
  assert (SP : sqrt (1 - a^2) ^2 = 1 - a^2) by (apply pow2_sqrt; clear - of_a; nra).
  set (A := a^2 * (1 - E^2)) in *. assert (A1 : 0 <= A) by (unfold A; apply Rmult_le_pos; [apply pow2_ge_0 | lra]).
  set (z := 1 - x^2) in *.
  assert (V : (1 - E^2) * (r1 * r2 + r1 * r3 + r1 * r4 + r2 * r3 + r2 * r4 + r3 * r4) = A + L^2 + Q).
  { pose proof (of_R 0) as F0. pose proof (of_R 1) as F1. pose proof (of_R (-1)) as F2. unfold radial_potential, Delta in *. unfold A. lra. }
  assert (V1 : (1 - E^2) * (r1 + r2 + r3 + r4) = 2).
  { pose proof (of_R 0) as F0. pose proof (of_R 1) as F1. pose proof (of_R (-1)) as F2. pose proof (of_R 2) as F3. unfold radial_potential, Delta in *. lra. }
  assert (W : A + L^2 + Q = z * A + beta).
  { pose proof (of_Z 0) as F0. pose proof (of_Z 1) as F1. pose proof (of_Z (-1)) as F2. unfold polar_polynomial in *. fold A in F0, F1, F2. lra. }
  set (mt := kt2 A z beta) in *.
  assert (Em : mt * beta = z * A) by (unfold mt, kt2; field; lra).
  assert (X0 : 0 < Rabs x) by (apply Rabs_pos_lt; tauto).
  set (l := Rabs L / Rabs x).
  assert (AL : 0 < Rabs L) by (now apply Rabs_pos_lt).
  assert (l0 : 0 < l) by (now apply Rdiv_lt_0_compat).
  assert (Hx2 : Rabs x ^2 = x^2) by apply pow2_abs. assert (HL2 : Rabs L ^2 = L^2) by apply pow2_abs.
  assert (Eb : beta = l^2 + A).
  { rewrite of_beta. unfold l. unfold Rdiv. rewrite Rpow_mult_distr, HL2, pow_inv, Hx2. replace (1 - z) with (x^2) by (unfold z; ring). field. destruct of_x; assumption. }
  (* |a x| < l *)
  assert (LB : a * Rabs x < l).
  { assert (K : (a * Rabs x)^2 < l^2).
    { rewrite Rpow_mult_distr, Hx2.
      assert (a1 : 0 < a^2 < 1) by (clear - A0 of_a; nra). assert (kz : 0 <= a^2 * (1 - z) <= 1) by (clear - a1 of_z; nra).
      assert (1 <= r3) by lra. assert (1 < r2) by lra. assert (1 < r1) by lra. assert (0 <= r4) by lra.
      assert (M : a^2 * (1 - z) * (r1 + r2 + r3 + r4) + 2 * (a^2 * (1 + z)) < 2 * (r1 * r2 + r1 * r3 + r1 * r4 + r2 * r3 + r2 * r4 + r3 * r4)).
      { assert (a^2 * (1 - z) * (r1 + r2 + r3 + r4) <= a^2 * (1 - z) * 3 + 1 * (r1 + r2 + r3 + r4 - 3)).
        { assert (a^2 * (1 - z) * (r1 + r2 + r3 + r4 - 3) <= 1 * (r1 + r2 + r3 + r4 - 3)) by (apply Rmult_le_compat_r; lra). lra. }
        assert (0 < (r1 - 1) * (r2 - 1)) by (apply Rmult_lt_0_compat; lra). assert (0 <= (r1 - 1) * (r3 - 1)) by (apply Rmult_le_pos; lra).
        assert (0 <= (r2 - 1) * (r3 - 1)) by (apply Rmult_le_pos; lra).
        assert (0 <= (r1 - 1) * r4) by (apply Rmult_le_pos; lra). assert (0 <= (r2 - 1) * r4) by (apply Rmult_le_pos; lra). assert (0 <= (r3 - 1) * r4) by (apply Rmult_le_pos; lra).
        assert (0 <= a^2 * z) by (apply Rmult_le_pos; lra).
        assert (a^2 * z <= 1 * 1) by (apply Rmult_le_compat; lra).
        lra. }
      assert (K' := Rmult_lt_compat_l (1 - E^2) _ _ E2 M).
      assert (l^2 = (1 - E^2) * (r1 * r2 + r1 * r3 + r1 * r4 + r2 * r3 + r2 * r4 + r3 * r4) - A * (1 + z)) by lra.
      replace (x^2) with (1 - z) by (unfold z; ring).
      assert ((1 - E^2) * (a^2 * (1 - z) * (r1 + r2 + r3 + r4)) = 2 * (a^2 * (1 - z))) by (rewrite <- V1; ring).
      unfold A in *. lra. }
    clear - K l0 A0 X0. assert (0 < a * Rabs x) by (now apply Rmult_lt_0_compat). nra. }
  destruct (polar_average l A z beta mt l0 A1 of_z Eb Em of_kt) as [PA1 PA2].
  assert (SZ : sqrt (1 - z) = Rabs x).
  { unfold z. replace (1 - (1 - x^2)) with (x^2) by ring. rewrite <- Rsqr_pow2. apply sqrt_Rsqr_abs. }
  rewrite SZ in PA1, PA2. pose proof PI_RGT_0 as PP.
  destruct (ellK_bounds mt of_kt) as [KT _]. assert (K0 : 0 < ellK mt) by lra.
  set (Pz := ellPi z (PI / 2) mt) in *.
  assert (UTE : uth = Rabs x * (sqrt beta * (PI / (2 * Rabs x))) / ellK mt) by (rewrite of_uth; field; lra).
  assert (LE : Rabs L = Rabs x * l) by (unfold l; field; lra).
  assert (T1 : Rabs L * Pz / ellK mt <= uth).
  { rewrite UTE, LE. apply Rmult_le_compat_r; [left; now apply Rinv_0_lt_compat|]. rewrite Rmult_assoc. now apply Rmult_le_compat_l; [lra|]. }
  assert (T2 : uth <= Rabs L * Pz / ellK mt + a * (1 - E)).
  { apply Rle_trans with (Rabs L * Pz / ellK mt + Rabs x * (A / (2 * l))).
    - apply Rle_trans with (Rabs x * (l * Pz + A / (2 * l) * ellK mt) / ellK mt); [|right; rewrite LE; field; lra].
      rewrite UTE. apply Rmult_le_compat_r; [left; now apply Rinv_0_lt_compat|]. apply Rmult_le_compat_l; [lra | exact PA2].
    - apply Rplus_le_compat_l. unfold A.
      apply (Rmult_le_reg_r (2 * l)); [lra|]. replace (Rabs x * (a^2 * (1 - E^2) / (2 * l)) * (2 * l)) with (a * (1 - E) * ((a * Rabs x) * (1 + E))) by (field; lra).
      apply Rmult_le_compat_l; [apply Rmult_le_pos; lra|].
      assert (0 < a * Rabs x) by (now apply Rmult_lt_0_compat). clear - LB H HE. nra. }
  assert (DR : a * (1 - E) < Gph a E L r1 r2 r3 r4).
  { rewrite GV. assert (Hr : 1 < r) by lra.
    assert (DD : forall r, r2 <= r -> 0 < Delta a r).
    { intros r' Hr'. unfold Delta. assert (1 + sqrt (1 - a^2) < r') by lra. clear - H SP SB. nra. }
    apply (dragging a E L Q r); try lra.
    - apply DD. lra.
    - apply (P_pos a E L Q r1 r2 r3 r4); try lra; [exact of_R | apply DD; lra].
    - rewrite of_R. repeat apply Rmult_le_pos; lra. }
  assert (AE : 0 <= a * (1 - E)) by (apply Rmult_le_pos; lra).
  split; intros Hx; rewrite of_uph.
  - assert (0 < L) by (clear - Hx of_Lx; nra). rewrite Rabs_pos_eq in T2 by lra. fold Pz. lra.
  - assert (L < 0) by (clear - Hx of_Lx; nra). rewrite (Rabs_left L) in T1 by assumption. fold Pz.
    replace (- L * Pz / ellK mt) with (- (L * Pz / ellK mt)) in T1 by (unfold Rdiv; ring). lra.
Qed.

(** an inclined, eccentric retrograde orbit meets the hypotheses *)
Theorem C78_case : exists ur uth uph gam,
  mino_frequencies (Some (1/2)) (Some 20) (Some (1/2)) (Some (-1/2)) = Ret (Some ur, Some uth, Some uph, Some gam) /\
  - uth < uph.
Proof.
  destruct (far_retrograde HX HR (1/2) 20 (1/2) (-1/2)) as (E & L & Q & ur & uth & uph & gam & HC & HF); try lra.
  exists ur, uth, uph, gam. split; [exact HF|]. apply (C78_nodes_dragged_forward (1/2) 20 (1/2) (-1/2) ur uth uph gam); try lra; exact HF.
Qed.
End S.

(** * The Mino-time average of r^2 along a bound orbit, and wide orbits *)
From Coq Require Import Reals Lra Lia ZArith String List.
From Coquelicot Require Import Coquelicot.
From Verif Require Import Num Outcome External Checked ExternalSpec.
From Verif Require Import Model_Constants Model_Frequencies Model_Stable.
From Verif Require Import Spec SpecElliptic Elliptic P_Validation Props_Validation P_Bounds P_Constants Props_Constants.
From Verif Require Import P_Radial P_Polar P_Traj P_Traj2 P_Traj3 P_Traj4 Props_Trajectory Props_Trajectory2.
From Verif Require Import Props_Stability Props_Frequencies Props_Future Props_Restart Props_Nodal Props_Binding.
Open Scope R_scope.

Definition sq_avg (r1 r2 r3 r4 : R) : R :=
  ((r3 * (r1 + r2 + r3) - r1 * r2) * ellK (kr2 r1 r2 r3 r4)
   + (r2 - r3) * (r1 + r2 + r3 + r4) * ellPi (hr r1 r2 r3) (PI / 2) (kr2 r1 r2 r3 r4)
   + (r1 - r3) * (r2 - r4) * ellE (PI / 2) (kr2 r1 r2 r3 r4)) / (2 * ellK (kr2 r1 r2 r3 r4)).

Section S.
Context {X : External R} (HX : special_spec X).
Section Radial.
Context (E r1 r2 r3 r4 : R).
Local Notation c := (1 - E ^ 2).
Local Notation m := (kr2 r1 r2 r3 r4).
Context (Hs : 0 < sr2 c r1 r2 r3 r4) (Hm : 0 <= m < 1) (Ho : 0 < (r1 - r3) * (r2 - r3)).
Local Notation K := (ellK m).
Local Notation s := (sqrt (sr2 c r1 r2 r3 r4)).
Local Notation psi := (psi_r r1 r2 r3 r4).
Local Notation Pic := (ellPi (hr r1 r2 r3) (PI / 2) m).
Local Notation Ec := (ellE (PI / 2) m).

Definition sq_osc (q : R) : R :=
  / s * ((r2 - r3) * (r1 + r2 + r3 + r4) * (ellPi (hr r1 r2 r3) (psi q) m - q / PI * Pic)
    + (r1 - r3) * (r2 - r4) * (second r1 r2 r3 r4 psi q - q / PI * Ec)).

Lemma sq_osc_derive q : is_derive sq_osc q ((rho r1 r2 r3 psi q ^2 - sq_avg r1 r2 r3 r4) / (PI * s / (2 * K))).
Proof.
  pose proof PI_RGT_0. pose proof (s_pos E r1 r2 r3 r4 Hs) as Sp. pose proof (K_pos r1 r2 r3 r4 Hm) as Kp.
  pose proof (hr_lt1 _ _ _ _ _ Hs Ho) as H1.
  pose proof (ellPi_along _ _ _ _ Hm _ _ (psi_r_derive HX r1 r2 r3 r4 Hm) (hr r1 r2 r3) q H1) as D1.
  pose proof (second_derive c _ _ _ _ Hs Hm Ho _ _ (psi_r_derive HX r1 r2 r3 r4 Hm) q) as D4.
  pose proof (second_r _ _ _ _ _ Hs Ho psi q) as F4.
  unfold sq_osc, sq_avg.
  set (P1 := fun q => ellPi (hr r1 r2 r3) (psi q) m) in *. set (P4 := second r1 r2 r3 r4 psi) in *.
  set (x := sn2 psi q) in *. set (f1 := / (1 - hr r1 r2 r3 * x)). set (f4 := second' r1 r2 r3 r4 x) in *. set (rr := rho r1 r2 r3 psi q) in *.
  assert (D1' : is_derive P1 q (K / PI * f1)) by exact D1.
  assert (F4' : (r1 - r3) * (r2 - r4) * f4 + (r1 + r2 + r3 + r4) * ((r2 - r3) * f1) + (r3 * (r1 + r2 + r3) - r1 * r2) = 2 * rr ^ 2).
  { rewrite <- F4. unfold f1, Rdiv. ring. }
  change (is_derive (fun q => / s * ((r2 - r3) * (r1 + r2 + r3 + r4) * (P1 q - q / PI * Pic) + (r1 - r3) * (r2 - r4) * (P4 q - q / PI * Ec))) q
    ((rr^2 - ((r3 * (r1 + r2 + r3) - r1 * r2) * K + (r2 - r3) * (r1 + r2 + r3 + r4) * Pic + (r1 - r3) * (r2 - r4) * Ec) / (2 * K)) / (PI * s / (2 * K)))).
  clearbody f1 f4 rr P1 P4. set (s0 := s) in *. set (K0 := K) in *. set (p1 := Pic) in *. set (p4 := Ec) in *. clearbody s0 K0 p1 p4. clear D1 F4.
  auto_derive; [repeat split; eexists; eassumption|].
  rewrite (is_derive_unique (fun x : R => P1 x) _ _ D1'), (is_derive_unique (fun x : R => P4 x) _ _ D4).
  replace (rr^2) with (((r1 - r3) * (r2 - r4) * f4 + (r1 + r2 + r3 + r4) * ((r2 - r3) * f1) + (r3 * (r1 + r2 + r3) - r1 * r2)) / 2) by lra.
  match goal with |- ?u = ?v => change (@eq R u v) end. field. repeat split; lra.
Qed.

Lemma sq_osc_shift q k : sq_osc (q + IZR k * (2 * PI)) = sq_osc q.
Proof. unfold sq_osc. rewrite (third_shift HX), (second_shift HX); [reflexivity | assumption | assumption | exact (hr_lt1 _ _ _ _ _ Hs Ho)]. Qed.
Lemma sq_osc_bounded : exists C, forall q, Rabs (sq_osc q) <= C.
Proof.
  pose proof PI_RGT_0. apply (periodic_bounded _ (2 * PI)); [lra | |].
  - intros q k. exact (sq_osc_shift q k).
  - intros q. apply (ex_derive_continuous (V := R_NormedModule)). eexists. apply sq_osc_derive.
Qed.
End Radial.

Lemma ellPi_nonneg n m : n < 1 -> m < 1 -> 0 <= ellPi n (PI / 2) m.
Proof.
  intros Hn Hm. pose proof PI_RGT_0. rewrite ellPi_prim. unfold prim. apply RInt_ge_0; [lra | | ].
  - apply (ex_RInt_continuous (V := R_CompleteNormedModule)). intros; now apply hP_cont.
  - intros y _. unfold hP. left. apply Rinv_0_lt_compat, Rmult_lt_0_compat; [now apply dl_pos | now apply sqrt_lt_R0, dl_pos].
Qed.

(** Vieta's third formula *)
Lemma radial_vieta3 a E L Q r1 r2 r3 r4 :
  (forall r, radial_potential a E L Q r = (1 - E^2) * (r1 - r) * (r - r2) * (r - r3) * (r - r4)) ->
  (1 - E^2) * (r1 * r2 * r3 + r1 * r2 * r4 + r1 * r3 * r4 + r2 * r3 * r4) = 2 * ((L - a * E)^2 + Q).
Proof.
  intros H. pose proof (H 0) as H0. pose proof (H 1) as H1. pose proof (H (-1)) as H2. pose proof (H 2) as H3. pose proof (H (-2)) as H4.
  unfold radial_potential, Delta in *. lra.
Qed.

(** the inner roots of a wide orbit stay near the hole *)
Lemma inner_roots a E L Q r1 r2 r3 r4 : 0 <= a < 1 -> 0 < E < 1 -> 0 <= Q ->
  (forall r, radial_potential a E L Q r = (1 - E^2) * (r1 - r) * (r - r2) * (r - r3) * (r - r4)) ->
  0 <= r4 <= 1 -> 1 <= r3 < r2 -> r2 <= r1 -> 16 * (r1 + r2) <= r1 * r2 -> 16 <= r2 /\ r3 + r4 <= 6.
Proof.
  intros Ha HE HQ HF R4 R3 R21 W.
  destruct (radial_vieta _ _ _ _ _ _ _ _ HF) as (V1 & V2). pose proof (radial_vieta3 _ _ _ _ _ _ _ _ HF) as V3.
  assert (B2 : 16 <= r2). { apply Rnot_lt_le. intros N. assert (r1 * r2 <= r1 * 16) by (apply Rmult_le_compat_l; lra). lra. }
  split; [exact B2|]. set (g := 1 - E^2) in *. assert (G : 0 < g) by (unfold g; nra).
  set (P := r1 * r2) in *. set (S := r1 + r2) in *. set (y := r3 + r4).
  assert (P0 : 512 <= P) by (unfold S in W; lra).
  assert (LE : (L - a * E)^2 <= 2 + 2 * L^2). { assert (0 <= (L + a * E)^2) by apply pow2_ge_0. assert ((a * E)^2 <= 1). { assert (0 <= a * E <= 1) by nra. nra. } lra. }
  assert (R34 : r3 * r4 <= y). { unfold y. nra. } assert (R34' : 0 <= r3 * r4) by nra.
  assert (e3 : P * y <= r1 * r2 * r3 + r1 * r2 * r4 + r1 * r3 * r4 + r2 * r3 * r4). { unfold P, y. assert (0 <= (r1 + r2) * (r3 * r4)) by (apply Rmult_le_pos; lra). lra. }
  assert (e2 : r1 * r2 + r1 * r3 + r1 * r4 + r2 * r3 + r2 * r4 + r3 * r4 <= P + S * y + y). { unfold P, S, y in *. lra. }
  assert (I : g * (P * y) <= g * (2 * (S + y) + 4 * (P + S * y + y))).
  { apply (Rmult_le_compat_l g) in e3; [|lra]. apply (Rmult_le_compat_l g) in e2; [|lra]. pose proof (Rmult_le_pos (a^2) g (pow2_ge_0 a) (Rlt_le _ _ G)) as AG.
    assert (T : g * (2 * (S + y)) = 4) by (unfold S, y in *; lra).
    rewrite Rmult_plus_distr_l, T. unfold P, S, y in *. lra. }
  apply Rmult_le_reg_l in I; [|exact G].
  assert (S * y <= P / 16 * y) by (apply Rmult_le_compat_r; unfold y; lra).
  assert (512 * y <= P * y) by (apply Rmult_le_compat_r; unfold y; lra).
  apply Rnot_lt_le. intros N. assert (P * 6 < P * y) by (apply Rmult_lt_compat_l; lra). lra.
Qed.

Definition beta_of (a E x r1 r2 r3 r4 : R) : R :=
  (1 - E^2) * (r1 * r2 + r1 * r3 + r1 * r4 + r2 * r3 + r2 * r4 + r3 * r4 - a^2 * (1 - x^2)).
Definition wide_facts (a p e x ur uth uph gam E L r3 r4 : R) : Prop :=
  let r1 := p / (1 - e) in let r2 := p / (1 + e) in let g := 1 - E^2 in
  let beta := beta_of a E x r1 r2 r3 r4 in let B := a^2 * g in
  (0 <= a < 1 /\ 0 <= e < 1 /\ 0 < E < 1 /\ x^2 <= 1 /\ 0 <= r4 /\ 1 <= r3 /\ r3 + r4 <= 6) /\
  g * (r1 + r2 + r3 + r4) = 2 /\
  ur = PI * sqrt (g * (r1 - r3) * (r2 - r4)) / (2 * ellK (kr2 r1 r2 r3 r4)) /\
  uth = PI * sqrt beta / (2 * ellK (a^2 * g * (1 - x^2) / beta)) /\
  L^2 <= beta /\ B < beta /\
  Rabs (Rabs uph - uth) <= 3 / r2 + 2 * Rabs L / r2^2 + B / (2 * sqrt (beta - B)) /\
  E * sq_avg r1 r2 r3 r4 <= gam <= E * sq_avg r1 r2 r3 r4 + 1 + 3 * (r1 + 1 + Rabs L) /\
  exists Q, constants_of_motion (Some a) (Some p) (Some e) (Some x) = Ret (Some E, Some L, Some Q).

Context (HR : root_spec X).
Section Orbit.
Context (a p e x ur uth uph gam : R) (Ha : 0 <= a) (Hp : 32 <= p).
Context (HF : mino_frequencies (Some a) (Some p) (Some e) (Some x) = Ret (Some ur, Some uth, Some uph, Some gam)).

Lemma far_Delta r : 0 <= a < 1 -> 16 <= r -> 7/8 * r^2 <= Delta a r.
Proof. intros A R. unfold Delta. assert (0 <= r * (r - 16)) by (apply Rmult_le_pos; lra). pose proof (pow2_ge_0 a). lra. Qed.

Lemma wide_orbit : exists E L r3 r4, wide_facts a p e x ur uth uph gam E L r3 r4.
Proof.
  destruct (mino_facts HX HR a p e x ur uth uph gam Ha HF) as (E & L & Q & r1 & r2 & r3 & r4 & zp & beta & a2s & F).
  pose proof (of_constants _ _ _ _ _ _ _ _ _ _ _ _ _ _ _ _ _ _ F) as HC.
  pose proof (of_a _ _ _ _ _ _ _ _ _ _ _ _ _ _ _ _ _ _ F) as A1. pose proof (of_e _ _ _ _ _ _ _ _ _ _ _ _ _ _ _ _ _ _ F) as He.
  pose proof (of_r1 _ _ _ _ _ _ _ _ _ _ _ _ _ _ _ _ _ _ F) as R1. pose proof (of_r2 _ _ _ _ _ _ _ _ _ _ _ _ _ _ _ _ _ _ F) as R2. pose proof (of_r12 _ _ _ _ _ _ _ _ _ _ _ _ _ _ _ _ _ _ F) as R12.
  pose proof (of_R _ _ _ _ _ _ _ _ _ _ _ _ _ _ _ _ _ _ F) as RF.
  destruct (C23_bound_orbits HR a p e x E L Q HC ltac:(lra)) as (HE & HQ & _).
  destruct (C15_roots_defined HR _ _ _ _ E L Q (Some (Some E, Some L, Some Q)) HC ltac:(lra) (or_intror eq_refl)) as (q1 & q2 & q3 & q4 & K & _ & _ & O4 & O3 & _ & _).
  rewrite (of_roots _ _ _ _ _ _ _ _ _ _ _ _ _ _ _ _ _ _ F) in K. apply Ret_inj in K. assert (q1 = r1 /\ q2 = r2 /\ q3 = r3 /\ q4 = r4) as (-> & -> & -> & ->) by (repeat split; congruence). clear K.
  assert (SQ : 0 <= sqrt (1 - a^2)) by apply sqrt_pos.
  assert (W : 16 * (r1 + r2) <= r1 * r2).
  { rewrite R1, R2. replace (16 * (p / (1 - e) + p / (1 + e))) with (32 * p / ((1 - e) * (1 + e))) by (field; lra). replace (p / (1 - e) * (p / (1 + e))) with (p * p / ((1 - e) * (1 + e))) by (field; lra).
    apply Rmult_le_compat_r; [left; apply Rinv_0_lt_compat, Rmult_lt_0_compat; lra | apply Rmult_le_compat_r; lra]. }
  destruct (inner_roots a E L Q r1 r2 r3 r4) as (B2 & S34); try assumption; try lra.
  destruct (radial_vieta _ _ _ _ _ _ _ _ RF) as (V1 & V2).
  exists E, L, r3, r4. unfold wide_facts. cbv zeta. rewrite <- R1, <- R2.
  set (g := 1 - E^2) in *. assert (G : 0 < g) by (unfold g; nra).
  pose proof (of_z _ _ _ _ _ _ _ _ _ _ _ _ _ _ _ _ _ _ F) as Z. set (z := 1 - x^2) in *.
  pose proof (of_beta _ _ _ _ _ _ _ _ _ _ _ _ _ _ _ _ _ _ F) as EB. fold g z in EB.
  pose proof (of_Z _ _ _ _ _ _ _ _ _ _ _ _ _ _ _ _ _ _ F) as PZ. fold g z in PZ.
  set (B := a^2 * g) in *. assert (B0 : 0 <= B) by (apply Rmult_le_pos; [apply pow2_ge_0 | lra]).
  assert (VB : beta + B * z = L^2 + Q + B).
  { pose proof (PZ 0) as P0. pose proof (PZ 1) as P1. pose proof (PZ (-1)) as P2. unfold polar_polynomial in *. fold g in P0, P1, P2. unfold B in *. lra. }
  assert (BE : beta_of a E x r1 r2 r3 r4 = beta). { unfold beta_of. fold g z. unfold B in *. lra. }
  rewrite BE. clear BE.
  assert (L2 : L^2 = (1 - z) * (beta - B)). { rewrite EB. field. lra. }
  pose proof (of_L _ _ _ _ _ _ _ _ _ _ _ _ _ _ _ _ _ _ F) as L0. pose proof (of_b _ _ _ _ _ _ _ _ _ _ _ _ _ _ _ _ _ _ F) as Bt.
  assert (L20 : 0 < L^2) by now apply pow2_gt_0.
  assert (BB : B < beta). { apply Rnot_le_lt. intros N. assert (0 <= (1 - z) * (B - beta)) by (apply Rmult_le_pos; lra). lra. }
  assert (LB : L^2 <= beta). { rewrite L2. assert (0 <= z * (beta - B)) by (apply Rmult_le_pos; lra). lra. }
  assert (AL : 0 < Rabs L) by now apply Rabs_pos_lt.
  refine (conj _ (conj V1 (conj _ (conj _ (conj LB (conj BB (conj _ (conj _ _)))))))).
  - unfold z in Z. repeat split; lra.
  - exact (of_ur _ _ _ _ _ _ _ _ _ _ _ _ _ _ _ _ _ _ F).
  - exact (of_uth _ _ _ _ _ _ _ _ _ _ _ _ _ _ _ _ _ _ F).
  - (* azimuth *)
    destruct (Gph_attained HX _ _ _ _ _ _ _ _ _ _ _ _ _ _ _ _ _ _ F) as (r & Hr & EG).
    pose proof (far_Delta r A1 ltac:(lra)) as DD. assert (r2^2 <= r^2) by (apply pow_incr; lra). assert (0 < r2^2) by (apply pow_lt; lra).
    assert (GB : Rabs (Gph a E L r1 r2 r3 r4) <= 3 / r2 + 2 * Rabs L / r2^2).
    { rewrite EG. unfold Rdiv at 1. rewrite Rabs_mult, Rabs_inv, (Rabs_pos_eq (Delta a r)) by lra.
      assert (N : Rabs (a * (2 * E * r - a * L)) <= 2 * r + Rabs L).
      { rewrite Rabs_mult, (Rabs_pos_eq a) by lra. assert (Rabs (2 * E * r - a * L) <= 2 * r + Rabs L).
        { eapply Rle_trans; [apply Rabs_triang|]. rewrite Rabs_Ropp, !Rabs_mult, (Rabs_pos_eq 2), (Rabs_pos_eq E), (Rabs_pos_eq r), (Rabs_pos_eq a) by lra.
          assert (a * Rabs L <= 1 * Rabs L) by (apply Rmult_le_compat_r; lra). assert (E * r <= 1 * r) by (apply Rmult_le_compat_r; lra). lra. }
        assert (a * Rabs (2 * E * r - a * L) <= 1 * Rabs (2 * E * r - a * L)) by (apply Rmult_le_compat_r; [apply Rabs_pos | lra]). lra. }
      assert (ID : / Delta a r <= 8/7 * / r^2). { replace (8/7 * / r^2) with (/ (7/8 * r^2)) by (field; lra). apply Rinv_le_contravar; [apply Rmult_lt_0_compat; [lra | apply pow_lt; lra] | exact DD]. }
      assert (I2 : / r^2 <= / r2^2) by (apply Rinv_le_contravar; lra). assert (I1 : / r <= / r2) by (apply Rinv_le_contravar; lra).
      assert (0 < / r^2) by (apply Rinv_0_lt_compat, pow_lt; lra). assert (0 < / r2) by (apply Rinv_0_lt_compat; lra).
      assert (0 < / Delta a r) by (apply Rinv_0_lt_compat; lra).
      eapply Rle_trans; [apply Rmult_le_compat; [apply Rabs_pos | lra | exact N | exact ID]|].
      replace ((2 * r + Rabs L) * (8 / 7 * / r^2)) with (16/7 * / r + 8/7 * (Rabs L * / r^2)) by (field; lra).
      assert (Rabs L * / r^2 <= Rabs L * / r2^2) by (apply Rmult_le_compat_l; lra). assert (0 <= Rabs L * / r2^2) by (apply Rmult_le_pos; [lra | left; apply Rinv_0_lt_compat; lra]). unfold Rdiv. lra. }
    pose proof (of_uph _ _ _ _ _ _ _ _ _ _ _ _ _ _ _ _ _ _ F) as EP. fold g z in EP. pose proof (of_kt _ _ _ _ _ _ _ _ _ _ _ _ _ _ _ _ _ _ F) as KT. fold g z B in KT.
    pose proof (of_uth _ _ _ _ _ _ _ _ _ _ _ _ _ _ _ _ _ _ F) as EU. fold g z B in EU. fold B in EP.
    set (m := kt2 B z beta) in *. pose proof (ellK_pos m (proj2 KT)) as KP.
    set (l := sqrt (beta - B)). assert (Lp : 0 < l) by (apply sqrt_lt_R0; lra). assert (Ll : l^2 = beta - B) by (apply pow2_sqrt; lra).
    destruct (polar_average l B z beta m Lp B0 Z ltac:(lra) ltac:(unfold m, kt2; field; lra) KT) as (PA1 & PA2).
    set (k := sqrt (1 - z)) in *. assert (Kk : 0 < k) by (apply sqrt_lt_R0; lra). assert (Kk2 : k^2 = 1 - z) by (apply pow2_sqrt; lra).
    assert (Kk1 : k <= 1) by nra.
    assert (LA : Rabs L = k * l). { apply Rsqr_inj; [apply Rabs_pos | left; now apply Rmult_lt_0_compat|]. rewrite <- !Rsqr_pow2, pow2_abs || rewrite !Rsqr_pow2, pow2_abs. rewrite L2, <- Ll, <- Kk2. ring. }
    set (Pi := ellPi z (PI / 2) m) in *.
    assert (U1 : k * l * Pi <= sqrt beta * PI / 2). { apply (Rmult_le_compat_l k) in PA1; [|lra]. replace (k * (sqrt beta * (PI / (2 * k)))) with (sqrt beta * PI / 2) in PA1 by (field; lra). lra. }
    assert (U2 : sqrt beta * PI / 2 <= k * l * Pi + B / (2 * l) * ellK m).
    { apply (Rmult_le_compat_l k) in PA2; [|lra]. replace (k * (sqrt beta * (PI / (2 * k)))) with (sqrt beta * PI / 2) in PA2 by (field; lra).
      assert (0 <= B / (2 * l) * ellK m). { apply Rmult_le_pos; [|lra]. apply Rmult_le_pos; [lra | left; apply Rinv_0_lt_compat; lra]. }
      assert (k * (B / (2 * l) * ellK m) <= 1 * (B / (2 * l) * ellK m)) by (apply Rmult_le_compat_r; lra). lra. }
    assert (AB : Rabs (Rabs L * Pi / ellK m - uth) <= B / (2 * l)).
    { rewrite EU, LA. replace (k * l * Pi / ellK m - PI * sqrt beta / (2 * ellK m)) with ((k * l * Pi - sqrt beta * PI / 2) / ellK m) by (field; lra).
      unfold Rdiv at 1. rewrite Rabs_mult, Rabs_inv, (Rabs_pos_eq (ellK m)) by lra. apply (Rle_div_l _ _ (ellK m)); [lra|]. apply Rabs_le. lra. }
    assert (PP : 0 <= Pi / ellK m). { apply Rmult_le_pos; [|left; now apply Rinv_0_lt_compat].
      unfold Pi. apply ellPi_nonneg; lra. }
    assert (TR : Rabs (Rabs uph - Rabs L * Pi / ellK m) <= Rabs (Gph a E L r1 r2 r3 r4)).
    { replace (Rabs L * Pi / ellK m) with (Rabs (L * Pi / ellK m)).
      - rewrite EP. eapply Rle_trans; [apply Rabs_triang_inv2|]. right. f_equal. ring.
      - unfold Rdiv in *. rewrite !Rmult_assoc, Rabs_mult. f_equal. now apply Rabs_pos_eq. }
    replace (Rabs uph - uth) with ((Rabs uph - Rabs L * Pi / ellK m) + (Rabs L * Pi / ellK m - uth)) by ring.
    eapply Rle_trans; [apply Rabs_triang|]. lra.
  - (* time *)
    set (Av := sq_avg r1 r2 r3 r4).
    destruct (trajectory_defined HX HR a p e x ur uth uph gam Ha HF 0 0 0 0) as (t & r & th & ph & H).
    destruct (C30_long_time_averages HX HR a p e x ur uth uph gam Ha HF 0 0 0 0 t r th ph H) as (_ & _ & C & CB).
    pose proof (runs_as_unique _ _ _ _ _ _ _ _ _ H (trajectory_runs HX _ _ _ _ _ _ _ _ _ _ _ _ _ _ _ _ _ _ F 0 0 0 0 HF)) as Eq.
    pose proof (of_s _ _ _ _ _ _ _ _ _ _ _ _ _ _ _ _ _ _ F) as Hs. pose proof (of_kr _ _ _ _ _ _ _ _ _ _ _ _ _ _ _ _ _ _ F) as Hm. pose proof (of_ord _ _ _ _ _ _ _ _ _ _ _ _ _ _ _ _ _ _ F) as Ho.
    destruct (sq_osc_bounded E r1 r2 r3 r4 Hs Hm Ho) as (C' & OB).
    pose proof (ur_pos _ _ _ _ _ _ _ _ _ _ _ _ _ _ _ _ _ _ F) as Up.
    set (f := fun l => t l - E * (sq_osc E r1 r2 r3 r4 (ur * l) + Av * l)).
    assert (FD : forall l, is_derive f l (dt_dlambda a E L (r l) (th l) - E * r l ^ 2)).
    { intros l. destruct (C29_time_and_azimuth_equations HX HR a p e x ur uth uph gam Ha HF 0 0 0 0 t r th ph H E L Q HC l) as (_ & _ & D3 & _).
      pose proof (sq_osc_derive E r1 r2 r3 r4 Hs Hm Ho (ur * l)) as D4.
      replace (rho r1 r2 r3 (psi_r r1 r2 r3 r4) (ur * l)) with (r l) in D4 by (destruct (Eq l) as (_ & -> & _); unfold sr, fr; now rewrite Rplus_0_r).
      pose proof (of_ur _ _ _ _ _ _ _ _ _ _ _ _ _ _ _ _ _ _ F) as EU. fold Av in D4.
      replace (PI * sqrt (sr2 (1 - E^2) r1 r2 r3 r4) / (2 * ellK (kr2 r1 r2 r3 r4))) with ur in D4 by exact EU.
      unfold f. set (o := sq_osc E r1 r2 r3 r4) in *. clearbody o. clearbody Av.
      auto_derive; [split; [eexists; exact D3 | split; [eexists; exact D4 | trivial]]|].
      rewrite (is_derive_unique (fun x : R => t x) _ _ D3). 
      rewrite (is_derive_unique (fun x : R => o x) _ _ D4).
      match goal with |- ?u = ?v => change (@eq R u v) end. field. lra. }
    assert (FB : forall l, 0 <= dt_dlambda a E L (r l) (th l) - E * r l ^ 2 <= 1 + 3 * (r1 + 1 + Rabs L)).
    { intros l. destruct (C25_bound_motion HX HR a p e x ur uth uph gam Ha HF 0 0 0 0 t r th ph H l) as ((B1 & B1') & _). rewrite <- R2 in B1. rewrite <- R1 in B1'.
      set (y := r l) in *. pose proof (far_Delta y A1 ltac:(lra)) as DD. assert (Y2 : 0 < y^2) by (apply pow_lt; lra).
      assert (PP : 0 < E * (y^2 + a^2) - a * L) by (apply (P_pos a E L Q r1 r2 r3 r4); try assumption; try lra; [nra|]; pose proof (far_Delta r2 A1 ltac:(lra)); assert (0 < r2^2) by (apply pow_lt; lra); lra).
      set (P := E * (y^2 + a^2) - a * L) in *.
      assert (ID : dt_dlambda a E L y (th l) - E * y^2 = E * a^2 * cos (th l)^2 + 2 * y * P / Delta a y).
      { unfold dt_dlambda. fold P. pose proof (sin2_cos2 (th l)) as SC. rewrite !Rsqr_pow2 in SC. replace (sin (th l)^2) with (1 - cos (th l)^2) by lra.
        replace ((y^2 + a^2) / Delta a y * P) with (P + 2 * y * P / Delta a y) by (unfold Delta in *; field; lra). unfold P. ring. }
      rewrite ID. assert (C1 : 0 <= cos (th l)^2 <= 1). { pose proof (COS_bound (th l)). nra. }
      assert (A2 : 0 <= a^2 <= 1) by nra.
      assert (T1 : 0 <= E * a^2 * cos (th l)^2 <= 1). { assert (0 <= E * a^2 <= 1) by nra. nra. }
      assert (T2 : 0 <= 2 * y * P / Delta a y). { apply Rmult_le_pos; [apply Rmult_le_pos; lra | left; apply Rinv_0_lt_compat; lra]. }
      assert (PB : P <= y^2 + 1 + Rabs L).
      { unfold P. assert (- (a * L) <= Rabs L). { eapply Rle_trans; [apply Rle_abs|]. rewrite Rabs_Ropp, Rabs_mult, (Rabs_pos_eq a) by lra. assert (a * Rabs L <= 1 * Rabs L) by (apply Rmult_le_compat_r; lra). lra. }
        assert (E * (y^2 + a^2) <= 1 * (y^2 + a^2)) by (apply Rmult_le_compat_r; lra). lra. }
      assert (T3 : 2 * y * P / Delta a y <= 3 * (r1 + 1 + Rabs L)).
      { apply (Rle_div_l _ _ (Delta a y)); [lra|].
        assert (2 * y * P <= 2 * y * (y^2 + 1 + Rabs L)) by (apply Rmult_le_compat_l; lra).
        assert (3 * (r1 + 1 + Rabs L) * (7/8 * y^2) <= 3 * (r1 + 1 + Rabs L) * Delta a y) by (apply Rmult_le_compat_l; lra).
        assert (y * y^2 <= r1 * y^2) by (apply Rmult_le_compat_r; lra). assert ((1 + Rabs L) * y <= (1 + Rabs L) * y^2) by (apply Rmult_le_compat_l; [lra|nra]).
        assert (0 <= (1 + Rabs L) * y) by (apply Rmult_le_pos; lra). assert (0 <= y * y^2) by (apply Rmult_le_pos; lra). lra. }
      lra. }
    assert (DV : forall l, Rabs (f l - (gam - E * Av) * l) <= C + C').
    { intros l. unfold f. destruct (CB l) as (CB1 & _). specialize (OB (ur * l)). replace (t l - E * (sq_osc E r1 r2 r3 r4 (ur * l) + Av * l) - (gam - E * Av) * l) with ((t l - gam * l) + - (E * sq_osc E r1 r2 r3 r4 (ur * l))) by ring.
      eapply Rle_trans; [apply Rabs_triang|]. rewrite Rabs_Ropp, Rabs_mult, (Rabs_pos_eq E) by lra.
      set (o := Rabs (sq_osc E r1 r2 r3 r4 (ur * l))) in *. assert (0 <= o) by apply Rabs_pos. assert (E * o <= 1 * o) by (apply Rmult_le_compat_r; lra). lra. }
    assert (LO : 0 <= gam - E * Av). { apply (average_lower f _ 0 (C + C') DV). apply (growth f _ 0 FD). intros l; apply FB. }
    assert (UP : - (1 + 3 * (r1 + 1 + Rabs L)) <= - (gam - E * Av)).
    { apply (average_lower (fun l => - f l) _ _ (C + C')).
      - intros l. replace (- f l - - (gam - E * Av) * l) with (- (f l - (gam - E * Av) * l)) by ring. rewrite Rabs_Ropp. apply DV.
      - apply (growth (fun l => - f l) (fun l => - (dt_dlambda a E L (r l) (th l) - E * r l ^2))).
        + intros l. exact (is_derive_opp f l _ (FD l)).
        + intros l. destruct (FB l). lra. }
    lra.
  - exists Q. exact HC.
Qed.
End Orbit.
End S.

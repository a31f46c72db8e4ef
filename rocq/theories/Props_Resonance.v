(** * C96: resonant orbits close, non-resonant orbits fill their box *)
From Coq Require Import Reals Lra Lia ZArith String List.
From Coquelicot Require Import Coquelicot.
From Verif Require Import Num Outcome External Checked ExternalSpec.
From Verif Require Import Model_Constants Model_Frequencies Model_Stable.
From Verif Require Import Spec SpecElliptic Elliptic P_Validation Props_Validation P_Bounds P_Constants Props_Constants.
From Verif Require Import P_Radial P_Polar P_Traj P_Traj2 P_Traj3 P_Traj4 Props_Trajectory Props_Trajectory2.
From Verif Require Import Props_Stability Props_Finite Props_Frequencies Props_Future Props_Restart Props_Symmetry Props_Schwarzschild Props_Precession Props_FreqContinuity Kronecker.
Open Scope R_scope.

(** if f (l + T) = f l + c for all l and f stays within a bounded distance of g l, then c = g T *)
Lemma increment_is_average (f : R -> R) g C T c : 0 < T -> (forall l, f (l + T) = f l + c) -> (forall l, Rabs (f l - g * l) <= C) -> c = g * T.
Proof.
  intros HT S B.
  assert (SN : forall n : nat, f (INR n * T) = f 0 + INR n * c).
  { induction n as [|n IH]; [simpl INR; rewrite !Rmult_0_l; ring|]. rewrite S_INR. replace ((INR n + 1) * T) with (INR n * T + T) by ring. rewrite S, IH. ring. }
  assert (K : forall n : nat, INR n * Rabs (c - g * T) <= 2 * C).
  { intros n. pose proof (B (INR n * T)) as B1. pose proof (B 0) as B0. rewrite SN in B1.
    rewrite <- (Rabs_pos_eq (INR n)) by apply pos_INR. rewrite <- Rabs_mult.
    replace (INR n * (c - g * T)) with ((f 0 + INR n * c - g * (INR n * T)) - (f 0 - g * 0)) by ring.
    eapply Rle_trans; [apply Rabs_triang|]. rewrite Rabs_Ropp. lra. }
  destruct (Req_dec c (g * T)) as [E|N]; [exact E|]. exfalso.
  assert (A : 0 < Rabs (c - g * T)) by (apply Rabs_pos_lt; lra).
  assert (C0 : 0 <= C) by (specialize (K O); simpl in K; lra).
  destruct (archimed_cor1 (Rabs (c - g * T) / (2 * C + 1))) as (n & N1 & N2); [apply Rdiv_lt_0_compat; lra|].
  apply lt_0_INR in N2. specialize (K n). apply Rlt_div_r in N1; [|lra].
  assert (INR n * (/ INR n * (2 * C + 1)) < INR n * Rabs (c - g * T)) by (apply Rmult_lt_compat_l; assumption).
  replace (INR n * (/ INR n * (2 * C + 1))) with (2 * C + 1) in H by (field; lra). lra.
Qed.

Section S.
Context {X : External R} (HX : special_spec X) (HR : root_spec X).
Context (a p e x ur uth uph gam : R) (Ha : 0 <= a).
Hypothesis HF : mino_frequencies (Some a) (Some p) (Some e) (Some x) = Ret (Some ur, Some uth, Some uph, Some gam).
Local Notation run qt qr qth qph :=
  (stable_trajectory (Some a) (Some p) (Some e) (Some x) (Some qt, Some qr, Some qth, Some qph) None "natural" "natural").

(** ** C96 (resonance): after a Mino time that is a whole number of radial and of polar periods,
    r and theta are back, and t and phi have advanced by exactly Gamma and Upsilon_phi times it *)
Theorem C96_resonant_orbits_close qt qr qth qph t r theta phi : runs_as (run qt qr qth qph) t r theta phi ->
  forall (T : R) (j k : Z), 0 < T -> ur * T = IZR j * (2 * PI) -> uth * T = IZR k * (2 * PI) ->
  forall l, r (l + T) = r l /\ theta (l + T) = theta l /\ t (l + T) = t l + gam * T /\ phi (l + T) = phi l + uph * T.
Proof.
  intros H T j k HT J K.
  pose proof (C68_flow HX HR a p e x ur uth uph gam Ha HF _ _ _ _ _ _ _ _ H T) as H1. rewrite J, K in H1.
  pose proof (C68_whole_turns HX HR a p e x ur uth uph gam Ha HF _ _ _ _ _ _ _ _ H j k) as H2.
  pose proof (C68_stationary_and_axisymmetric HX HR a p e x ur uth uph gam Ha HF _ _ _ _ _ _ _ _ H2 (t T - qt) (phi T - qph)) as H3.
  replace (qt + (t T - qt)) with (t T) in H3 by ring. replace (qph + (phi T - qph)) with (phi T) in H3 by ring.
  pose proof (runs_as_unique _ _ _ _ _ _ _ _ _ H1 H3) as Eq. cbv beta in Eq.
  destruct (C30_long_time_averages HX HR _ _ _ _ _ _ _ _ Ha HF _ _ _ _ _ _ _ _ H) as (_ & _ & C & B).
  rewrite <- (increment_is_average t gam C T (t T - qt) HT (fun l => proj1 (Eq l)) (fun l => proj1 (B l))).
  rewrite <- (increment_is_average phi uph C T (phi T - qph) HT (fun l => proj2 (proj2 (proj2 (Eq l)))) (fun l => proj2 (B l))).
  intros l. destruct (Eq l) as (E1 & E2 & E3 & E4). now rewrite E1, E2, E3, E4.
Qed.

(** every radius and every polar angle of the box is reached *)
Lemma reached (f : R -> R) u v y : (forall l, continuity_pt f l) -> f u <= y <= f v -> exists l, f l = y.
Proof.
  intros Cf B. destruct (IVT_gen f u v y Cf) as (l & _ & E); [|now exists l]. rewrite Rmin_left, Rmax_right by lra. exact B.
Qed.

(** ** C96 (no resonance): if the radial and polar frequencies satisfy no integer relation, the
    orbit returns to every radius of [p/(1+e), p/(1-e)], arbitrarily late, at a polar angle
    arbitrarily close to any chosen one of its range: it is dense in the box *)
Theorem C96_other_orbits_fill_the_box qt qr qth qph t r theta phi : runs_as (run qt qr qth qph) t r theta phi ->
  incommensurable ur uth ->
  forall r0 th0, p / (1 + e) <= r0 <= p / (1 - e) -> acos (sqrt (1 - x^2)) <= th0 <= PI - acos (sqrt (1 - x^2)) ->
  forall eps late, 0 < eps -> exists l, late <= l /\ r l = r0 /\ Rabs (theta l - th0) < eps.
Proof.
  intros H HI r0 th0 Br Bt eps late He. pose proof PI_RGT_0 as PI0.
  destruct (C27_periodic HX HR _ _ _ _ _ _ _ _ Ha HF _ _ _ _ _ _ _ _ H) as (U1 & U2 & P).
  assert (CT : exists E L Q, constants_of_motion (Some a) (Some p) (Some e) (Some x) = Ret (Some E, Some L, Some Q)).
  { destruct (mino_facts HX HR a p e x ur uth uph gam Ha HF) as (E & L & Q & r1 & r2 & r3 & r4 & zp & beta & a2s & F).
    exists E, L, Q. exact (of_constants _ _ _ _ _ _ _ _ _ _ _ _ _ _ _ _ _ _ F). }
  destruct CT as (E & L & Q & HC).
  pose proof (C28_radial_and_polar_equations HX HR _ _ _ _ _ _ _ _ Ha HF _ _ _ _ _ _ _ _ H E L Q HC) as D.
  assert (Cr : forall l, continuity_pt r l). { intros l. destruct (D l) as (r' & th' & D1 & _). apply continuity_pt_filterlim, (ex_derive_continuous r). now exists r'. }
  assert (Ct : forall l, continuity_pt theta l). { intros l. destruct (D l) as (r' & th' & _ & D1 & _). apply continuity_pt_filterlim, (ex_derive_continuous theta). now exists th'. }
  pose proof (C26_phases HX HR _ _ _ _ _ _ _ _ Ha HF _ _ _ _ _ _ _ _ H) as Ph.
  assert (R0 : exists l, r l = r0).
  { apply (reached r ((0 - qr) / ur) ((PI - qr) / ur) r0 Cr).
    rewrite (proj1 (Ph ((0 - qr) / ur) 0%Z)) by (field; lra). rewrite (proj1 (proj2 (Ph ((PI - qr) / ur) 0%Z))) by (field; lra). exact Br. }
  assert (T0 : exists l, theta l = th0).
  { apply (reached theta ((0 - qth) / uth) ((PI - qth) / uth) th0 Ct).
    rewrite (proj1 (proj2 (proj2 (Ph ((0 - qth) / uth) 0%Z)))) by (field; lra). rewrite (proj1 (proj2 (proj2 (proj2 (Ph ((PI - qth) / uth) 0%Z))))) by (field; lra). exact Bt. }
  destruct R0 as (l0 & R0). destruct T0 as (m0 & T0).
  destruct (proj1 (continuity_pt_locally theta m0) (Ct m0) (mkposreal eps He)) as (d & Hd). cbn [pos] in Hd.
  set (P1 := 2 * PI / ur). set (P2 := 2 * PI / uth).
  assert (P1p : 0 < P1) by (apply Rdiv_lt_0_compat; lra). assert (P2p : 0 < P2) by (apply Rdiv_lt_0_compat; lra).
  assert (HI' : incommensurable P1 P2).
  { intros j k Hjk. destruct (HI k j) as (K1 & K2); [|now split].
    unfold P1, P2 in Hjk. apply (Rmult_eq_reg_r (2 * PI / (ur * uth))); [|apply Rgt_not_eq, Rdiv_lt_0_compat; [lra | now apply Rmult_lt_0_compat]].
    transitivity (IZR k * (2 * PI / uth)); [field; lra|]. rewrite <- Hjk. field. lra. }
  destruct (kronecker P1 P2 P1p P2p HI' (m0 - l0) (pos d) ((late - l0) / P1) (cond_pos d)) as (n & k & N1 & N2).
  exists (l0 + IZR n * P1). refine (conj _ (conj _ _)).
  - apply Rle_div_l in N1; [lra | exact P1p].
  - rewrite <- R0. exact (proj1 (P l0 n)).
  - rewrite <- T0. replace (theta (l0 + IZR n * P1)) with (theta (l0 + IZR n * P1 - IZR k * P2)).
    + apply Hd. unfold ball; cbn. unfold AbsRing_ball, abs, minus, plus, opp; cbn.
      replace (l0 + IZR n * P1 - IZR k * P2 + - m0) with (IZR n * P1 - IZR k * P2 - (m0 - l0)) by ring. exact N2.
    + replace (l0 + IZR n * P1) with ((l0 + IZR n * P1 - IZR k * P2) + IZR k * P2) at 2 by ring. symmetry. apply (proj2 (P _ k)).
Qed.
End S.

(** ** a non-resonant, eccentric and inclined orbit: (49/32) Upsilon_r^2 = Upsilon_theta^2 for a
    Schwarzschild orbit with e = x = 1/2 and some p between 12 and 24 *)
Section C.
Context {X : External R} (HX : special_spec X) (HR : root_spec X).
Lemma some_ratio : exists p, 12 <= p <= 24 /\ PI / 2 * sqrt ((p - 5) / p) / ellK (2 / (p - 5)) = sqrt (32 / 49).
Proof.
  pose proof PI_RGT_0 as PI0. set (g := fun p => PI / 2 * sqrt ((p - 5) / p) / ellK (2 / (p - 5))).
  assert (Mb : forall p, 12 <= p -> 0 <= 2 / (p - 5) < 1). { intros p Hp. split; [apply Rlt_le, Rdiv_lt_0_compat; lra | apply Rlt_div_l; lra]. }
  set (c := fun q => (12 + q + Rabs (q - 12)) / 2).
  assert (C1 : forall q, 12 <= c q). { intros q. unfold c. pose proof (Rle_abs (- (q - 12))). rewrite Rabs_Ropp in H. lra. }
  assert (C2 : forall q, 12 <= q -> c q = q). { intros q H. unfold c. rewrite Rabs_pos_eq by lra. field. }
  assert (CC : forall q, continuity_pt (fun q => g (c q)) q).
  { intros q. apply seq_continuity. intros qn Ln.
    assert (Lc : is_lim_seq (fun n => c (qn n)) (c q)).
    { unfold c. apply is_lim_seq_div'; [|apply is_lim_seq_const|lra]. apply is_lim_seq_plus'.
      - apply is_lim_seq_plus'; [apply is_lim_seq_const | exact Ln].
      - apply (is_lim_seq_abs (fun n => qn n - 12) (Finite (q - 12))). apply is_lim_seq_minus'; [exact Ln | apply is_lim_seq_const]. }
    specialize (C1 q). set (y := c q) in *. set (yn := fun n => c (qn n)) in *. change (is_lim_seq (fun n => g (yn n)) (g y)). clearbody y yn. clear - Lc C1 Mb PI0.
    destruct (Mb y C1) as (M1 & M2). pose proof (ellK_pos _ M2) as KP.
    assert (L5 : is_lim_seq (fun n => yn n - 5) (y - 5)) by (apply is_lim_seq_minus'; [exact Lc | apply is_lim_seq_const]).
    unfold g. apply is_lim_seq_div'; [| |lra].
    - apply is_lim_seq_mult'; [apply is_lim_seq_const|]. apply (is_lim_seq_continuous sqrt); [apply continuity_pt_sqrt; apply Rlt_le, Rdiv_lt_0_compat; lra|].
      apply is_lim_seq_div'; [exact L5 | exact Lc | lra].
    - apply lim_ellK; [|exact M2]. apply is_lim_seq_div'; [apply is_lim_seq_const | exact L5 | lra]. }
  assert (V12 : g (c 12) <= sqrt (32/49)).
  { rewrite C2 by lra. unfold g. replace (2 / (12 - 5)) with (2/7) by field. replace ((12 - 5) / 12) with (7/12) by field. destruct (ellK_bounds (2/7) ltac:(lra)) as (B & _).
    apply Rle_div_l; [apply ellK_pos; lra|]. rewrite (Rmult_comm (sqrt (32 / 49))). apply Rmult_le_compat; [lra | apply sqrt_pos | exact B | apply sqrt_le_1; lra]. }
  assert (V24 : sqrt (32/49) <= g (c 24)).
  { rewrite C2 by lra. unfold g. replace (2 / (24 - 5)) with (2/19) by field. replace ((24 - 5) / 24) with (19/24) by field. destruct (ellK_bounds (2/19) ltac:(lra)) as (_ & B).
    apply Rle_div_r; [apply ellK_pos; lra|]. assert (S1 : 0 < sqrt (1 - 2/19)) by (apply sqrt_lt_R0; lra).
    eapply Rle_trans; [apply Rmult_le_compat_l; [apply sqrt_pos | exact B]|].
    replace (sqrt (32 / 49) * (PI / 2 / sqrt (1 - 2/19))) with (PI / 2 * (sqrt (32 / 49) / sqrt (1 - 2/19))) by (field; lra).
    apply Rmult_le_compat_l; [lra|]. rewrite <- sqrt_div_alt by lra. apply sqrt_le_1; lra. }
  destruct (IVT_gen (fun q => g (c q)) 12 24 (sqrt (32/49)) CC) as (q & Bq & Eq).
  { rewrite Rmin_left, Rmax_right by lra. lra. }
  rewrite Rmin_left, Rmax_right in Bq by lra. exists q. split; [exact Bq|]. rewrite C2 in Eq by lra. exact Eq.
Qed.
Example C96_case : exists p ur uth uph gam, 12 <= p <= 24 /\
  mino_frequencies (Some 0) (Some p) (Some (1/2)) (Some (1/2)) = Ret (Some ur, Some uth, Some uph, Some gam) /\
  incommensurable ur uth /\
  exists t r theta phi,
  runs_as (stable_trajectory (Some 0) (Some p) (Some (1/2)) (Some (1/2)) (Some 0, Some 0, Some 0, Some 0) None "natural" "natural") t r theta phi.
Proof.
  destruct some_ratio as (p & Bp & Ep). exists p.
  assert (CK : check_constants_params 0 p (1/2) (1/2) = Ret tt) by (apply accepts_schwarzschild; lra).
  destruct (C54_every_accepted_orbit HX HR 0 p (1/2) (1/2) ltac:(lra) ltac:(lra) ltac:(lra) CK) as (E & L & Q & HC & HE & _ & FR).
  { intros (K & _). lra. }
  destruct FR as (ur & uth & uph & gam & HF & U1 & U2 & _).
  { rewrite Rmult_0_l. apply Rgt_not_eq. pose proof (sqrt_pos (1 - 0^2)). apply Rmult_lt_0_compat; lra. }
  exists ur, uth, uph, gam. refine (conj Bp (conj HF (conj _ _))).
  2: { apply (trajectory_defined HX HR 0 p (1/2) (1/2) ur uth uph gam ltac:(lra) HF 0 0 0 0). }
  destruct (C70_schwarzschild_frequencies HX HR _ _ _ _ _ _ _ HF) as (_ & _ & _ & UT & _ & _ & UR & _).
  replace (4 * (1/2) / (p - 6 + 2 * (1/2))) with (2 / (p - 5)) in UR by (field; lra).
  assert (RT : ur = sqrt (32/49) * uth).
  { rewrite <- Ep, UT, UR. set (w := p - 3 - (1/2)^2). assert (W : 0 < w) by (unfold w; lra).
    assert (SW : 0 < sqrt w) by now apply sqrt_lt_R0. assert (KP : 0 < ellK (2 / (p - 5))) by (apply ellK_pos; apply Rlt_div_l; lra).
    replace (p * (p - 6 + 2 * (1/2)) / w) with ((p - 5) / p * (p / sqrt w)^2).
    2: { replace ((p / sqrt w)^2) with (p^2 / sqrt w ^2) by (field; lra). rewrite pow2_sqrt by lra. field. lra. }
    rewrite sqrt_mult_alt, sqrt_pow2 by (apply Rlt_le, Rdiv_lt_0_compat; lra). field. split; lra. }
  intros j k Hjk. rewrite RT in Hjk.
  assert (I : IZR j * sqrt (32/49) = IZR k) by (apply (Rmult_eq_reg_r uth); lra).
  assert (I2 : IZR j * IZR j * (32/49) = IZR k * IZR k).
  { rewrite <- I. replace (IZR j * sqrt (32/49) * (IZR j * sqrt (32/49))) with (IZR j * IZR j * (sqrt (32/49))^2) by ring. rewrite pow2_sqrt by lra. ring. }
  destruct (two_squares (7 * k) (4 * j)) as (K1 & K2); [|split; lia].
  apply eq_IZR. rewrite !mult_IZR. lra.
Qed.
End C.

(** * C111: every resonance, and in Schwarzschild every closed orbit, exists *)
From Coq Require Import Reals Lra Lia ZArith String List ClassicalEpsilon.
From Coquelicot Require Import Coquelicot.
From Verif Require Import Num Outcome External Checked ExternalSpec Spec SpecElliptic Elliptic.
From Verif Require Import Model_Constants Model_Frequencies Model_Stable P_Validation Props_Validation P_Bounds P_Constants Props_Constants Props_Separatrix.
From Verif Require Import P_Radial P_Polar P_Traj P_Traj2 P_Traj3 P_Traj4 Props_Trajectory Props_Trajectory2.
From Verif Require Import Props_Stability Props_Finite Props_Frequencies Props_Future Props_Restart Props_Symmetry Props_Schwarzschild Props_Precession Props_Continuity Props_SepContinuity Props_FreqContinuity Kronecker Props_Resonance Props_Whirl Props_Kepler Props_Binding.
Open Scope R_scope.

Section S.
Context {X : External R} (HX : special_spec X) (HR : root_spec X).

(** the polar Mino frequency is bounded below *)
Lemma uth_lower a p e x ur uth uph gam : 0 <= a ->
  mino_frequencies (Some a) (Some p) (Some e) (Some x) = Ret (Some ur, Some uth, Some uph, Some gam) -> 1/2 < uth.
Proof.
  intros Ha HF. destruct (mino_facts HX HR a p e x ur uth uph gam Ha HF) as (E & L & Q & r1 & r2 & r3 & r4 & zp & beta & a2s & F).
  destruct F. pose proof of_constants as HC.
  destruct (C90_binding_energy HR a p e x E L Q HC (proj2 of_e)) as ((_ & B1) & B2 & B3).
  assert (E13 : 1/3 < E^2). { destruct (C90_binding_energy HR a p e x E L Q HC (proj2 of_e)) as ((B0 & B1') & _). lra. }
  set (A := a^2 * (1 - E^2)) in *. assert (A2 : 0 <= a^2 <= 1) by (clear - Ha of_a; nra). assert (A0 : 0 <= A <= 2/3) by (unfold A; clear - A2 E13 B2; nra).
  set (z := 1 - x^2) in *.
  assert (W : A + L^2 + Q = z * A + beta).
  { pose proof (of_Z 0) as F0. pose proof (of_Z 1) as F1. pose proof (of_Z (-1)) as F2. unfold polar_polynomial in *. fold A in F0, F1, F2. lra. }
  set (mt := kt2 A z beta) in *.
  assert (Em : mt * beta = A * z) by (unfold mt, kt2; field; lra).
  destruct (ellK_bounds mt of_kt) as [KT1 KT2]. pose proof PI_RGT_0 as PP.
  assert (SM : 0 < sqrt (1 - mt)) by (apply sqrt_lt_R0; lra).
  assert (UT' : sqrt (beta - A * z) <= uth).
  { rewrite of_uth. apply Rle_div_r; [lra|].
    replace (beta - A * z) with (beta * (1 - mt)) by lra. rewrite sqrt_mult by lra.
    assert (2 * ellK mt * sqrt (1 - mt) <= PI).
    { apply Rle_trans with (2 * (PI / 2 / sqrt (1 - mt)) * sqrt (1 - mt)); [apply Rmult_le_compat_r; lra | right; field; lra]. }
    pose proof (sqrt_pos beta). clear - H H0. nra. }
  assert (Z1 : 0 <= z <= 1) by (clear - of_z; nra).
  assert (2/3 < beta - A * z) by (clear - W B3 A0 Z1; nra).
  apply Rlt_le_trans with (2 := UT'). replace (1/2) with (sqrt ((1/2)^2)) by (apply sqrt_pow2; lra). apply sqrt_lt_1; lra.
Qed.

Section Fixed.
Context (a e x s : R) (Ha : 0 <= a < 1) (He : 0 <= e < 1) (Hx : -1 <= x <= 1) (X0 : x <> 0) (RET : a = 0 \/ x < 0).
Hypothesis Hs : separatrix (Some a) (Some e) (Some x) = Ret (Some s).

Lemma freq_defined p : s < p -> exists ur uth uph gam, mino_frequencies (Some a) (Some p) (Some e) (Some x) = Ret (Some ur, Some uth, Some uph, Some gam).
Proof.
  intros Hp. assert (S1 : spin_sign a = 1) by (unfold spin_sign; destruct (Rlt_dec a 0); lra).
  assert (Es' : separatrix a e x = Ret s) by (rewrite separatrix_lift in Hs; destruct (separatrix a e x) as [s'| |]; cbn [lift] in Hs; congruence).
  assert (CK : check_constants_params a p e x = Ret tt).
  { destruct (check_constants_cases a p e x ltac:(lra)) as [_ [_ H]]. rewrite (H s); [|lra|exact Es']. destruct (Rlt_dec s p); [reflexivity | lra]. }
  destruct (C50_finite_retrograde HR a p e x) as (E & L & Q & HC).
  { rewrite Rabs_pos_eq, S1, Rmult_1_r by lra. exact CK. }
  { rewrite S1. destruct RET; [left; assumption | right; lra]. }
  apply (C53_frequencies_exactly HX HR a p e x E L Q ltac:(lra) X0 HC).
  destruct (C23_bound_orbits HR a p e x E L Q HC ltac:(lra)) as (HE & _).
  rewrite Rabs_pos_eq by lra. pose proof (sqrt_pos (1 - a^2)).
  destruct (C14_polar_turning_point HR a p e x E L Q HC) as (_ & _ & HN & _). rewrite S1, Rmult_1_r in HN.
  apply Rgt_not_eq. destruct RET as [-> |R]; [rewrite Rmult_0_l; clear - HE H; nra | specialize (HN R); clear - HN HE H Ha; nra].
Qed.
Definition fr (p : R) : R * R * R * R := match mino_frequencies (Some a) (Some p) (Some e) (Some x) with Ret (Some u1, Some u2, Some u3, Some u4) => (u1, u2, u3, u4) | _ => (0, 0, 0, 0) end.
Definition f1 p := fst (fst (fst (fr p))). Definition f2 p := snd (fst (fst (fr p))). Definition f3 p := snd (fst (fr p)). Definition f4 p := snd (fr p).
Lemma fr_eq p : s < p -> mino_frequencies (Some a) (Some p) (Some e) (Some x) = Ret (Some (f1 p), Some (f2 p), Some (f3 p), Some (f4 p)).
Proof. intros Hp. destruct (freq_defined p Hp) as (u1 & u2 & u3 & u4 & H). unfold f1, f2, f3, f4, fr. rewrite H. reflexivity. Qed.
Lemma fr_pos p : s < p -> 0 < f1 p < f2 p.
Proof. intros Hp. exact (proj1 (C77_periapsis_advances HX HR _ _ _ _ _ _ _ _ (fr_eq p Hp))). Qed.

Lemma ratio_small y : 0 < y -> exists p, s < p /\ f1 p / f2 p < y.
Proof.
  intros Y. set (w := fun n : nat => / (INR n + 2)).
  assert (W0 : forall n, s < s + w n). { intros n. unfold w. pose proof (pos_INR n). assert (0 < / (INR n + 2)) by (apply Rinv_0_lt_compat; lra). lra. }
  assert (LW : is_lim_seq w 0).
  { unfold w. replace (Finite 0) with (Rbar_inv p_infty) by reflexivity. apply is_lim_seq_inv; [|discriminate].
    apply (is_lim_seq_plus INR (fun _ => 2) p_infty 2 p_infty); [apply is_lim_seq_INR | apply is_lim_seq_const | reflexivity]. }
  assert (LP : is_lim_seq (fun n => s + w n) s) by (replace (Finite s) with (Finite (s + 0)) by (f_equal; ring); lim).
  destruct (C89_radial_frequency_vanishes HX HR (fun _ => a) (fun n => s + w n) (fun _ => e) (fun _ => x) a e x s Ha He Hx
    (is_lim_seq_const _) LP (is_lim_seq_const _) (is_lim_seq_const _) Hs (fun _ => proj1 Ha) _ _ _ _ (fun n => fr_eq (s + w n) (W0 n))) as (U & L & _).
  destruct (eventually_close _ _ (y / 2) L ltac:(lra)) as (N & K). specialize (K N (le_n N)). specialize (U N). rewrite Rminus_0_r, Rabs_pos_eq in K by lra.
  exists (s + w N). split; [apply W0|]. pose proof (uth_lower _ _ _ _ _ _ _ _ (proj1 Ha) (fr_eq (s + w N) (W0 N))) as UL.
  apply (Rmult_lt_reg_r (f2 (s + w N))); [lra|]. replace (f1 (s + w N) / f2 (s + w N) * f2 (s + w N)) with (f1 (s + w N)) by (field; lra). nra.
Qed.
Lemma ratio_large y m : y < 1 -> exists p, s < p /\ m < p /\ y < f1 p / f2 p.
Proof.
  intros Y. set (M := Rmax 1 (Rmax s m)). assert (M1 : 1 <= M) by apply Rmax_l. assert (M2 : s <= M) by (eapply Rle_trans; [apply Rmax_l | apply Rmax_r]). assert (M3 : m <= M) by (eapply Rle_trans; [apply Rmax_r | apply Rmax_r]).
  set (pn := fun n : nat => INR n + (M + 1)). assert (P0 : forall n, M + 1 <= pn n) by (intros n; unfold pn; pose proof (pos_INR n); lra).
  assert (PS : forall n, s < pn n) by (intros n; specialize (P0 n); lra).
  assert (LP : is_lim_seq pn p_infty) by (refine (is_lim_seq_plus INR (fun _ => M + 1) p_infty (M + 1) _ is_lim_seq_INR (is_lim_seq_const (M + 1)) _); reflexivity).
  destruct (C93_kepler_limit HX HR (fun _ => a) pn (fun _ => e) (fun _ => x) _ _ _ _ e He LP (is_lim_seq_const e) (fun _ => proj1 Ha) (fun n => fr_eq (pn n) (PS n))) as (L1 & L2 & _).
  assert (LR : is_lim_seq (fun n => f1 (pn n) / f2 (pn n)) 1).
  { apply (is_lim_seq_ext (fun n => (f1 (pn n) / sqrt (pn n)) / (f2 (pn n) / sqrt (pn n)))).
    - intros n. pose proof (fr_pos (pn n) (PS n)). assert (0 < sqrt (pn n)) by (apply sqrt_lt_R0; specialize (P0 n); lra). field. split; lra.
    - replace (Finite 1) with (Finite (1 / 1)) by (f_equal; field). apply is_lim_seq_div'; [exact L1 | exact L2 | lra]. }
  destruct (eventually_close _ _ (1 - y) LR ltac:(lra)) as (N & K). specialize (K N (le_n N)). apply Rabs_def2 in K. specialize (P0 N).
  exists (pn N). split; [apply PS|]. lra.
Qed.

(** ** C111: every resonance exists *)
Theorem C111_every_resonance_exists rho : 1 < rho ->
  exists p ur uth uph gam, s < p /\ mino_frequencies (Some a) (Some p) (Some e) (Some x) = Ret (Some ur, Some uth, Some uph, Some gam) /\ uth = rho * ur.
Proof.
  intros Hr. assert (Y : 0 < / rho < 1). { split; [apply Rinv_0_lt_compat; lra|]. rewrite <- Rinv_1. apply Rinv_lt_contravar; lra. }
  destruct (ratio_small (/ rho) (proj1 Y)) as (p1 & S1 & R1). destruct (ratio_large (/ rho) p1 (proj2 Y)) as (p2 & S2 & P12 & R2).
  set (c := fun q => (p1 + q + Rabs (q - p1)) / 2).
  assert (C1 : forall q, p1 <= c q). { intros q. unfold c. pose proof (Rle_abs (- (q - p1))). rewrite Rabs_Ropp in H. lra. }
  assert (C2 : forall q, p1 <= q -> c q = q). { intros q H. unfold c. rewrite Rabs_pos_eq by lra. field. }
  assert (CS : forall q, s < c q) by (intros q; specialize (C1 q); lra).
  assert (CC : forall q, continuity_pt (fun q => f1 (c q) / f2 (c q)) q).
  { intros q. apply seq_continuity. intros qn Ln.
    assert (Lc : is_lim_seq (fun n => c (qn n)) (c q)).
    { unfold c. apply is_lim_seq_div'; [|apply is_lim_seq_const|lra]. apply is_lim_seq_plus'.
      - apply is_lim_seq_plus'; [apply is_lim_seq_const | exact Ln].
      - apply (is_lim_seq_abs (fun n => qn n - p1) (Finite (q - p1))). apply is_lim_seq_minus'; [exact Ln | apply is_lim_seq_const]. }
    destruct (C86_frequencies_continuous HX HR (fun _ => a) (fun n => c (qn n)) (fun _ => e) (fun _ => x) _ _ _ _ a (c q) e x _ _ _ _
      (is_lim_seq_const a) Lc (is_lim_seq_const e) (is_lim_seq_const x) (or_intror (fun _ => proj1 Ha)) (fun n => fr_eq (c (qn n)) (CS (qn n))) (fr_eq (c q) (CS q))) as (L1 & L2 & _).
    pose proof (fr_pos (c q) (CS q)). apply is_lim_seq_div'; [exact L1 | exact L2 | lra]. }
  destruct (IVT_gen (fun q => f1 (c q) / f2 (c q)) p1 p2 (/ rho) CC) as (q & Bq & Eq).
  { rewrite !C2 by lra. rewrite Rmin_left, Rmax_right by lra. lra. }
  rewrite Rmin_left, Rmax_right in Bq by lra. rewrite C2 in Eq by lra. assert (SQ : s < q) by lra.
  exists q, (f1 q), (f2 q), (f3 q), (f4 q). split; [exact SQ|]. split; [apply fr_eq; exact SQ|]. pose proof (fr_pos q SQ).
  assert (f1 q = / rho * f2 q) by (rewrite <- Eq; field; lra). rewrite H0. field. lra.
Qed.

(** orbits that are periodic in r and theta, with any prescribed numbers k > j of polar and radial turns *)
Theorem C111_periodic_orbits_exist (j k : Z) : (0 < j < k)%Z ->
  exists p T gam uph, s < p /\ 0 < T /\ forall qt qr qth qph, exists t r theta phi,
  runs_as (stable_trajectory (Some a) (Some p) (Some e) (Some x) (Some qt, Some qr, Some qth, Some qph) None "natural" "natural") t r theta phi /\
  forall l, r (l + T) = r l /\ theta (l + T) = theta l /\ t (l + T) = t l + gam * T /\ phi (l + T) = phi l + uph * T.
Proof.
  intros (J & JK). assert (J' : 0 < IZR j) by (apply IZR_lt in J; exact J). assert (JK' : IZR j < IZR k) by (apply IZR_lt; exact JK).
  destruct (C111_every_resonance_exists (IZR k / IZR j)) as (p & ur & uth & uph & gam & Sp & HF & U). { apply (proj1 (Rlt_div_r 1 (IZR k) (IZR j) J')). lra. }
  destruct (C77_periapsis_advances HX HR _ _ _ _ _ _ _ _ HF) as ((U0 & _) & _). pose proof PI_RGT_0 as PI0.
  exists p, (IZR j * (2 * PI) / ur), gam, uph. split; [exact Sp|]. split; [apply Rdiv_lt_0_compat; [apply Rmult_lt_0_compat; lra | exact U0]|].
  intros qt qr qth qph. destruct (trajectory_defined HX HR a p e x ur uth uph gam (proj1 Ha) HF qt qr qth qph) as (t & r & theta & phi & H).
  exists t, r, theta, phi. split; [exact H|].
  apply (C96_resonant_orbits_close HX HR a p e x ur uth uph gam (proj1 Ha) HF _ _ _ _ _ _ _ _ H _ j k).
  - apply Rdiv_lt_0_compat; [apply Rmult_lt_0_compat; lra | exact U0].
  - field. lra.
  - rewrite U. field. split; lra.
Qed.
End Fixed.

(** in Schwarzschild the orbit closes in space: phi advances by k whole turns *)
Theorem C111_schwarzschild_closed_orbits e x (j k : Z) : 0 <= e < 1 -> -1 <= x <= 1 -> x <> 0 -> (0 < j < k)%Z ->
  exists p T gam, 6 + 2 * e < p /\ 0 < T /\ forall qt qr qth qph, exists t r theta phi,
  runs_as (stable_trajectory (Some 0) (Some p) (Some e) (Some x) (Some qt, Some qr, Some qth, Some qph) None "natural" "natural") t r theta phi /\
  forall l, r (l + T) = r l /\ theta (l + T) = theta l /\ t (l + T) = t l + gam * T /\
    phi (l + T) = phi l + (if Rlt_dec 0 x then 1 else -1) * (IZR k * (2 * PI)).
Proof.
  intros He Hx X0 (J & JK). assert (J' : 0 < IZR j) by (apply IZR_lt in J; exact J). assert (JK' : IZR j < IZR k) by (apply IZR_lt; exact JK).
  pose proof (proj1 (C18_schwarzschild_separatrix e x 0 ltac:(lra) ltac:(lra))) as Hs.
  destruct (C111_every_resonance_exists 0 e x (6 + 2 * e) ltac:(lra) He Hx X0 (or_introl eq_refl) Hs (IZR k / IZR j)) as (p & ur & uth & uph & gam & Sp & HF & U). { apply (proj1 (Rlt_div_r 1 (IZR k) (IZR j) J')). lra. }
  destruct (C77_periapsis_advances HX HR _ _ _ _ _ _ _ _ HF) as ((U0 & _) & _). pose proof PI_RGT_0 as PI0.
  destruct (C70_schwarzschild_frequencies HX HR _ _ _ _ _ _ _ HF) as (_ & _ & _ & _ & P1 & P2 & _).
  assert (T0 : 0 < IZR j * (2 * PI) / ur) by (apply Rdiv_lt_0_compat; [apply Rmult_lt_0_compat; lra | exact U0]).
  exists p, (IZR j * (2 * PI) / ur), gam. split; [exact Sp|]. split; [exact T0|].
  intros qt qr qth qph. destruct (trajectory_defined HX HR 0 p e x ur uth uph gam (Rle_refl 0) HF qt qr qth qph) as (t & r & theta & phi & H).
  exists t, r, theta, phi. split; [exact H|]. intros l.
  destruct (C96_resonant_orbits_close HX HR 0 p e x ur uth uph gam (Rle_refl 0) HF _ _ _ _ _ _ _ _ H _ j k T0 ltac:(field; lra) ltac:(rewrite U; field; split; lra) l) as (A1 & A2 & A3 & A4).
  refine (conj A1 (conj A2 (conj A3 _))). rewrite A4. f_equal. destruct (Rlt_dec 0 x) as [K|K].
  - rewrite (P1 K), U. field. split; lra.
  - rewrite (P2 ltac:(lra)), U. field. split; lra.
Qed.

(** concrete case: a = 1/2, retrograde, the 3:2 resonance; and a closed Schwarzschild orbit *)
Example C111_case : (exists s p ur uth uph gam, separatrix (Some (1/2)) (Some (1/3)) (Some (-1/2)) = Ret (Some s) /\ s < p /\
    mino_frequencies (Some (1/2)) (Some p) (Some (1/3)) (Some (-1/2)) = Ret (Some ur, Some uth, Some uph, Some gam) /\ uth = 3/2 * ur) /\
  exists p T gam, 6 + 2 * (1/3) < p /\ 0 < T /\ forall qt qr qth qph, exists t r theta phi,
  runs_as (stable_trajectory (Some 0) (Some p) (Some (1/3)) (Some 1) (Some qt, Some qr, Some qth, Some qph) None "natural" "natural") t r theta phi /\
  forall l, r (l + T) = r l /\ theta (l + T) = theta l /\ t (l + T) = t l + gam * T /\ phi (l + T) = phi l + (if Rlt_dec 0 1 then 1 else -1) * (IZR 3 * (2 * PI)).
Proof.
  split.
  - destruct (C19_separatrix_total HR (1/2) (1/3) (-1/2) ltac:(lra) ltac:(lra) ltac:(lra)) as (s & Hs & _).
    destruct (C111_every_resonance_exists (1/2) (1/3) (-1/2) s ltac:(lra) ltac:(lra) ltac:(lra) ltac:(lra) ltac:(right; lra) Hs (3/2) ltac:(lra)) as (p & ur & uth & uph & gam & K).
    exists s, p, ur, uth, uph, gam. exact (conj Hs K).
  - apply (C111_schwarzschild_closed_orbits (1/3) 1 2 3); try lra. lia.
Qed.
End S.

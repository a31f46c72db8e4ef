(** * C68: stable trajectories have the symmetries of Kerr spacetime *)
From Coq Require Import Reals Lra Lia ZArith String List.
From Coquelicot Require Import Coquelicot.
From Verif Require Import Num Outcome External Checked ExternalSpec.
From Verif Require Import Model_Constants Model_Frequencies Model_Stable Model_Orbit.
From Verif Require Import Spec SpecElliptic Elliptic P_Validation Props_Validation P_Bounds P_Constants Props_Constants.
From Verif Require Import P_Radial P_Polar P_Traj P_Traj2 P_Traj3 P_Traj4 Props_Trajectory Props_Trajectory2 P_Phases Props_Restart.
Import ListNotations.
Open Scope R_scope.

(** two functions with the same derivative and the same value at 0 *)
Lemma same_ode (f g h : R -> R) : (forall l, is_derive f l (h l)) -> (forall l, is_derive g l (h l)) -> f 0 = g 0 ->
  forall l, f l = g l.
Proof.
  intros Df Dg H0.
  assert (D : forall l, is_derive (fun l => f l - g l) l 0).
  { intros l. replace 0 with (h l - h l) by ring. apply @is_derive_minus; auto. }
  intros l. destruct (Rtotal_order 0 l) as [H|[H|H]].
  - pose proof (eq_is_derive (fun l => f l - g l) 0 l ltac:(intros; apply D) H) as Z. cbv beta in Z. unfold zero in *; simpl in *; lra.
  - subst l. exact H0.
  - pose proof (eq_is_derive (fun l => f l - g l) l 0 ltac:(intros; apply D) H) as Z. cbv beta in Z. unfold zero in *; simpl in *; lra.
Qed.

Section A.
Context {X : External R} (HX : special_spec X).
Lemma amX_odd m u : 0 <= m < 1 -> amX m (- u) = - amX m u.
Proof. intros Hm. apply (amX_unique HX m); [exact Hm|]. rewrite ellF_odd by lra. now rewrite (proj1 (amX_spec HX m u Hm)). Qed.

Context (a p e x ur uth uph gam E L Q r1 r2 r3 r4 : R) (zp : option R) (beta a2s : R).
Context (F : orbit_facts a p e x ur uth uph gam E L Q r1 r2 r3 r4 zp beta a2s).
Lemma fr_even q : fr r1 r2 r3 r4 (- q) = fr r1 r2 r3 r4 q.
Proof.
  destruct F. unfold fr, rho, sn2, psi_r. f_equal.
  replace (ellK (kr2 r1 r2 r3 r4) / PI * - q + 0) with (- (ellK (kr2 r1 r2 r3 r4) / PI * q + 0)) by ring.
  rewrite amX_odd by assumption. rewrite sin_neg. ring.
Qed.
Lemma fth_even q : fth a x E beta (- q) = fth a x E beta q.
Proof.
  destruct F. unfold fth, th, cth, psi_t. do 2 f_equal. set (m := kt2 _ _ _) in *.
  replace (2 * ellK m / PI * - q + ellK m) with (- (2 * ellK m / PI * q + ellK m) + IZR 1 * (2 * ellK m)) by (simpl; ring).
  rewrite (amX_shift HX) by assumption. rewrite amX_odd by assumption. rewrite Rmult_1_l, Rplus_comm. apply sin_PI_x.
Qed.
Lemma fth_half q : fth a x E beta (q + PI) = PI - fth a x E beta q.
Proof.
  destruct F. unfold fth, th, cth.
  replace (q + PI) with (q + IZR 1 * PI) by ring.
  rewrite (psi_t_shift HX a E (1 - x^2) beta of_kt). rewrite Rmult_1_l, neg_sin.
  replace (sqrt (1 - x^2) * - sin (psi_t a E (1 - x^2) beta q)) with (- (sqrt (1 - x^2) * sin (psi_t a E (1 - x^2) beta q))) by ring.
  apply acos_opp.
Qed.
End A.

Section S.
Context {X : External R} (HX : special_spec X) (HR : root_spec X).
Context (a p e x ur uth uph gam : R) (Ha : 0 <= a)
  (HF : mino_frequencies (Some a) (Some p) (Some e) (Some x) = Ret (Some ur, Some uth, Some uph, Some gam)).
Local Notation run qt qr qth qph :=
  (stable_trajectory (Some a) (Some p) (Some e) (Some x) (Some qt, Some qr, Some qth, Some qph) None "natural" "natural").

(** what singles out the trajectory with given initial phases *)
Lemma by_ode E L Q r1 r2 r3 r4 zp beta a2s (F : orbit_facts a p e x ur uth uph gam E L Q r1 r2 r3 r4 zp beta a2s)
  qt qr qth qph (T1 T2 T3 T4 : R -> R) :
  (forall l, T2 l = fr r1 r2 r3 r4 (ur * l + qr)) -> (forall l, T3 l = fth a x E beta (uth * l + qth)) ->
  (forall l, is_derive T1 l (dt_dlambda a E L (T2 l) (T3 l))) -> (forall l, is_derive T4 l (dphi_dlambda a E L (T2 l) (T3 l))) ->
  T1 0 = qt -> T4 0 = qph -> runs_as (run qt qr qth qph) T1 T2 T3 T4.
Proof.
  intros HR2 HR3 D1 D4 Z1 Z4.
  destruct (trajectory_runs HX _ _ _ _ _ _ _ _ _ _ _ _ _ _ _ _ _ _ F qt qr qth qph HF) as (U1 & U2 & U3 & U4 & Eq & V).
  exists U1, U2, U3, U4. split; [exact Eq|]. intros l. destruct (V l) as (-> & -> & -> & ->).
  refine (conj _ (conj _ (conj _ _))).
  - do 2 f_equal. revert l. apply (same_ode _ _ (fun l => dt_dlambda a E L (T2 l) (T3 l))); [|exact D1|].
    + intros l. rewrite HR2, HR3. apply (st_derive HX _ _ _ _ _ _ _ _ _ _ _ _ _ _ _ _ _ _ F).
    + unfold st. rewrite Z1, !Rmult_0_r, !Rplus_0_l. ring.
  - rewrite HR2. reflexivity.
  - rewrite HR3. reflexivity.
  - do 2 f_equal. revert l. apply (same_ode _ _ (fun l => dphi_dlambda a E L (T2 l) (T3 l))); [|exact D4|].
    + intros l. rewrite HR2, HR3. apply (sph_derive HX _ _ _ _ _ _ _ _ _ _ _ _ _ _ _ _ _ _ F).
    + unfold sph. rewrite Z4, !Rmult_0_r, !Rplus_0_l. ring.
Qed.

Ltac start H :=
  let F := fresh "F" in let Eq := fresh "Eq" in
  destruct (mino_facts HX HR a p e x ur uth uph gam Ha HF) as (E & L & Q & r1 & r2 & r3 & r4 & zp & beta & a2s & F);
  match type of H with runs_as (run ?qt ?qr ?qth ?qph) ?t ?r ?th ?ph =>
    pose proof (runs_as_unique _ _ _ _ _ _ _ _ _ H (trajectory_runs HX _ _ _ _ _ _ _ _ _ _ _ _ _ _ _ _ _ _ F qt qr qth qph HF)) as Eq;
    pose proof (C29_time_and_azimuth_equations HX HR a p e x ur uth uph gam Ha HF qt qr qth qph t r th ph H E L Q
      (of_constants _ _ _ _ _ _ _ _ _ _ _ _ _ _ _ _ _ _ F)) as D;
    assert (I1 : t 0 = qt) by (rewrite (proj1 (Eq 0)); unfold st; rewrite !Rmult_0_r, !Rplus_0_l; ring);
    assert (I2 : ph 0 = qph) by (rewrite (proj2 (proj2 (proj2 (Eq 0)))); unfold sph; rewrite !Rmult_0_r, !Rplus_0_l; ring);
    assert (ER : forall l, r l = fr r1 r2 r3 r4 (ur * l + qr)) by (intros l; exact (proj1 (proj2 (Eq l))));
    assert (ET : forall l, th l = fth a x E beta (uth * l + qth)) by (intros l; exact (proj1 (proj2 (proj2 (Eq l)))));
    assert (DT : forall l, is_derive t l (dt_dlambda a E L (r l) (th l))) by (intros l; apply (D l));
    assert (DP : forall l, is_derive ph l (dphi_dlambda a E L (r l) (th l))) by (intros l; apply (D l));
    clear Eq D; eapply (by_ode _ _ _ _ _ _ _ _ _ _ F)
  end.

Lemma derive_add (f : R -> R) (l d c : R) : is_derive f l d -> is_derive (fun s => f s + c) l d.
Proof. intros D. auto_derive; [eexists; exact D|]. rewrite (is_derive_unique (fun s : R => f s) _ _ D). ring. Qed.
Lemma derive_rev (f : R -> R) (l d : R) : is_derive f (- l) d -> is_derive (fun s => - f (- s)) l d.
Proof. intros D. auto_derive; [eexists; exact D|]. rewrite (is_derive_unique (fun s : R => f s) _ _ D). ring. Qed.
Lemma derive_shift (f : R -> R) (l s d : R) : is_derive f (l + s) d -> is_derive (fun u => f (u + s)) l d.
Proof. intros D. auto_derive; [eexists; exact D|]. rewrite (is_derive_unique (fun s : R => f s) _ _ D). ring. Qed.

(** shifting the initial time and the initial azimuth shifts t and phi and changes nothing else *)
Theorem C68_stationary_and_axisymmetric qt qr qth qph t r theta phi : runs_as (run qt qr qth qph) t r theta phi ->
  forall dt dph, runs_as (run (qt + dt) qr qth (qph + dph))
    (fun l => t l + dt) r theta (fun l => phi l + dph).
Proof.
  intros H dt dph. start H; auto.
  - intros l. apply derive_add, DT.
  - intros l. apply derive_add, DP.
  - now rewrite I1.
  - now rewrite I2.
Qed.
(** reversing all phases reverses the direction of time: r and theta are traversed backwards,
    t and phi change sign *)
Theorem C68_time_reversal qt qr qth qph t r theta phi : runs_as (run qt qr qth qph) t r theta phi ->
  runs_as (run (- qt) (- qr) (- qth) (- qph))
    (fun l => - t (- l)) (fun l => r (- l)) (fun l => theta (- l)) (fun l => - phi (- l)).
Proof.
  intros H. start H; cbv beta.
  - intros l. rewrite ER, <- (fr_even HX _ _ _ _ _ _ _ _ _ _ _ _ _ _ _ _ _ _ F). f_equal. ring.
  - intros l. rewrite ET, <- (fth_even HX _ _ _ _ _ _ _ _ _ _ _ _ _ _ _ _ _ _ F). f_equal. ring.
  - intros l. apply derive_rev, DT.
  - intros l. apply derive_rev, DP.
  - now rewrite Ropp_0, I1.
  - now rewrite Ropp_0, I2.
Qed.
(** shifting the polar phase by half a period reflects the orbit in the equatorial plane *)
Theorem C68_equatorial_reflection qt qr qth qph t r theta phi : runs_as (run qt qr qth qph) t r theta phi ->
  runs_as (run qt qr (qth + PI) qph) t r (fun l => PI - theta l) phi.
Proof.
  intros H. start H; auto; cbv beta.
  - intros l. rewrite ET, <- (fth_half HX _ _ _ _ _ _ _ _ _ _ _ _ _ _ _ _ _ _ F). f_equal. ring.
  - intros l. unfold dt_dlambda. rewrite sin_PI_x. apply DT.
  - intros l. unfold dphi_dlambda. rewrite sin_PI_x. apply DP.
Qed.
(** starting later on the same orbit: phases advanced by s times the Mino frequencies *)
Theorem C68_flow qt qr qth qph t r theta phi : runs_as (run qt qr qth qph) t r theta phi ->
  forall s, runs_as (run (t s) (qr + ur * s) (qth + uth * s) (phi s))
    (fun l => t (l + s)) (fun l => r (l + s)) (fun l => theta (l + s)) (fun l => phi (l + s)).
Proof.
  intros H s. start H; cbv beta.
  - intros l. rewrite ER. f_equal. ring.
  - intros l. rewrite ET. f_equal. ring.
  - intros l. apply (derive_shift t), DT.
  - intros l. apply (derive_shift phi), DP.
  - now rewrite Rplus_0_l.
  - now rewrite Rplus_0_l.
Qed.
(** whole turns of the phases change nothing *)
Theorem C68_whole_turns qt qr qth qph t r theta phi : runs_as (run qt qr qth qph) t r theta phi ->
  forall j k : Z, runs_as (run qt (qr + IZR j * (2 * PI)) (qth + IZR k * (2 * PI)) qph) t r theta phi.
Proof.
  intros H j k. start H; auto.
  - intros l. rewrite ER. unfold fr. destruct F. rewrite <- Rplus_assoc. symmetry. now apply rho_shift.
  - intros l. rewrite ET. unfold fth. destruct F. rewrite <- Rplus_assoc. symmetry. now apply th_shift.
Qed.
End S.

(** concrete case: an inclined eccentric orbit has trajectories for all phases *)
Example C68_case {X : External R} (HX : special_spec X) (HR : root_spec X) : exists ur uth uph gam,
  mino_frequencies (Some (1/2)) (Some 20) (Some (1/2)) (Some (-1/2)) = Ret (Some ur, Some uth, Some uph, Some gam) /\
  forall qt qr qth qph, exists t r theta phi,
  runs_as (stable_trajectory (Some (1/2)) (Some 20) (Some (1/2)) (Some (-1/2)) (Some qt, Some qr, Some qth, Some qph) None "natural" "natural")
    t r theta phi.
Proof.
  destruct (far_retrograde HX HR (1/2) 20 (1/2) (-1/2)) as (E & L & Q & ur & uth & uph & gam & _ & HF); try lra.
  exists ur, uth, uph, gam. split; [exact HF|]. intros. apply (trajectory_defined HX HR (1/2) 20 (1/2) (-1/2) ur uth uph gam ltac:(lra) HF).
Qed.
Print Assumptions C68_flow.

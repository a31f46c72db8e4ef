(** * Properties of the orbit classes: C06, C24, C38, C42, C44-C49 *)
From Coq Require Import Reals Lra Lia ZArith String List FunctionalExtensionality.
From Coquelicot Require Import Coquelicot.
From Verif Require Import Num Outcome External Checked ExternalSpec Spec Model_Units Model_Constants
  Model_Frequencies Model_Spacetime Model_InitialConditions Model_Stable Model_Plunge Model_Orbit
  P_Validation SepPoly Props_Separatrix P_Spacetime.
Import ListNotations.
Open Scope R_scope.

(** ** C06 *)

(** an outcome that is not one of the two "bad initial velocity" errors *)
Definition no_norm_error {A} (o : outcome A) : Prop :=
  o <> Raise (ValueError msg_not_timelike) /\ o <> Raise (ValueError msg_not_normalized).

Section C06.
Context {X : External R} (HX : root_spec X).

Lemma nne_ret {A} (x : A) : no_norm_error (Ret x).
Proof. split; discriminate. Qed.
Lemma nne_undef {A} : no_norm_error (@Undef A).
Proof. split; discriminate. Qed.
Lemma nne_bind {A B} (m : outcome A) (k : A -> outcome B) :
  no_norm_error m -> (forall x, m = Ret x -> no_norm_error (k x)) -> no_norm_error (bind m k).
Proof.
  intros [H1 H2] H. destruct m as [x|er|]; cbn [bind].
  - now apply H.
  - split; intros E; injection E; intros ->; [now apply H1 | now apply H2].
  - apply nne_undef.
Qed.
Lemma nne_ifo {A} c (t e : outcome A) :
  no_norm_error t -> no_norm_error e -> no_norm_error (ifo c t e).
Proof. intros H1 H2. destruct c as [[]|]; cbn [ifo]; auto using nne_undef. Qed.
Lemma nne_default {A} (o : option A) d : no_norm_error d -> no_norm_error (default o d).
Proof. intros H. destruct o; cbn [default]; auto using nne_ret. Qed.

Ltac nne :=
  repeat match goal with
  | |- no_norm_error (Ret _) => apply nne_ret
  | |- no_norm_error Undef => apply nne_undef
  | |- no_norm_error (Raise _) => split; discriminate
  | |- no_norm_error (ifo _ _ _) => apply nne_ifo
  | |- no_norm_error (default _ _) => apply nne_default
  | |- no_norm_error (bind _ _) => apply nne_bind; [|intros]
  | |- no_norm_error (let '(_, _) := ?p in _) => destruct p
  | |- no_norm_error (match ?x with _ => _ end) => destruct x
  | _ => assumption || (cbv zeta; progress idtac)
  end.

Lemma separatrix_none (a e x : option R) :
  a = None \/ e = None \/ x = None -> no_norm_error (separatrix a e x).
Proof.
  intros H. unfold separatrix.
  destruct a as [a|]; [|apply nne_undef].
  destruct e as [e|], x as [x|];
    try (destruct H as [H|[H|H]]; discriminate);
    cnum; apply nne_ifo; try (split; discriminate); apply nne_undef.
Qed.
Lemma separatrix_nne (a e x : option R) : no_norm_error (separatrix a e x).
Proof.
  destruct a as [a|]; [|apply separatrix_none; auto].
  destruct e as [e|]; [|apply separatrix_none; auto].
  destruct x as [x|]; [|apply separatrix_none; auto].
  destruct (in_range_dec a e x) as [K|K].
  - destruct (Req_dec a 1) as [->|Ha].
    + rewrite C19_separatrix_rejects by lra. split; destruct (Req_EM_T 1 1); discriminate.
    + destruct K as [K1 [K2 K3]].
      destruct (C19_separatrix_total HX a e x) as [p [-> _]]; try lra. apply nne_ret.
  - rewrite C19_separatrix_rejects by (unfold in_range in K; lra).
    split; destruct (Req_EM_T a 1); discriminate.
Qed.
Lemma is_stable_nne (a p e x : option R) : no_norm_error (is_stable a p e x).
Proof. unfold is_stable. apply nne_bind; [apply separatrix_nne | intros; nne]. Qed.
Lemma check_constants_nne (a p e x : option R) : no_norm_error (check_constants_params a p e x).
Proof. pose proof (is_stable_nne a p e x). unfold check_constants_params. nne. Qed.
Lemma check_frequency_nne (a p e x : option R) : no_norm_error (check_frequency_params a p e x).
Proof. pose proof (is_stable_nne a p e x). unfold check_frequency_params. nne. Qed.
Lemma energy_nne (a p e x : option R) : no_norm_error (energy a p e x).
Proof.
  unfold energy. destruct (standardize_params a x) as [a' x'].
  pose proof (check_constants_nne a' p e x'). nne.
Qed.
Lemma angular_momentum_nne (a p e x : option R) E : no_norm_error (angular_momentum a p e x E).
Proof.
  unfold angular_momentum. destruct (standardize_params a x) as [a' x'].
  pose proof (check_constants_nne a' p e x'). pose proof (energy_nne a' p e x'). nne.
Qed.
Lemma carter_nne (a p e x : option R) E L : no_norm_error (carter_constant a p e x E L).
Proof.
  unfold carter_constant. destruct (standardize_params a x) as [a' x'].
  pose proof (check_constants_nne a' p e x'). pose proof (energy_nne a' p e x').
  pose proof (fun E => angular_momentum_nne a' p e x' E) as HL. nne. apply HL.
Qed.
Lemma constants_nne (a p e x : option R) : no_norm_error (constants_of_motion a p e x).
Proof.
  unfold constants_of_motion. pose proof (energy_nne a p e x).
  pose proof (fun E => angular_momentum_nne a p e x E) as HL.
  pose proof (fun E L => carter_nne a p e x E L) as HC. nne; [apply HL | apply HC].
Qed.
Lemma radial_roots_nne (a p e x : option R) c : no_norm_error (stable_radial_roots a p e x c).
Proof. pose proof (constants_nne a p e x). unfold stable_radial_roots. nne. Qed.
Lemma polar_roots_nne (a p e x : option R) c : no_norm_error (stable_polar_roots a p e x c).
Proof. pose proof (constants_nne a p e x). unfold stable_polar_roots. nne. Qed.
Lemma r_frequency_nne (a p e x : option R) c : no_norm_error (r_frequency a p e x c).
Proof.
  unfold r_frequency. destruct (standardize_params a x) as [a' x'].
  pose proof (check_frequency_nne a' p e x'). pose proof (constants_nne a' p e x').
  pose proof (fun c => radial_roots_nne a' p e x' c) as H1. nne. apply H1.
Qed.
Lemma theta_frequency_nne (a p e x : option R) c : no_norm_error (theta_frequency a p e x c).
Proof.
  unfold theta_frequency. destruct (standardize_params a x) as [a' x'].
  pose proof (check_frequency_nne a' p e x'). pose proof (constants_nne a' p e x').
  pose proof (fun c => polar_roots_nne a' p e x' c) as H1. nne. apply H1.
Qed.
Lemma phi_frequency_nne (a p e x : option R) c u v : no_norm_error (phi_frequency a p e x c u v).
Proof.
  unfold phi_frequency. destruct (standardize_params a x) as [a' x'].
  pose proof (check_frequency_nne a' p e x'). pose proof (constants_nne a' p e x').
  pose proof (fun c => polar_roots_nne a' p e x' c) as H1.
  pose proof (fun c => radial_roots_nne a' p e x' c) as H2.
  pose proof (fun c => r_frequency_nne a' p e x' c) as H3.
  pose proof (fun c => theta_frequency_nne a' p e x' c) as H4.
  nne; auto.
Qed.
Lemma gamma_nne (a p e x : option R) c u v : no_norm_error (gamma a p e x c u v).
Proof.
  unfold gamma. destruct (standardize_params a x) as [a' x'].
  pose proof (check_frequency_nne a' p e x'). pose proof (constants_nne a' p e x').
  pose proof (fun c => polar_roots_nne a' p e x' c) as H1.
  pose proof (fun c => radial_roots_nne a' p e x' c) as H2.
  pose proof (fun c => r_frequency_nne a' p e x' c) as H3.
  pose proof (fun c => theta_frequency_nne a' p e x' c) as H4.
  nne; auto.
Qed.
Lemma mino_nne (a p e x : option R) : no_norm_error (mino_frequencies a p e x).
Proof.
  unfold mino_frequencies. pose proof (constants_nne a p e x).
  nne; auto using r_frequency_nne, theta_frequency_nne, phi_frequency_nne, gamma_nne.
Qed.
Lemma fundamental_nne (a p e x : option R) : no_norm_error (fundamental_frequencies a p e x).
Proof.
  unfold fundamental_frequencies. pose proof (constants_nne a p e x).
  nne; auto using r_frequency_nne, theta_frequency_nne, phi_frequency_nne, gamma_nne.
Qed.
Lemma solve2_nne (a b c d e f : option R) : no_norm_error (solve2 a b c d e f).
Proof. unfold solve2. cbv zeta. nne. Qed.
Lemma cfic_nne (a : option R) p v : no_norm_error (constants_from_initial_conditions a p v).
Proof.
  unfold constants_from_initial_conditions.
  destruct p as [[[t0 r0] th0] ph0], v as [[[dt0 dr0] dth0] dph0]. cbv zeta.
  apply nne_bind; [apply solve2_nne|]. intros [E L] _. apply nne_ret.
Qed.
Lemma real_of_roots_nne (rs : list (option R * option R)) : no_norm_error (real_of_roots rs).
Proof. unfold real_of_roots. destruct (split_roots rs) as [[xs [|]]|]; auto using nne_ret, nne_undef. Qed.
Lemma unpack4_nne (l : list (option R)) : no_norm_error (unpack4 l).
Proof. unfold unpack4. nne. Qed.
Lemma unpack2_nne (l : list (option R)) : no_norm_error (unpack2 l).
Proof. unfold unpack2. nne. Qed.
Lemma polar_roots_of_nne (a E L Q : option R) : no_norm_error (polar_roots_of a E L Q).
Proof.
  unfold polar_roots_of. apply nne_bind; [apply real_of_roots_nne|]. intros zs _.
  apply nne_ifo; [nne | apply unpack2_nne].
Qed.
Lemma apex_nne (a E L Q : option R) : no_norm_error (apex_from_constants a E L Q).
Proof.
  unfold apex_from_constants. apply nne_bind; [apply real_of_roots_nne|]. intros zs _.
  apply nne_bind; [apply unpack4_nne|]. intros [[[r4 r3] r2] r1] _.
  apply nne_bind; [apply polar_roots_of_nne|]. intros [zm zp] _. apply nne_ret.
Qed.
Lemma ic_is_stable_nne (a : option R) p v c tol : no_norm_error (ic_is_stable a p v c tol).
Proof.
  unfold ic_is_stable. destruct p as [[[t0 r0] th0] ph0].
  apply nne_bind; [apply nne_default, cfic_nne|]. intros [[E L] Q] _.
  destruct (split_roots _) as [[rr cr]|]; [|apply nne_undef]. cbv zeta.
  destruct (Nat.eqb (List.length cr) 4); [nne|]. destruct (Nat.eqb (List.length cr) 2); [nne|].
  apply nne_bind; [apply unpack4_nne|]. intros [[[r4 r3] r2] r1] _. nne.
Qed.
Lemma prr_nne (a E L Q : option R) : no_norm_error (plunging_radial_roots a E L Q).
Proof.
  unfold plunging_radial_roots. destruct (split_roots _) as [[rr cr]|]; [|apply nne_undef].
  cbv zeta. nne.
Qed.
Lemma theta_fc_nne (a : option R) c rr zz : no_norm_error (theta_frequency_from_constants a c rr zz).
Proof.
  unfold theta_frequency_from_constants. destruct rr as [[[r1 r2] r3] r4], c as [[E L] Q].
  cbv zeta. nne.
Qed.
Lemma phi_fc_nne (a : option R) c rr zz u v : no_norm_error (phi_frequency_from_constants a c rr zz u v).
Proof.
  unfold phi_frequency_from_constants. pose proof (theta_fc_nne a c rr zz).
  destruct c as [[E L] Q], rr as [[[r1 r2] r3] r4]. cbv zeta. nne.
Qed.
Lemma gamma_fc_nne (a : option R) c rr zz u v : no_norm_error (gamma_from_constants a c rr zz u v).
Proof.
  unfold gamma_from_constants. pose proof (theta_fc_nne a c rr zz).
  destruct c as [[E L] Q], rr as [[[r1 r2] r3] r4]. cbv zeta. nne.
Qed.
Lemma mino_fc_nne (a : option R) c rr zz : no_norm_error (mino_frequencies_from_constants a c rr zz).
Proof.
  unfold mino_frequencies_from_constants. cbv zeta.
  nne; auto using theta_fc_nne, phi_fc_nne, gamma_fc_nne.
Qed.
Lemma plunging_mino_nne (a E L Q : option R) : no_norm_error (plunging_mino_frequencies a E L Q).
Proof.
  unfold plunging_mino_frequencies. apply nne_bind; [apply prr_nne|]. intros [r1 r2 r3 r4|r1 r2 r3 r4] _.
  - apply nne_bind; [apply polar_roots_of_nne|]. intros zz _.
    apply nne_bind; [apply mino_fc_nne|]. intros [[[ur ut] up] g] _. apply nne_ret.
  - cbv zeta. apply nne_ret.
Qed.
Lemma polar_phase_nne (a b c d : option R) : no_norm_error (polar_phase a b c d).
Proof. unfold polar_phase. nne. Qed.
Lemma radial_phase_nne (a b c d e f g h : option R) : no_norm_error (radial_phase a b c d e f g h).
Proof. unfold radial_phase. cbv zeta. nne. Qed.
Lemma stable_phases_nne (a : option R) p v c rr u w tol :
  no_norm_error (stable_orbit_initial_phases a p v c rr u w tol).
Proof.
  unfold stable_orbit_initial_phases.
  destruct p as [[[t0 r0] th0] ph0], v as [[[dt0 dr0] dth0] dph0].
  apply nne_bind; [apply nne_default, cfic_nne|]. intros [[E L] Q] _.
  apply nne_bind; [apply polar_roots_of_nne|]. intros [zm zp] _.
  apply nne_bind.
  { destruct rr; [apply nne_ret|]. apply nne_bind; [apply real_of_roots_nne|]. intros rs _.
    apply nne_bind; [apply unpack4_nne|]. intros [[[r4 r3] r2] r1] _. apply nne_ret. }
  intros [rr' [[[r1 r2] r3] r4]] _.
  apply nne_bind.
  { nne. apply radial_phase_nne. }
  intros q_r0 _. cbv zeta. apply nne_bind.
  { apply nne_ifo; [nne|]. apply nne_ifo; [nne|].
    apply nne_bind; [apply nne_default, theta_fc_nne|]. intros. apply polar_phase_nne. }
  intros. apply nne_ret.
Qed.
Lemma plunging_phases_nne (a : option R) p v c rr tol :
  no_norm_error (plunging_orbit_initial_phases a p v c rr tol).
Proof.
  unfold plunging_orbit_initial_phases.
  destruct p as [[[t0 r0] th0] ph0], v as [[[dt0 dr0] dth0] dph0].
  apply nne_bind; [apply nne_default, cfic_nne|]. intros [[E L] Q] _.
  apply nne_bind; [apply nne_default, prr_nne|].
  intros [r1 r2 r3 r4|r1 r2 r3 r4] _; [apply stable_phases_nne|]. cbv zeta.
  apply nne_bind; [apply plunging_mino_nne|]. intros [ur ut] _.
  apply nne_bind; [nne|]. intros q_r0 _.
  apply nne_bind; [apply polar_phase_nne|]. intros. apply nne_ret.
Qed.

(** Orbit(a, position, velocity): [nrm] is the norm of the initial velocity. *)
Theorem C06_orbit_checks_velocity :
  forall (a t r theta phi vt vr vth vph : R) M mu,
  let position := (Some t, Some r, Some theta, Some phi) in
  let velocity := (Some vt, Some vr, Some vth, Some vph) in
  Sigma a r theta <> 0 -> Delta a r <> 0 ->
  let nrm := kerr_line_element a r theta vt vr vth vph in
  (0 <= nrm ->
     Orbit_init (Some a) position velocity M mu = Raise (ValueError msg_not_timelike)) /\
  (nrm < 0 -> Rabs (nrm + 1) > 1 / 1000000 ->
     Orbit_init (Some a) position velocity M mu = Raise (ValueError msg_not_normalized)) /\
  (nrm < 0 -> Rabs (nrm + 1) <= 1 / 1000000 ->
     no_norm_error (Orbit_init (Some a) position velocity M mu)).
Proof.
  intros a t r theta phi vt vr vth vph M mu position velocity HS HD nrm.
  subst position velocity. unfold Orbit_init.
  rewrite norm_checked by assumption. fold nrm. cbv zeta.
  change (nleb (nZ 0) (Some nrm)) with (Some (Rleb 0 nrm)).
  change (nltb (nQ 1 1000000) (nabs (Some nrm + nZ 1)%num))
    with (Some (Rltb (1 / 1000000) (Rabs (nrm + 1)))).
  split; [|split].
  - intros H. rewrite Rleb_true by assumption. reflexivity.
  - intros H1 H2. rewrite Rleb_false by assumption. rewrite Rltb_true by lra. reflexivity.
  - intros H1 H2. rewrite Rleb_false by assumption. rewrite Rltb_false by lra. cbn [ifo].
    apply nne_bind; [apply cfic_nne|]. intros [[E L] Q] _.
    apply nne_bind; [apply ic_is_stable_nne|]. intros [] _.
    + apply nne_bind; [apply apex_nne|]. intros [[[a' p] e] x] _.
      apply nne_bind; [apply mino_nne|]. intros [[[ur ut] up] g] _.
      apply nne_bind; [apply fundamental_nne|]. intros om _.
      apply nne_bind; [apply stable_phases_nne|]. intros. apply nne_ret.
    + apply nne_ifo; [nne|]. apply nne_bind; [apply plunging_mino_nne|]. intros [ur ut] _.
      apply nne_bind; [apply plunging_phases_nne|]. intros. apply nne_ret.
Qed.

(** on the horizon or the ring no orbit object is produced *)
Theorem C06_singular_points :
  forall (a t r theta phi vt vr vth vph : R) M mu,
  Sigma a r theta = 0 \/ Delta a r = 0 ->
  Orbit_init (Some a) (Some t, Some r, Some theta, Some phi) (Some vt, Some vr, Some vth, Some vph) M mu
  = Undef.
Proof.
  intros a t r theta phi vt vr vth vph M mu H. unfold Orbit_init.
  assert (E : norm (Some a) (Some t) (Some r) (Some theta) (Some phi)
                (Some vt, Some vr, Some vth, Some vph) = None).
  { unfold norm, metric, mat_vec, dot, map. cnum. unfold cdiv. unfold Sigma, Delta in H.
    destruct (Req_EM_T (r ^ 2 + a ^ 2 * cos theta ^ 2) 0); [reflexivity|].
    destruct (Req_EM_T (r ^ 2 - 2 * r + a ^ 2) 0); [reflexivity | destruct H; contradiction]. }
  rewrite E. reflexivity.
Qed.
End C06.
Print Assumptions C06_orbit_checks_velocity.

(** a particle at rest in the equatorial plane at r = 10, a = 0: the norm is
    -(1-2/10) vt^2, so vt = 1 violates the normalisation and vt = sqrt(5/4) passes *)
Example C06_example :
  kerr_line_element 0 10 (PI / 2) 1 0 0 0 = - (4 / 5) /\
  kerr_line_element 0 10 (PI / 2) 0 1 0 0 > 0 /\
  kerr_line_element 0 10 (PI / 2) (sqrt (5 / 4)) 0 0 0 = -1.
Proof.
  unfold kerr_line_element, Sigma, Delta. rewrite cos_PI2, sin_PI2.
  assert (H : sqrt (5 / 4) * sqrt (5 / 4) = 5 / 4) by (apply sqrt_sqrt; lra).
  repeat split; [field | lra |].
  replace (sqrt (5/4) - 0 * 1 ^ 2 * 0) with (sqrt (5 / 4)) by ring.
  replace (sqrt (5 / 4) ^ 2) with (5 / 4) by (simpl; lra). field_simplify. lra.
Qed.

(** ** C24 *)
Section C24.

(** exact arithmetic: t(0) = q_t0 in the requested unit, phi(0) = q_phi0 *)
Section Exact.
Context {X : External R}.
Definition starts_at (tr : (@traj R) * (@traj R) * (@traj R) * (@traj R)) (qt qphi : R)
    (M : option R) (tu : string) : Prop :=
  let '(t, r, theta, phi) := tr in
  (forall conv, time_conversion tu = Ret conv -> t 0 = Ret (conv qt M)) /\ phi 0 = Ret qphi.

Lemma assemble_starts M du tu qt qr qth qph ur ut up g rp tr pr thp tth pth :
  starts_at (assemble_trajectory M du tu (qt, qr, qth, qph) ur ut up g rp tr pr thp tth pth) qt qph M tu.
Proof.
  unfold starts_at, assemble_trajectory. split.
  - intros conv ->. cbn [bind]. rnum. do 2 f_equal.
    rewrite !Rmult_0_r, !Rplus_0_l. ring.
  - rnum. f_equal. rewrite !Rmult_0_r, !Rplus_0_l. ring.
Qed.
Theorem C24_stable_trajectory_start :
  forall a p e x qt qr qth qph M du tu tr,
  stable_trajectory a p e x (qt, qr, qth, qph) M du tu = Ret tr -> starts_at tr qt qph M tu.
Proof.
  intros a p e x qt qr qth qph M du tu tr. unfold stable_trajectory.
  destruct (check_units M du tu); cbn [bind]; try discriminate.
  destruct (mino_frequencies a p e x) as [[[[ur ut] up] g]| |]; cbn [bind]; try discriminate.
  destruct (constants_of_motion a p e x) as [c| |]; cbn [bind]; try discriminate.
  destruct (stable_radial_roots a p e x (Some c)) as [rr| |]; cbn [bind]; try discriminate.
  destruct (stable_polar_roots a p e x (Some c)) as [zz| |]; cbn [bind]; try discriminate.
  destruct (radial_solutions a c rr) as [[rp t_r] phi_r].
  destruct (polar_solutions a c [fst zz; snd zz]) as [[[thp tth] pth]| |]; cbn [bind]; try discriminate.
  intros H. injection H as <-. apply assemble_starts.
Qed.
Theorem C24_plunging_trajectory_start :
  forall a E L Q qt qr qth qph M du tu tr,
  plunging_trajectory a E L Q (qt, qr, qth, qph) M du tu = Ret tr -> starts_at tr qt qph M tu.
Proof.
  intros a E L Q qt qr qth qph M du tu tr. unfold plunging_trajectory.
  destruct (plunging_radial_roots a E L Q) as [[r1 r2 r3 r4|r1 r2 r3 r4]| |] eqn:Hr;
    cbn [bind]; try discriminate.
  - unfold real_plunge_trajectory. rewrite Hr.
    destruct (check_units M du tu); cbn [bind]; try discriminate.
    destruct (polar_roots_of a E L Q) as [zz| |]; cbn [bind]; try discriminate.
    destruct (mino_frequencies_from_constants a (E, L, Q) (r1, r2, r3, r4) zz)
      as [[[[ur ut] up] g]| |]; cbn [bind]; try discriminate.
    destruct (radial_solutions a (E, L, Q) (r1, r2, r3, r4)) as [[rp t_r] phi_r].
    destruct (polar_solutions a (E, L, Q) [fst zz; snd zz]) as [[[thp tth] pth]| |]; cbn [bind]; try discriminate.
    intros H. injection H as <-. apply assemble_starts.
  - unfold complex_plunge_trajectory.
    destruct (check_units M du tu); cbn [bind]; try discriminate.
    destruct (plunging_mino_frequencies a E L Q) as [[ur ut]| |]; cbn [bind]; try discriminate.
    destruct (plunging_radial_solutions_complex a E L Q) as [[[rp t_r] phi_r]| |]; cbn [bind]; try discriminate.
    destruct (plunging_polar_solutions a E L Q) as [[[thp tth] pth]| |]; cbn [bind]; try discriminate.
    intros H. injection H as <-. unfold starts_at. split.
    + intros conv ->. cbn [bind]. rnum. do 2 f_equal. rewrite !Rmult_0_r, !Rplus_0_l. ring.
    + rnum. f_equal. rewrite !Rmult_0_r, !Rplus_0_l. ring.
Qed.
Theorem C24_orbit_trajectory_start :
  forall o qt qr qth qph du tu tr,
  Orbit_trajectory o (Some (qt, qr, qth, qph)) du tu = Ret tr -> starts_at tr qt qph (o_M o) tu.
Proof.
  intros o qt qr qth qph du tu tr. unfold Orbit_trajectory.
  destruct (o_apex o) as [[[p e] x]|].
  - apply C24_stable_trajectory_start.
  - apply C24_plunging_trajectory_start.
Qed.
End Exact.
End C24.
Print Assumptions C24_orbit_trajectory_start.

(** ** C38 *)
Section C38.
Context {X : External R}.
Theorem C38_schwarzschild_plunges_refused :
  (forall E L Q phases M mu,
     PlungingOrbit_init (Some 0) E L Q phases M mu = Raise (ValueError msg_schw_plunge)) /\
  (forall position velocity M mu c,
     (* initial data that pass the velocity checks and are classified as a plunge *)
     let '(t0, r0, theta0, phi0) := position in
     let nrm := norm (Some 0) t0 r0 theta0 phi0 velocity in
     nleb (nZ 0) nrm = Some false ->
     nltb (nQ 1 1000000) (nabs (nrm + nZ 1)%num) = Some false ->
     constants_from_initial_conditions (Some 0) position velocity = Ret c ->
     ic_is_stable (Some 0) position velocity None default_tol = Ret false ->
     Orbit_init (Some 0) position velocity M mu = Raise (ValueError msg_schw_plunge)).
Proof.
  assert (E0 : neqb (Some 0) (nZ 0) = Some true).
  { cnum. now rewrite Reqb_true. }
  split.
  - intros E L Q phases M mu. unfold PlungingOrbit_init. rewrite E0. reflexivity.
  - intros [[[t0 r0] theta0] phi0] velocity M mu [[E L] Q]. cbv zeta. intros H1 H2 H3 H4.
    unfold Orbit_init. cbv zeta. rewrite H1, H2. cbn [ifo]. rewrite H3. cbn [bind]. rewrite H4.
    cbn [bind]. rewrite E0. reflexivity.
Qed.
End C38.
Print Assumptions C38_schwarzschild_plunges_refused.

(** ** C42 *)

(** five-point central difference quotient *)
Definition five_point (f : R -> R) (dx l : R) : R :=
  (- f (l + 2 * dx) + 8 * f (l + dx) - 8 * f (l - dx) + f (l - 2 * dx)) / (12 * dx).
(** [F], a coordinate function of a trajectory, returns the real number [f l] at l *)
Definition tracks (F : @traj (option R)) (f : R -> R) : Prop :=
  forall l, F (Some l) = Ret (Some (f l)).

Section C42.
Context {X : External R}.
Lemma stencil_value a dx (Rr Th F : @traj (option R)) r th f l :
  tracks Rr r -> tracks Th th -> tracks F f -> dx <> 0 -> Sigma a (r l) (th l) <> 0 ->
  stencil (Some a) (Some dx) Rr Th F (Some l)
  = Ret (Some (five_point f dx l / Sigma a (r l) (th l))).
Proof.
  intros H1 H2 H3 Hdx HS. unfold stencil. rewrite H1, H2. cbn [bind].
  replace (Some l + nZ 2 * Some dx)%num with (Some (l + 2 * dx)) by reflexivity.
  replace (Some l + Some dx)%num with (Some (l + dx)) by reflexivity.
  replace (Some l - Some dx)%num with (Some (l - dx)) by reflexivity.
  replace (Some l - nZ 2 * Some dx)%num with (Some (l - 2 * dx)) by reflexivity.
  rewrite !H3. cbn [bind]. cnum. unfold Sigma in *.
  rewrite cdiv_some by (apply Rmult_integral_contrapositive_currified; [lra | assumption]).
  unfold five_point. do 2 f_equal. field. repeat split; (exact HS || exact Hdx || nz).
Qed.

Lemma five_point_quartic c0 c1 c2 c3 c4 dx l : dx <> 0 ->
  five_point (fun s => c0 + c1 * s + c2 * s ^ 2 + c3 * s ^ 3 + c4 * s ^ 4) dx l
  = c1 + 2 * c2 * l + 3 * c3 * l ^ 2 + 4 * c4 * l ^ 3.
Proof. intros H. unfold five_point. field. assumption. Qed.

Lemma five_point_limit f l d : derivable_pt_lim f l d ->
  forall eps, 0 < eps -> exists delta, 0 < delta /\
  forall dx, dx <> 0 -> Rabs dx < delta -> Rabs (five_point f dx l - d) < eps.
Proof.
  intros H eps Heps. destruct (H (eps / 2) ltac:(lra)) as [[delta Hd] K]. simpl in K.
  exists (delta / 2). split; [lra|]. intros dx Hdx Hs.
  assert (K1 := K (2 * dx) ltac:(lra)). assert (K2 := K dx Hdx).
  assert (K3 := K (- dx) ltac:(lra)). assert (K4 := K (- (2 * dx)) ltac:(lra)).
  rewrite ?Rabs_Ropp in K3, K4. rewrite Rabs_mult, (Rabs_pos_eq 2) in K1, K4 by lra.
  specialize (K1 ltac:(lra)). specialize (K2 ltac:(lra)). specialize (K3 ltac:(lra)).
  specialize (K4 ltac:(lra)).
  set (q1 := (f (l + 2 * dx) - f l) / (2 * dx) - d) in *.
  set (q2 := (f (l + dx) - f l) / dx - d) in *.
  set (q3 := (f (l + - dx) - f l) / - dx - d) in *.
  set (q4 := (f (l + - (2 * dx)) - f l) / - (2 * dx) - d) in *.
  replace (five_point f dx l - d) with ((- 2 * q1 + 8 * q2 + 8 * q3 - 2 * q4) / 12).
  - apply Rabs_def2 in K1. apply Rabs_def2 in K2. apply Rabs_def2 in K3. apply Rabs_def2 in K4.
    apply Rabs_def1; lra.
  - unfold q1, q2, q3, q4, five_point.
    replace (l + - dx) with (l - dx) by ring. replace (l + - (2 * dx)) with (l - 2 * dx) by ring.
    field. assumption.
Qed.

Theorem C42_numerical_four_velocity :
  forall (o : orbit (T := option R)) a ph T1 T2 T3 T4 t r theta phi,
  o_a o = Some a ->
  Orbit_trajectory o (Some ph) "natural" "natural" = Ret (T1, T2, T3, T4) ->
  tracks T1 t -> tracks T2 r -> tracks T3 theta -> tracks T4 phi ->
  forall dx, dx <> 0 ->
  exists U1 U2 U3 U4,
  Orbit_numerical_four_velocity o (Some dx) (Some ph) = Ret (U1, U2, U3, U4) /\
  forall l, Sigma a (r l) (theta l) <> 0 ->
  U1 (Some l) = Ret (Some (five_point t dx l / Sigma a (r l) (theta l))) /\
  U2 (Some l) = Ret (Some (five_point r dx l / Sigma a (r l) (theta l))) /\
  U3 (Some l) = Ret (Some (five_point theta dx l / Sigma a (r l) (theta l))) /\
  U4 (Some l) = Ret (Some (five_point phi dx l / Sigma a (r l) (theta l))).
Proof.
  intros o a ph T1 T2 T3 T4 t r theta phi Ha HT H1 H2 H3 H4 dx Hdx.
  unfold Orbit_numerical_four_velocity. rewrite HT. cbn [bind]. rewrite Ha.
  do 4 eexists. split; [reflexivity|]. intros l HS.
  repeat split; apply stencil_value; assumption.
Qed.
Theorem C42_exact_on_quartics :
  forall c0 c1 c2 c3 c4 dx l, dx <> 0 ->
  let f := fun s => c0 + c1 * s + c2 * s ^ 2 + c3 * s ^ 3 + c4 * s ^ 4 in
  is_derive f l (five_point f dx l).
Proof.
  intros c0 c1 c2 c3 c4 dx l H f. unfold f. rewrite five_point_quartic by assumption.
  auto_derive; [exact I | ring].
Qed.
Theorem C42_converges :
  forall f l d, is_derive f l d ->
  is_lim (fun dx => five_point f dx l) 0 d.
Proof.
  intros f l d H. apply is_derive_Reals in H.
  apply is_lim_spec. intros [eps Heps]. simpl.
  destruct (five_point_limit f l d H eps Heps) as [delta [Hd K]].
  exists (mkposreal delta Hd). intros y Hy Hy0. apply K; [exact Hy0|].
  assert (Hy' : Rabs (y - 0) < delta) by exact Hy. now rewrite Rminus_0_r in Hy'.
Qed.
End C42.
Print Assumptions C42_numerical_four_velocity.
Print Assumptions C42_exact_on_quartics.
Print Assumptions C42_converges.

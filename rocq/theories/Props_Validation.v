(** * Properties C08-C11: input validation, spin reversal, cached arguments *)
From Coq Require Import Reals Lra ZArith String List Psatz.
From Coquelicot Require Import Coquelicot.
From Verif Require Import Num Outcome External Checked ExternalSpec Model_Units Model_Constants
  Model_Frequencies P_Validation SepPoly Props_Separatrix.
Import ListNotations.
Open Scope R_scope.

(** sign of the spin, +1 for a = 0 (copysign) *)
Definition spin_sign (a : R) : R := if Rlt_dec a 0 then -1 else 1.

Section V.
Context {X : External R}.

Lemma std_some a x :
  standardize_params (Some a) (Some x) = (Some (Rabs a), Some (x * spin_sign a)).
Proof. reflexivity. Qed.
Lemma std_R a x : standardize_params a x = (Rabs a, x * spin_sign a).
Proof. reflexivity. Qed.
Lemma spin_sign_abs a : spin_sign (Rabs a) = 1.
Proof. unfold spin_sign. pose proof (Rabs_pos a). destruct (Rlt_dec (Rabs a) 0); lra. Qed.
Lemma spin_sign_cases a : spin_sign a = 1 \/ spin_sign a = -1.
Proof. unfold spin_sign. destruct (Rlt_dec a 0); auto. Qed.
Lemma std_idem (a x : option R) :
  let s := standardize_params a x in standardize_params (fst s) (snd s) = s.
Proof.
  cbv zeta. destruct a as [a|]; [|destruct x; reflexivity]. destruct x as [x|].
  - rewrite std_some. cbn [fst snd]. rewrite std_some. rewrite Rabs_Rabsolu, spin_sign_abs.
    f_equal. f_equal. ring.
  - change (standardize_params (Some a) None) with (Some (Rabs a), @None R).
    cbn [fst snd]. change (standardize_params (Some (Rabs a)) None) with (Some (Rabs (Rabs a)), @None R).
    now rewrite Rabs_Rabsolu.
Qed.
(* standardising standardised parameters, in the shape in which it occurs *)
Lemma std_again (a0 x0 a x : option R) :
  standardize_params a0 x0 = (a, x) -> standardize_params a x = (a, x).
Proof. intros H. pose proof (std_idem a0 x0) as K. cbv zeta in K. now rewrite H in K. Qed.

(** ** the prologue of the functions *)
Lemma check_constants_cases a p e x : 0 <= a ->
  (a = 1 -> check_constants_params a p e x = Raise (ValueError msg_extreme)) /\
  (a <> 1 -> ~ (0 <= a < 1 /\ 0 <= e <= 1 /\ -1 <= x <= 1) ->
   check_constants_params a p e x = Raise (ValueError msg_range)) /\
  (forall s, 0 <= a < 1 /\ 0 <= e <= 1 /\ -1 <= x <= 1 -> separatrix a e x = Ret s ->
   check_constants_params a p e x
   = if Rlt_dec s p then Ret tt else Raise (ValueError msg_unstable)).
Proof.
  intros Ha.
  assert (U : check_constants_params a p e x =
    ifo (Some (Reqb a 1)) (Raise (ValueError msg_extreme)) (
    ifo (onot (valid_params a e x)) (Raise (ValueError msg_range)) (
    bind (is_stable a p e x) (fun st : bool => if st then Ret tt else Raise (ValueError msg_unstable)))))
    by reflexivity.
  rewrite U. split; [|split].
  - intros ->. rewrite Reqb_true by reflexivity. reflexivity.
  - intros H1 H. rewrite Reqb_false by assumption. cbn [ifo].
    rewrite valid_params_false by (unfold in_range; lra). reflexivity.
  - intros s H E. rewrite Reqb_false by lra. cbn [ifo].
    rewrite valid_params_true by (unfold in_range; lra). cbn [onot negb ifo].
    unfold is_stable. rewrite E. cbn [bind]. rnum. unfold Rltb. destruct (Rlt_dec s p); reflexivity.
Qed.

(** ** C08 *)

(** what a user may rely on about the arguments of the constants-of-motion functions *)
Definition validates_constants {A} (run : option R -> option R -> option R -> option R -> outcome A)
  : Prop :=
  forall a p e x,
  (Rabs a = 1 -> run (Some a) (Some p) (Some e) (Some x) = Raise (ValueError msg_extreme)) /\
  (Rabs a <> 1 -> (1 < Rabs a \/ e < 0 \/ 1 < e \/ 1 < Rabs x) ->
   run (Some a) (Some p) (Some e) (Some x) = Raise (ValueError msg_range)) /\
  (Rabs a < 1 -> 0 <= e <= 1 -> Rabs x <= 1 ->
   exists s, separatrix (Some (Rabs a)) (Some e) (Some (x * spin_sign a)) = Ret (Some s) /\
     (p <= s -> run (Some a) (Some p) (Some e) (Some x) = Raise (ValueError msg_unstable)) /\
     (s < p -> exists v, run (Some a) (Some p) (Some e) (Some x) = Ret v)).

Context (HX : root_spec X).

Lemma range_std a e x : Rabs a < 1 -> 0 <= e <= 1 -> Rabs x <= 1 ->
  0 <= Rabs a < 1 /\ 0 <= e <= 1 /\ -1 <= x * spin_sign a <= 1.
Proof.
  intros H1 H2 H3. pose proof (Rabs_pos a). apply Rabs_le_between in H3.
  destruct (spin_sign_cases a) as [-> | ->]; repeat split; try lra.
Qed.
Lemma not_range_std a e x : (1 < Rabs a \/ e < 0 \/ 1 < e \/ 1 < Rabs x) ->
  ~ (0 <= Rabs a < 1 /\ 0 <= e <= 1 /\ -1 <= x * spin_sign a <= 1).
Proof.
  intros H K. assert (Rabs x <= 1).
  { apply Rabs_le. destruct (spin_sign_cases a) as [E|E]; rewrite E in K; lra. }
  lra.
Qed.

(** a function that starts with the common prologue and then always returns *)
Lemma validates_intro {A} (run : option R -> option R -> option R -> option R -> outcome A)
    (k : option R -> option R -> option R -> option R -> outcome A) :
  (forall a p e x, run a p e x =
     let s := standardize_params a x in
     bind (check_constants_params (fst s) p e (snd s)) (fun _ => k (fst s) p e (snd s))) ->
  (forall a p e x, 0 <= a -> check_constants_params (Some a) (Some p) (Some e) (Some x) = Ret tt ->
     exists v, k (Some a) (Some p) (Some e) (Some x) = Ret v) ->
  validates_constants run.
Proof.
  intros Hrun Hk a p e x. rewrite Hrun, std_some. cbv zeta. cbn [fst snd].
  rewrite check_constants_some.
  destruct (check_constants_cases (Rabs a) p e (x * spin_sign a) (Rabs_pos a)) as [C1 [C2 C3]].
  split; [|split].
  - intros H. now rewrite (C1 H).
  - intros H1 H. rewrite (C2 H1 (not_range_std a e x H)). reflexivity.
  - intros H1 H2 H3. pose proof (range_std a e x H1 H2 H3) as Hr.
    destruct (separatrix_total HX (Rabs a) e (x * spin_sign a)) as [s [E _]]; try tauto.
    exists s. rewrite separatrix_lift, E. split; [reflexivity|].
    rewrite (C3 s Hr E). split; intros H.
    + destruct (Rlt_dec s p); [lra | reflexivity].
    + destruct (Rlt_dec s p) as [K|]; [|lra]. cbn [bind].
      apply Hk; [apply Rabs_pos|]. rewrite check_constants_some, (C3 s Hr E).
      destruct (Rlt_dec s p); [reflexivity | lra].
Qed.

Lemma std_nonneg a x : 0 <= a -> standardize_params (Some a) (Some x) = (Some a, Some x).
Proof.
  intros H. rewrite std_some. rewrite Rabs_pos_eq by assumption.
  unfold spin_sign. destruct (Rlt_dec a 0); [lra|]. f_equal. f_equal. ring.
Qed.

Lemma energy_ret a p e x : 0 <= a ->
  check_constants_params (Some a) (Some p) (Some e) (Some x) = Ret tt ->
  exists v, energy (Some a) (Some p) (Some e) (Some x) = Ret v.
Proof.
  intros Ha H. unfold energy. rewrite std_nonneg by assumption. rewrite H. cbn [bind].
  cnum. destruct (Reqb e 1); [eexists; reflexivity|]. cbn [ifo].
  destruct (Reqb x 0); [eexists; reflexivity|]. cbn [ifo].
  destruct (Reqb e 0); eexists; reflexivity.
Qed.
Lemma angular_momentum_ret a p e x E0 : 0 <= a ->
  check_constants_params (Some a) (Some p) (Some e) (Some x) = Ret tt ->
  exists v, angular_momentum (Some a) (Some p) (Some e) (Some x) E0 = Ret v.
Proof.
  intros Ha H. unfold angular_momentum. rewrite std_nonneg by assumption. rewrite H. cbn [bind].
  assert (exists v, default E0 (energy (Some a) (Some p) (Some e) (Some x)) = Ret v) as [v ->].
  { destruct E0; [eexists; reflexivity | now apply energy_ret]. }
  cbn [bind]. cnum. destruct (Reqb x 0); [eexists; reflexivity|]. cbn [ifo].
  destruct (Reqb e 1); eexists; reflexivity.
Qed.
Lemma carter_ret a p e x E0 L0 : 0 <= a ->
  check_constants_params (Some a) (Some p) (Some e) (Some x) = Ret tt ->
  exists v, carter_constant (Some a) (Some p) (Some e) (Some x) E0 L0 = Ret v.
Proof.
  intros Ha H. unfold carter_constant. rewrite std_nonneg by assumption. rewrite H. cbn [bind].
  change (neqb (Some x) (nZ 0)) with (Some (Reqb x 0)).
  destruct (Reqb x 0); [eexists; reflexivity|]. cbn [ifo].
  assert (exists v, default E0 (energy (Some a) (Some p) (Some e) (Some x)) = Ret v) as [v ->].
  { destruct E0; [eexists; reflexivity | now apply energy_ret]. }
  cbn [bind].
  assert (exists w, default L0 (angular_momentum (Some a) (Some p) (Some e) (Some x) (Some v)) = Ret w)
    as [w ->].
  { destruct L0; [eexists; reflexivity | now apply angular_momentum_ret]. }
  eexists; reflexivity.
Qed.

Lemma energy_shape (a p e x : option R) : energy a p e x =
  let s := standardize_params a x in
  bind (check_constants_params (fst s) p e (snd s)) (fun _ => energy (fst s) p e (snd s)).
Proof.
  cbv zeta. destruct (standardize_params a x) as [a' x'] eqn:S. cbn [fst snd].
  unfold energy. rewrite S, (std_again _ _ _ _ S).
  destruct (check_constants_params a' p e x'); reflexivity.
Qed.
Lemma angular_momentum_shape (a p e x : option R) E0 : angular_momentum a p e x E0 =
  let s := standardize_params a x in
  bind (check_constants_params (fst s) p e (snd s)) (fun _ => angular_momentum (fst s) p e (snd s) E0).
Proof.
  cbv zeta. destruct (standardize_params a x) as [a' x'] eqn:S. cbn [fst snd].
  unfold angular_momentum. rewrite S, (std_again _ _ _ _ S).
  destruct (check_constants_params a' p e x'); reflexivity.
Qed.
Lemma carter_shape (a p e x : option R) E0 L0 : carter_constant a p e x E0 L0 =
  let s := standardize_params a x in
  bind (check_constants_params (fst s) p e (snd s)) (fun _ => carter_constant (fst s) p e (snd s) E0 L0).
Proof.
  cbv zeta. destruct (standardize_params a x) as [a' x'] eqn:S. cbn [fst snd].
  unfold carter_constant. rewrite S, (std_again _ _ _ _ S).
  destruct (check_constants_params a' p e x'); reflexivity.
Qed.
Lemma constants_shape (a p e x : option R) : constants_of_motion a p e x =
  let s := standardize_params a x in
  bind (check_constants_params (fst s) p e (snd s)) (fun _ => constants_of_motion (fst s) p e (snd s)).
Proof.
  cbv zeta. destruct (standardize_params a x) as [a' x'] eqn:S. cbn [fst snd].
  unfold constants_of_motion.
  rewrite (energy_shape a), (energy_shape a'). rewrite S, (std_again _ _ _ _ S). cbn [fst snd].
  destruct (check_constants_params a' p e x') eqn:C; cbn [bind]; try reflexivity.
  destruct (energy a' p e x') as [E| |]; cbn [bind]; try reflexivity.
  rewrite (angular_momentum_shape a). rewrite S. cbn [fst snd]. rewrite C. cbn [bind].
  destruct (angular_momentum a' p e x' (Some E)) as [L| |]; cbn [bind]; try reflexivity.
  rewrite (carter_shape a). rewrite S. cbn [fst snd]. rewrite C. reflexivity.
Qed.
Lemma constants_ret a p e x : 0 <= a ->
  check_constants_params (Some a) (Some p) (Some e) (Some x) = Ret tt ->
  exists v, constants_of_motion (Some a) (Some p) (Some e) (Some x) = Ret v.
Proof.
  intros Ha H. unfold constants_of_motion.
  destruct (energy_ret a p e x Ha H) as [E ->]. cbn [bind].
  destruct (angular_momentum_ret a p e x (Some E) Ha H) as [L ->]. cbn [bind].
  destruct (carter_ret a p e x (Some E) (Some L) Ha H) as [Q ->]. eexists; reflexivity.
Qed.

Theorem C08_constants_validation :
  validates_constants energy /\
  (forall E0, validates_constants (fun a p e x => angular_momentum a p e x E0)) /\
  (forall E0 L0, validates_constants (fun a p e x => carter_constant a p e x E0 L0)) /\
  validates_constants constants_of_motion.
Proof.
  split; [|split; [intros E0 | split; [intros E0 L0|]]].
  - eapply validates_intro; [intros; apply energy_shape | apply energy_ret].
  - eapply (validates_intro _ (fun a p e x => angular_momentum a p e x E0));
      [intros; apply angular_momentum_shape | intros; now apply angular_momentum_ret].
  - eapply (validates_intro _ (fun a p e x => carter_constant a p e x E0 L0));
      [intros; apply carter_shape | intros; now apply carter_ret].
  - eapply validates_intro; [intros; apply constants_shape | apply constants_ret].
Qed.

(** ** C09 *)
Definition validates_frequency {A} (run : option R -> option R -> option R -> option R -> outcome A)
  : Prop :=
  forall a p e x,
  (Rabs a = 1 \/ x = 0 \/ e = 1 \/ 1 < Rabs a \/ e < 0 \/ 1 < e \/ 1 < Rabs x ->
   is_ValueError (run (Some a) (Some p) (Some e) (Some x))) /\
  (Rabs a < 1 -> 0 <= e < 1 -> Rabs x <= 1 -> x <> 0 ->
   exists s, separatrix (Some (Rabs a)) (Some e) (Some (x * spin_sign a)) = Ret (Some s) /\
     (p <= s -> is_ValueError (run (Some a) (Some p) (Some e) (Some x))) /\
     (s < p -> exists v, run (Some a) (Some p) (Some e) (Some x) = Ret v)).

Lemma check_frequency_R a p e x : check_frequency_params a p e x =
  ifo (Some (Reqb a 1)) (Raise (ValueError msg_extreme)) (
  ifo (Some (Reqb x 0)) (Raise (ValueError msg_polar)) (
  ifo (Some (Reqb e 1)) (Raise (ValueError msg_marginal)) (
  ifo (onot (valid_params a e x)) (Raise (ValueError msg_range)) (
  bind (is_stable a p e x) (fun st : bool => if st then Ret tt else Raise (ValueError msg_unstable)))))).
Proof. reflexivity. Qed.

Lemma check_frequency_cases a p e x : 0 <= a ->
  (a = 1 \/ x = 0 \/ e = 1 \/ ~ (0 <= a < 1 /\ 0 <= e <= 1 /\ -1 <= x <= 1) ->
   is_ValueError (check_frequency_params a p e x)) /\
  (forall s, 0 <= a < 1 /\ 0 <= e <= 1 /\ -1 <= x <= 1 -> x <> 0 -> e <> 1 -> separatrix a e x = Ret s ->
   check_frequency_params a p e x
   = if Rlt_dec s p then Ret tt else Raise (ValueError msg_unstable)).
Proof.
  intros Ha. rewrite check_frequency_R. split.
  - intros H. destruct (Reqb_spec a 1); [eexists; reflexivity|].
    destruct (Reqb_spec x 0); [eexists; reflexivity|].
    destruct (Reqb_spec e 1); [eexists; reflexivity|]. cbn [ifo].
    rewrite valid_params_false by (unfold in_range; lra). eexists; reflexivity.
  - intros s H Hx He E. rewrite Reqb_false by lra. rewrite Reqb_false by lra. rewrite Reqb_false by lra.
    cbn [ifo]. rewrite valid_params_true by (unfold in_range; lra). cbn [onot negb ifo].
    unfold is_stable. rewrite E. cbn [bind]. rnum. unfold Rltb. destruct (Rlt_dec s p); reflexivity.
Qed.
Lemma check_frequency_constants (a p e x : R) : check_frequency_params a p e x = Ret tt ->
  check_constants_params a p e x = Ret tt /\ a <> 1 /\ x <> 0 /\ e <> 1 /\ in_range a e x.
Proof.
  rewrite check_frequency_R. intros H.
  assert (U : check_constants_params a p e x =
    ifo (Some (Reqb a 1)) (Raise (ValueError msg_extreme)) (
    ifo (onot (valid_params a e x)) (Raise (ValueError msg_range)) (
    bind (is_stable a p e x) (fun st : bool => if st then Ret tt else Raise (ValueError msg_unstable)))))
    by reflexivity.
  rewrite U.
  destruct (Reqb_spec a 1); [discriminate|]. destruct (Reqb_spec x 0); [discriminate|].
  destruct (Reqb_spec e 1); [discriminate|]. cbn [ifo] in *.
  destruct (in_range_dec a e x) as [K|K].
  - rewrite valid_params_true in * by assumption. cbn [onot negb ifo] in *. tauto.
  - rewrite valid_params_false in * by assumption. discriminate.
Qed.

Lemma validates_frequency_intro {A}
    (run k : option R -> option R -> option R -> option R -> outcome A) :
  (forall a p e x, 0 <= a ->
     (forall m, check_frequency_params (Some a) (Some p) (Some e) (Some x) = Raise (ValueError m) ->
        is_ValueError (k (Some a) (Some p) (Some e) (Some x))) /\
     (check_frequency_params (Some a) (Some p) (Some e) (Some x) = Ret tt ->
      exists v, k (Some a) (Some p) (Some e) (Some x) = Ret v)) ->
  (forall a p e x, run (Some a) (Some p) (Some e) (Some x) =
     k (Some (Rabs a)) (Some p) (Some e) (Some (x * spin_sign a))) ->
  validates_frequency run.
Proof.
  intros Hk Hrun a p e x. rewrite Hrun.
  destruct (Hk (Rabs a) p e (x * spin_sign a) (Rabs_pos a)) as [K1 K2].
  rewrite check_frequency_some in *.
  destruct (check_frequency_cases (Rabs a) p e (x * spin_sign a) (Rabs_pos a)) as [C1 C2].
  split.
  - intros H. destruct C1 as [m Hm]; [|exact (K1 m Hm)].
    destruct H as [H|[H|[H|H]]]; [now left | right; left; subst; ring | right; right; now left |].
    right; right; right. now apply not_range_std.
  - intros H1 H2 H3 H4. assert (Hr := range_std a e x H1 ltac:(lra) H3).
    destruct (separatrix_total HX (Rabs a) e (x * spin_sign a)) as [s [E _]]; try tauto.
    exists s. rewrite separatrix_lift, E. split; [reflexivity|].
    assert (Hx' : x * spin_sign a <> 0) by (destruct (spin_sign_cases a) as [-> | ->]; lra).
    assert (He' : e <> 1) by lra.
    specialize (C2 s Hr Hx' He' E). rewrite C2 in *. split; intros H.
    + destruct (Rlt_dec s p); [lra|]. now apply (K1 msg_unstable).
    + destruct (Rlt_dec s p); [|lra]. now apply K2.
Qed.

Lemma shape_some {A} (f : option R -> option R -> option R -> option R -> outcome A) :
  (forall a p e x, f a p e x =
     let s := standardize_params a x in
     bind (check_frequency_params (fst s) p e (snd s)) (fun _ => f (fst s) p e (snd s))) ->
  forall a p e x, f (Some a) (Some p) (Some e) (Some x)
    = f (Some (Rabs a)) (Some p) (Some e) (Some (x * spin_sign a)).
Proof.
  intros H a p e x. rewrite (H (Some a)), (H (Some (Rabs a))), !std_some. cbv zeta. cbn [fst snd].
  rewrite Rabs_Rabsolu, spin_sign_abs, Rmult_1_r.
  destruct (check_frequency_params (Some (Rabs a)) (Some p) (Some e) (Some (x * spin_sign a)));
    cbn [bind]; reflexivity.
Qed.

Lemma r_shape c (a p e x : option R) : r_frequency a p e x c =
  let s := standardize_params a x in
  bind (check_frequency_params (fst s) p e (snd s)) (fun _ => r_frequency (fst s) p e (snd s) c).
Proof.
  cbv zeta. destruct (standardize_params a x) as [a' x'] eqn:S. cbn [fst snd].
  unfold r_frequency. rewrite S, (std_again _ _ _ _ S).
  destruct (check_frequency_params a' p e x'); reflexivity.
Qed.
Lemma theta_shape c (a p e x : option R) : theta_frequency a p e x c =
  let s := standardize_params a x in
  bind (check_frequency_params (fst s) p e (snd s)) (fun _ => theta_frequency (fst s) p e (snd s) c).
Proof.
  cbv zeta. destruct (standardize_params a x) as [a' x'] eqn:S. cbn [fst snd].
  unfold theta_frequency. rewrite S, (std_again _ _ _ _ S).
  destruct (check_frequency_params a' p e x'); reflexivity.
Qed.
Lemma phi_shape c u v (a p e x : option R) : phi_frequency a p e x c u v =
  let s := standardize_params a x in
  bind (check_frequency_params (fst s) p e (snd s)) (fun _ => phi_frequency (fst s) p e (snd s) c u v).
Proof.
  cbv zeta. destruct (standardize_params a x) as [a' x'] eqn:S. cbn [fst snd].
  unfold phi_frequency. rewrite S, (std_again _ _ _ _ S).
  destruct (check_frequency_params a' p e x'); reflexivity.
Qed.
Lemma gamma_shape c u v (a p e x : option R) : gamma a p e x c u v =
  let s := standardize_params a x in
  bind (check_frequency_params (fst s) p e (snd s)) (fun _ => gamma (fst s) p e (snd s) c u v).
Proof.
  cbv zeta. destruct (standardize_params a x) as [a' x'] eqn:S. cbn [fst snd].
  unfold gamma. rewrite S, (std_again _ _ _ _ S).
  destruct (check_frequency_params a' p e x'); reflexivity.
Qed.

Definition ckf a p e x :=
  check_frequency_params (X := checked X) (Some a) (Some p) (Some e) (Some x) = Ret tt.
Lemma ckf_constants a p e x : 0 <= a -> ckf a p e x ->
  exists c, constants_of_motion (Some a) (Some p) (Some e) (Some x) = Ret c.
Proof.
  unfold ckf. intros Ha H. rewrite check_frequency_some in H.
  apply check_frequency_constants in H. destruct H as [H _].
  rewrite <- check_constants_some in H. now apply constants_ret.
Qed.
Lemma default_ret {A} (o : option A) d : (exists v, d = Ret v) -> exists v, default o d = Ret v.
Proof. intros [v H]. destruct o; simpl; eauto. Qed.
Lemma radial_roots_ret a p e x c :
  exists v, stable_radial_roots (Some a) (Some p) (Some e) (Some x) (Some c) = Ret v.
Proof. destruct c as [[E L] Q]. eexists; reflexivity. Qed.
Lemma polar_roots_ret a p e x c :
  exists v, stable_polar_roots (Some a) (Some p) (Some e) (Some x) (Some c) = Ret v.
Proof.
  destruct c as [[E L] Q]. unfold stable_polar_roots. cbn [default bind].
  change (neqb (Some a) (nZ 0)) with (Some (Reqb a 0)). destruct (Reqb a 0); eexists; reflexivity.
Qed.
Lemma r_ret a p e x c : 0 <= a -> ckf a p e x ->
  exists v, r_frequency (Some a) (Some p) (Some e) (Some x) c = Ret v.
Proof.
  intros Ha H. unfold r_frequency. rewrite std_nonneg by assumption. rewrite H. cbn [bind].
  destruct (default_ret c _ (ckf_constants a p e x Ha H)) as [[[E L] Q] ->]. cbn [bind].
  destruct (radial_roots_ret a p e x (E, L, Q)) as [rr ->]. eexists; reflexivity.
Qed.
Lemma theta_ret a p e x c : 0 <= a -> ckf a p e x ->
  exists v, theta_frequency (Some a) (Some p) (Some e) (Some x) c = Ret v.
Proof.
  intros Ha H. unfold theta_frequency. rewrite std_nonneg by assumption. rewrite H. cbn [bind].
  change (neqb (Some a) (nZ 0)) with (Some (Reqb a 0)).
  destruct (Reqb a 0); cbn [ifo]; [eexists; reflexivity|].
  destruct (default_ret c _ (ckf_constants a p e x Ha H)) as [[[E L] Q] ->]. cbn [bind].
  destruct (polar_roots_ret a p e x (E, L, Q)) as [zz ->]. eexists; reflexivity.
Qed.
Lemma phi_ret a p e x c u v : 0 <= a -> ckf a p e x ->
  exists w, phi_frequency (Some a) (Some p) (Some e) (Some x) c u v = Ret w.
Proof.
  intros Ha H. unfold phi_frequency. rewrite std_nonneg by assumption. rewrite H. cbn [bind].
  change (neqb (Some a) (nZ 0)) with (Some (Reqb a 0)).
  destruct (Reqb a 0); cbn [ifo]; [eexists; reflexivity|].
  destruct (default_ret c _ (ckf_constants a p e x Ha H)) as [[[E L] Q] ->]. cbn [bind].
  destruct (radial_roots_ret a p e x (E, L, Q)) as [rr ->]. cbn [bind].
  destruct (polar_roots_ret a p e x (E, L, Q)) as [zz ->]. cbn [bind].
  destruct (default_ret u _ (r_ret a p e x (Some (E, L, Q)) Ha H)) as [ur ->]. cbn [bind].
  destruct (default_ret v _ (theta_ret a p e x (Some (E, L, Q)) Ha H)) as [ut ->].
  eexists; reflexivity.
Qed.
Lemma gamma_ret a p e x c u v : 0 <= a -> ckf a p e x ->
  exists w, gamma (Some a) (Some p) (Some e) (Some x) c u v = Ret w.
Proof.
  intros Ha H. unfold gamma. rewrite std_nonneg by assumption. rewrite H. cbn [bind].
  destruct (default_ret c _ (ckf_constants a p e x Ha H)) as [[[E L] Q] ->]. cbn [bind].
  destruct (radial_roots_ret a p e x (E, L, Q)) as [rr ->]. cbn [bind].
  destruct (polar_roots_ret a p e x (E, L, Q)) as [zz ->]. cbn [bind].
  destruct (default_ret u _ (r_ret a p e x (Some (E, L, Q)) Ha H)) as [ur ->]. cbn [bind].
  destruct (default_ret v _ (theta_ret a p e x (Some (E, L, Q)) Ha H)) as [ut ->].
  eexists; reflexivity.
Qed.

(** constants_of_motion on real arguments either returns or raises ValueError *)
Lemma constants_total a p e x :
  (exists c, constants_of_motion (Some a) (Some p) (Some e) (Some x) = Ret c) \/
  is_ValueError (constants_of_motion (Some a) (Some p) (Some e) (Some x)).
Proof.
  destruct (proj2 (proj2 (proj2 C08_constants_validation)) a p e x) as [H1 [H2 H3]].
  destruct (Req_dec (Rabs a) 1) as [E|E]; [right; rewrite (H1 E); now eexists|].
  destruct (Rlt_dec 1 (Rabs a)); [right; rewrite H2 by auto; now eexists|].
  destruct (Rlt_dec e 0); [right; rewrite H2 by auto; now eexists|].
  destruct (Rlt_dec 1 e); [right; rewrite H2 by auto; now eexists|].
  destruct (Rlt_dec 1 (Rabs x)); [right; rewrite H2 by auto; now eexists|].
  destruct H3 as [s [_ [H3 H4]]]; try lra.
  destruct (Rlt_dec s p); [left; now apply H4 | right; rewrite H3 by lra; now eexists].
Qed.

Lemma freq_intro {A} (f : option R -> option R -> option R -> option R -> outcome A) :
  (forall a p e x, f a p e x =
     let s := standardize_params a x in
     bind (check_frequency_params (fst s) p e (snd s)) (fun _ => f (fst s) p e (snd s))) ->
  (forall a p e x, 0 <= a -> ckf a p e x -> exists v, f (Some a) (Some p) (Some e) (Some x) = Ret v) ->
  validates_frequency f.
Proof.
  intros H1 H2. apply (validates_frequency_intro f f).
  - intros a p e x Ha. split; [|now apply H2]. intros m Hm. rewrite H1.
    rewrite std_nonneg by assumption. cbv zeta. cbn [fst snd]. rewrite Hm. now eexists.
  - now apply shape_some.
Qed.

Lemma mino_shape (a p e x : R) : mino_frequencies (Some a) (Some p) (Some e) (Some x)
  = mino_frequencies (Some (Rabs a)) (Some p) (Some e) (Some (x * spin_sign a)).
Proof.
  unfold mino_frequencies.
  rewrite (constants_shape (Some a)), (constants_shape (Some (Rabs a))). rewrite !std_some.
  cbv zeta. cbn [fst snd]. rewrite Rabs_Rabsolu, spin_sign_abs, Rmult_1_r.
  destruct (check_constants_params (Some (Rabs a)) (Some p) (Some e) (Some (x * spin_sign a)));
    cbn [bind]; try reflexivity.
  destruct (constants_of_motion (Some (Rabs a)) (Some p) (Some e) (Some (x * spin_sign a))) as [c| |];
    cbn [bind]; try reflexivity.
  rewrite (shape_some _ (r_shape (Some c)) a).
  destruct (r_frequency (Some (Rabs a)) (Some p) (Some e) (Some (x * spin_sign a)) (Some c)) as [ur| |];
    cbn [bind]; try reflexivity.
  rewrite (shape_some _ (theta_shape (Some c)) a).
  destruct (theta_frequency (Some (Rabs a)) (Some p) (Some e) (Some (x * spin_sign a)) (Some c)) as [ut| |];
    cbn [bind]; try reflexivity.
  rewrite (shape_some _ (phi_shape (Some c) (Some ur) (Some ut)) a).
  destruct (phi_frequency (Some (Rabs a)) (Some p) (Some e) (Some (x * spin_sign a)) (Some c) (Some ur) (Some ut))
    as [up| |]; cbn [bind]; try reflexivity.
  now rewrite (shape_some _ (gamma_shape (Some c) (Some ur) (Some ut)) a).
Qed.
Lemma fundamental_via_mino (a p e x : option R) : fundamental_frequencies a p e x =
  match mino_frequencies a p e x with
  | Ret (ur, ut, up, g) => Ret (ur / g, ut / g, up / g)%num
  | Raise er => Raise er
  | Undef => Undef
  end.
Proof.
  unfold fundamental_frequencies, mino_frequencies.
  destruct (constants_of_motion a p e x) as [c| |]; cbn [bind]; try reflexivity.
  destruct (r_frequency a p e x (Some c)) as [ur| |]; cbn [bind]; try reflexivity.
  destruct (theta_frequency a p e x (Some c)) as [ut| |]; cbn [bind]; try reflexivity.
  destruct (phi_frequency a p e x (Some c) (Some ur) (Some ut)) as [up| |]; cbn [bind]; try reflexivity.
  destruct (gamma a p e x (Some c) (Some ur) (Some ut)) as [g| |]; cbn [bind]; reflexivity.
Qed.
Lemma mino_cases a p e x : 0 <= a ->
  (forall m, check_frequency_params (Some a) (Some p) (Some e) (Some x) = Raise (ValueError m) ->
     is_ValueError (mino_frequencies (Some a) (Some p) (Some e) (Some x))) /\
  (ckf a p e x -> exists v, mino_frequencies (Some a) (Some p) (Some e) (Some x) = Ret v).
Proof.
  intros Ha. split.
  - intros m Hm. unfold mino_frequencies.
    destruct (constants_total a p e x) as [[c ->]|[m' ->]]; [|now eexists]. cbn [bind].
    rewrite r_shape, std_nonneg by assumption. cbv zeta. cbn [fst snd]. rewrite Hm. now eexists.
  - intros H. unfold mino_frequencies.
    destruct (ckf_constants a p e x Ha H) as [c ->]. cbn [bind].
    destruct (r_ret a p e x (Some c) Ha H) as [ur ->]. cbn [bind].
    destruct (theta_ret a p e x (Some c) Ha H) as [ut ->]. cbn [bind].
    destruct (phi_ret a p e x (Some c) (Some ur) (Some ut) Ha H) as [up ->]. cbn [bind].
    destruct (gamma_ret a p e x (Some c) (Some ur) (Some ut) Ha H) as [g ->].
    eexists; reflexivity.
Qed.

Theorem C09_frequency_validation :
  (forall c, validates_frequency (fun a p e x => r_frequency a p e x c)) /\
  (forall c, validates_frequency (fun a p e x => theta_frequency a p e x c)) /\
  (forall c u v, validates_frequency (fun a p e x => phi_frequency a p e x c u v)) /\
  (forall c u v, validates_frequency (fun a p e x => gamma a p e x c u v)) /\
  validates_frequency mino_frequencies /\
  validates_frequency fundamental_frequencies.
Proof.
  split; [|split; [|split; [|split; [|split]]]].
  - intros c. apply freq_intro; [apply r_shape | intros; now apply r_ret].
  - intros c. apply freq_intro; [apply theta_shape | intros; now apply theta_ret].
  - intros c u v. apply freq_intro; [apply phi_shape | intros; now apply phi_ret].
  - intros c u v. apply freq_intro; [apply gamma_shape | intros; now apply gamma_ret].
  - apply (validates_frequency_intro _ mino_frequencies); [apply mino_cases | apply mino_shape].
  - apply (validates_frequency_intro _ fundamental_frequencies).
    + intros a p e x Ha. destruct (mino_cases a p e x Ha) as [H1 H2]. rewrite fundamental_via_mino.
      split.
      * intros m Hm. destruct (H1 m Hm) as [m' ->]. now eexists.
      * intros H. destruct (H2 H) as [[[[ur ut] up] g] ->]. eexists; reflexivity.
    + intros. rewrite !fundamental_via_mino, mino_shape. reflexivity.
Qed.

(** ** C10: spin reversal *)
Lemma std_reverse a x : a <> 0 ->
  standardize_params (Some (- a)) (Some (- x)) = standardize_params (Some a) (Some x).
Proof.
  intros H. rewrite !std_some, Rabs_Ropp. f_equal. f_equal. unfold spin_sign.
  destruct (Rlt_dec a 0), (Rlt_dec (- a) 0); lra.
Qed.
Lemma reverse_intro {A} (f : option R -> option R -> option R -> option R -> outcome A) :
  (forall a p e x, f a p e x =
     let s := standardize_params a x in
     bind (check_constants_params (fst s) p e (snd s)) (fun _ => f (fst s) p e (snd s))) \/
  (forall a p e x, f a p e x =
     let s := standardize_params a x in
     bind (check_frequency_params (fst s) p e (snd s)) (fun _ => f (fst s) p e (snd s))) ->
  forall a p e x, a <> 0 ->
  f (Some (- a)) (Some p) (Some e) (Some (- x)) = f (Some a) (Some p) (Some e) (Some x).
Proof.
  intros [H|H] a p e x Ha; rewrite (H (Some (- a))), (H (Some a)), std_reverse by assumption; reflexivity.
Qed.
Lemma spin_sign_opp a : a <> 0 -> spin_sign (- a) = - spin_sign a.
Proof. intros H. unfold spin_sign. destruct (Rlt_dec a 0), (Rlt_dec (- a) 0); lra. Qed.

Theorem C10_spin_reversal :
  forall a p e x, a <> 0 ->
  let A := Some a in let A' := Some (- a) in let x1 := Some x in let x2 := Some (- x) in
  let P := Some p in let e1 := Some e in
  energy A' P e1 x2 = energy A P e1 x1 /\
  (forall E, angular_momentum A' P e1 x2 E = angular_momentum A P e1 x1 E) /\
  (forall E L, carter_constant A' P e1 x2 E L = carter_constant A P e1 x1 E L) /\
  constants_of_motion A' P e1 x2 = constants_of_motion A P e1 x1 /\
  (forall c, r_frequency A' P e1 x2 c = r_frequency A P e1 x1 c) /\
  (forall c, theta_frequency A' P e1 x2 c = theta_frequency A P e1 x1 c) /\
  (forall c u v, phi_frequency A' P e1 x2 c u v = phi_frequency A P e1 x1 c u v) /\
  (forall c u v, gamma A' P e1 x2 c u v = gamma A P e1 x1 c u v) /\
  mino_frequencies A' P e1 x2 = mino_frequencies A P e1 x1 /\
  fundamental_frequencies A' P e1 x2 = fundamental_frequencies A P e1 x1.
Proof.
  intros a p e x Ha. cbv zeta.
  assert (M : mino_frequencies (Some (- a)) (Some p) (Some e) (Some (- x))
            = mino_frequencies (Some a) (Some p) (Some e) (Some x)).
  { rewrite (mino_shape (- a)), (mino_shape a), Rabs_Ropp, spin_sign_opp by assumption.
    now replace (- x * - spin_sign a) with (x * spin_sign a) by ring. }
  split; [apply reverse_intro; [left; apply energy_shape | assumption]|].
  split; [intros E; apply (reverse_intro (fun a p e x => angular_momentum a p e x E));
          [left; intros; apply angular_momentum_shape | assumption]|].
  split; [intros E L; apply (reverse_intro (fun a p e x => carter_constant a p e x E L));
          [left; intros; apply carter_shape | assumption]|].
  split; [apply reverse_intro; [left; apply constants_shape | assumption]|].
  split; [intros c; apply (reverse_intro (fun a p e x => r_frequency a p e x c));
          [right; intros; apply r_shape | assumption]|].
  split; [intros c; apply (reverse_intro (fun a p e x => theta_frequency a p e x c));
          [right; intros; apply theta_shape | assumption]|].
  split; [intros c u v; apply (reverse_intro (fun a p e x => phi_frequency a p e x c u v));
          [right; intros; apply phi_shape | assumption]|].
  split; [intros c u v; apply (reverse_intro (fun a p e x => gamma a p e x c u v));
          [right; intros; apply gamma_shape | assumption]|].
  split; [exact M|]. now rewrite !fundamental_via_mino, M.
Qed.

(** ** C11: cached arguments *)
Lemma shape_std {A} (f : option R -> option R -> option R -> option R -> outcome A) a p e x v :
  (forall a p e x, f a p e x =
     let s := standardize_params a x in
     bind (check_constants_params (fst s) p e (snd s)) (fun _ => f (fst s) p e (snd s))) ->
  f a p e x = Ret v ->
  f (fst (standardize_params a x)) p e (snd (standardize_params a x)) = Ret v.
Proof.
  intros H E. rewrite H in E. cbv zeta in E.
  destruct (check_constants_params (fst (standardize_params a x)) p e (snd (standardize_params a x)));
    cbn [bind] in E; try discriminate. exact E.
Qed.
Lemma shape_stdf {A} (f : option R -> option R -> option R -> option R -> outcome A) a p e x v :
  (forall a p e x, f a p e x =
     let s := standardize_params a x in
     bind (check_frequency_params (fst s) p e (snd s)) (fun _ => f (fst s) p e (snd s))) ->
  f a p e x = Ret v ->
  f (fst (standardize_params a x)) p e (snd (standardize_params a x)) = Ret v.
Proof.
  intros H E. rewrite H in E. cbv zeta in E.
  destruct (check_frequency_params (fst (standardize_params a x)) p e (snd (standardize_params a x)));
    cbn [bind] in E; try discriminate. exact E.
Qed.

Theorem C11_cached_arguments :
  forall a p e x E L Q ur ut : option R,
  energy a p e x = Ret E -> angular_momentum a p e x None = Ret L ->
  constants_of_motion a p e x = Ret (E, L, Q) ->
  let c := Some (E, L, Q) in
  angular_momentum a p e x (Some E) = angular_momentum a p e x None /\
  carter_constant a p e x (Some E) (Some L) = carter_constant a p e x None None /\
  carter_constant a p e x (Some E) None = carter_constant a p e x None None /\
  carter_constant a p e x None (Some L) = carter_constant a p e x None None /\
  stable_radial_roots a p e x c = stable_radial_roots a p e x None /\
  stable_polar_roots a p e x c = stable_polar_roots a p e x None /\
  r_frequency a p e x c = r_frequency a p e x None /\
  theta_frequency a p e x c = theta_frequency a p e x None /\
  (r_frequency a p e x None = Ret ur -> theta_frequency a p e x None = Ret ut ->
   forall c' u v, (c' = None \/ c' = c) -> (u = None \/ u = Some ur) -> (v = None \/ v = Some ut) ->
   phi_frequency a p e x c' u v = phi_frequency a p e x None None None /\
   gamma a p e x c' u v = gamma a p e x None None None).
Proof.
  intros a p e x E L Q ur ut HE HL HC. cbv zeta.
  assert (HE' := shape_std energy a p e x E energy_shape HE).
  assert (HL0 := shape_std (fun a p e x => angular_momentum a p e x None) a p e x L
            (fun a p e x => angular_momentum_shape a p e x None) HL).
  assert (HC' := shape_std constants_of_motion a p e x _ constants_shape HC).
  destruct (standardize_params a x) as [a' x'] eqn:S. cbn [fst snd] in *.
  assert (S' := std_again _ _ _ _ S).
  assert (P1 : angular_momentum a p e x (Some E) = angular_momentum a p e x None).
  { unfold angular_momentum. rewrite S. cbn [default]. rewrite HE'. reflexivity. }
  assert (HL1 : angular_momentum a' p e x' (Some E) = Ret L).
  { rewrite <- HL0. unfold angular_momentum. rewrite S'. cbn [default]. rewrite HE'. reflexivity. }
  split; [exact P1|].
  assert (P2 : forall E1 L1, (E1 = None \/ E1 = Some E) -> (L1 = None \/ L1 = Some L) ->
    carter_constant a p e x E1 L1 = carter_constant a p e x None None).
  { intros E1 L1 [-> | ->] [-> | ->]; unfold carter_constant; rewrite S; cbn [default];
      rewrite ?HE'; cbn [bind]; rewrite ?HL1; reflexivity. }
  split; [apply P2; auto|]. split; [apply P2; auto|]. split; [apply P2; auto|].
  split; [unfold stable_radial_roots; cbn [default]; now rewrite HC|].
  split; [unfold stable_polar_roots; cbn [default]; now rewrite HC|].
  assert (P3 : r_frequency a p e x (Some (E, L, Q)) = r_frequency a p e x None).
  { unfold r_frequency. rewrite S. cbn [default]. rewrite HC'. reflexivity. }
  assert (P4 : theta_frequency a p e x (Some (E, L, Q)) = theta_frequency a p e x None).
  { unfold theta_frequency. rewrite S. cbn [default]. rewrite HC'. reflexivity. }
  split; [exact P3|]. split; [exact P4|].
  intros Hr Ht.
  rewrite <- P3 in Hr. rewrite <- P4 in Ht.
  assert (Hr' := shape_stdf (fun a p e x => r_frequency a p e x (Some (E, L, Q))) a p e x ur
            (r_shape (Some (E, L, Q))) Hr).
  assert (Ht' := shape_stdf (fun a p e x => theta_frequency a p e x (Some (E, L, Q))) a p e x ut
            (theta_shape (Some (E, L, Q))) Ht).
  rewrite S in Hr', Ht'. cbn [fst snd] in Hr', Ht'.
  intros c' u v [-> | ->] [-> | ->] [-> | ->];
    (split; [unfold phi_frequency | unfold gamma]); rewrite S; cbn [default];
    rewrite ?HC'; cbn [bind]; rewrite ?Hr', ?Ht'; reflexivity.
Qed.
End V.
Print Assumptions C08_constants_validation.
Print Assumptions C09_frequency_validation.
Print Assumptions C10_spin_reversal.
Print Assumptions C11_cached_arguments.

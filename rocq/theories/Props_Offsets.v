(** * C105: initial time and azimuth are pure offsets of every trajectory, bound or plunging *)
From Coq Require Import Reals Lra Lia ZArith String List.
From Coquelicot Require Import Coquelicot.
From Verif Require Import Num Outcome External Checked ExternalSpec.
From Verif Require Import Model_Constants Model_Frequencies Model_Spacetime Model_Units Model_Stable Model_Plunge.
From Verif Require Import Spec SpecElliptic Props_Trajectory Props_Schwarzschild.
Import ListNotations.
Open Scope R_scope.

(** adding an offset to a computed number; a failed computation stays failed *)
Definition shifted (d : R) (out : outcome (option R)) : outcome (option R) :=
  match out with Ret (Some y) => Ret (Some (y + d)) | Ret None => Ret None | other => other end.
(** the two calls agree except that t is shifted by [dt] and phi by [dphi], at every time,
    defined or not; if one call raises an error or fails, so does the other, in the same way *)
Definition offset_by (dt dphi : R) (o o' : outcome (@traj (option R) * @traj (option R) * @traj (option R) * @traj (option R))) : Prop :=
  match o, o' with
  | Ret (t, r, theta, phi), Ret (t', r', theta', phi') => forall l,
      t' l = shifted dt (t l) /\ r' l = r l /\ theta' l = theta l /\ phi' l = shifted dphi (phi l)
  | Raise x, Raise x' => x = x'
  | Undef, Undef => True
  | _, _ => False
  end.

Section S.
Context {X : External R}.

Lemma bind_offset {A} (m : outcome A) f g dt dphi : (forall v, offset_by dt dphi (f v) (g v)) -> offset_by dt dphi (bind m f) (bind m g).
Proof. intros H. destruct m; simpl; auto. Qed.

(** option arithmetic: an offset inside a sum comes out *)
Lemma sum_front (q d : R) (A B C D : option R) :
  nsub (nadd (nadd (nadd (Some (q + d)) A) B) C) D = match nsub (nadd (nadd (nadd (Some q) A) B) C) D with Some y => Some (y + d) | None => None end.
Proof. destruct A as [u|], B as [v|], C as [w|], D as [z|]; try reflexivity. cnum. f_equal. ring. Qed.
Lemma sum_back (q d : R) (A B C : option R) :
  nadd (nsub (nadd A B) C) (Some (q + d)) = match nadd (nsub (nadd A B) C) (Some q) with Some y => Some (y + d) | None => None end.
Proof. destruct A as [u|], B as [v|], C as [w|]; try reflexivity. cnum. f_equal. ring. Qed.
Lemma shifted_ret d (o : option R) : shifted d (Ret o) = Ret (match o with Some y => Some (y + d) | None => None end).
Proof. destruct o; reflexivity. Qed.

Lemma assemble_offset M du qt qr qth qph dt dphi ur ut up ga (f1 f2 f3 f4 f5 f6 : option R -> option R) :
  offset_by dt dphi
    (Ret (assemble_trajectory M du "natural" (Some qt, qr, qth, Some qph) ur ut up ga f1 f2 f3 f4 f5 f6))
    (Ret (assemble_trajectory M du "natural" (Some (qt + dt), qr, qth, Some (qph + dphi)) ur ut up ga f1 f2 f3 f4 f5 f6)).
Proof.
  unfold assemble_trajectory, offset_by. intros l.
  change (time_conversion "natural") with (@Ret (option R -> option (option R) -> option R) (fun d _ => d)). cbn [bind].
  refine (conj _ (conj eq_refl (conj eq_refl _))); rewrite shifted_ret, sum_front; reflexivity.
Qed.

(** ** C105 *)
Theorem C105_stable a p e x qt qr qth qph M distance_units dt dphi :
  offset_by dt dphi
    (stable_trajectory a p e x (Some qt, qr, qth, Some qph) M distance_units "natural")
    (stable_trajectory a p e x (Some (qt + dt), qr, qth, Some (qph + dphi)) M distance_units "natural").
Proof.
  unfold stable_trajectory. apply bind_offset. intros _. apply bind_offset. intros [[[ur ut] up] ga].
  apply bind_offset. intros c. apply bind_offset. intros rr. apply bind_offset. intros zz.
  destruct (radial_solutions a c rr) as [[f1 f2] f3]. apply bind_offset. intros [[f4 f5] f6].
  apply assemble_offset.
Qed.

Theorem C105_plunging a E L Q qt qr qth qph M distance_units dt dphi :
  offset_by dt dphi
    (plunging_trajectory a E L Q (Some qt, qr, qth, Some qph) M distance_units "natural")
    (plunging_trajectory a E L Q (Some (qt + dt), qr, qth, Some (qph + dphi)) M distance_units "natural").
Proof.
  unfold plunging_trajectory. apply bind_offset. intros [r1 r2 r3 r4|r1 r2 r3 r4].
  - unfold real_plunge_trajectory. apply bind_offset. intros _. apply bind_offset. intros [s1 s2 s3 s4|s1 s2 s3 s4]; [|exact Logic.I].
    apply bind_offset. intros zz. apply bind_offset. intros [[[ur ut] up] ga].
    destruct (radial_solutions a (E, L, Q) (s1, s2, s3, s4)) as [[f1 f2] f3]. apply bind_offset. intros [[f4 f5] f6]. apply assemble_offset.
  - unfold complex_plunge_trajectory. apply bind_offset. intros _. apply bind_offset. intros [ur ut].
    apply bind_offset. intros [[f1 f2] f3]. apply bind_offset. intros [[f4 f5] f6].
    intros l. change (time_conversion "natural") with (@Ret (option R -> option (option R) -> option R) (fun d _ => d)). cbn [bind].
    refine (conj _ (conj eq_refl (conj eq_refl _))); rewrite shifted_ret, sum_back; reflexivity.
Qed.
End S.

(** concrete case: the trajectories of [C70_case]'s orbit (defined at every time) move by 5 and by -1 *)
Example C105_case {X : External R} (HX : special_spec X) (HR : root_spec X) : exists t r theta phi,
  runs_as (stable_trajectory (Some 0) (Some 10) (Some (1/2)) (Some (1/2)) (Some 2, Some 0, Some 0, Some 3) None "natural" "natural") t r theta phi /\
  runs_as (stable_trajectory (Some 0) (Some 10) (Some (1/2)) (Some (1/2)) (Some (2 + 5), Some 0, Some 0, Some (3 + -1)) None "natural" "natural")
    (fun l => t l + 5) r theta (fun l => phi l + -1).
Proof.
  destruct (C70_case HX HR) as (ur & uth & uph & gam & HF & _).
  destruct (trajectory_defined HX HR 0 10 (1/2) (1/2) ur uth uph gam ltac:(lra) HF 2 0 0 3) as (t & r & theta & phi & H).
  exists t, r, theta, phi. split; [exact H|]. destruct H as (T1 & T2 & T3 & T4 & E & K).
  pose proof (C105_stable (Some 0) (Some 10) (Some (1/2)) (Some (1/2)) 2 (Some 0) (Some 0) 3 None "natural" 5 (-1)) as O.
  rewrite E in O. unfold offset_by in O.
  destruct (stable_trajectory (Some 0) (Some 10) (Some (1/2)) (Some (1/2)) (Some (2 + 5), Some 0, Some 0, Some (3 + -1)) None "natural" "natural") as [[[[S1 S2] S3] S4]| |] eqn:EE; try contradiction.
  exists S1, S2, S3, S4. split; [reflexivity|]. intros l. destruct (O (Some l)) as (-> & -> & -> & ->). destruct (K l) as (-> & -> & -> & ->). repeat split; reflexivity.
Qed.

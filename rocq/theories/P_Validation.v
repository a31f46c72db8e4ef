(** * Lemmas: the separatrix and the parameter checks on checked reals *)
From Coq Require Import Reals Lra ZArith String List FunctionalExtensionality.
From Coquelicot Require Import Coquelicot.
From Verif Require Import Num Outcome External Checked ExternalSpec Model_Units Model_Constants
  Model_Frequencies.
Import ListNotations.
Open Scope R_scope.

(** a defined result *)
Definition lift {A} (o : outcome A) : outcome (option A) :=
  match o with Ret x => Ret (Some x) | Raise e => Raise e | Undef => Undef end.

Section V.
Context {X : External R}.
Let CX : External (option R) := checked X.
Existing Instance CX.

Lemma S_polar_some p a e : S_polar (Some p) (Some a) (Some e) = Some (S_polar p a e).
Proof. reflexivity. Qed.
Lemma S_equatorial_some p a e : S_equatorial (Some p) (Some a) (Some e) = Some (S_equatorial p a e).
Proof. reflexivity. Qed.
Lemma S_full_some p a e x : S_full (Some p) (Some a) (Some e) (Some x) = Some (S_full p a e x).
Proof. reflexivity. Qed.

Lemma root_some f g l h : (forall r, f (Some r) = Some (g r)) ->
  root_scalar f (Some l) (Some h) = lift (root_scalar g l h).
Proof. intros H. apply (checked_root_total X f g l h H). Qed.

Definition in_range (a e x : R) : Prop := 0 <= a <= 1 /\ 0 <= e <= 1 /\ -1 <= x <= 1.
Lemma in_range_dec a e x : {in_range a e x} + {~ in_range a e x}.
Proof.
  unfold in_range.
  destruct (Rle_dec 0 a); [|right; lra]. destruct (Rle_dec a 1); [|right; lra].
  destruct (Rle_dec 0 e); [|right; lra]. destruct (Rle_dec e 1); [|right; lra].
  destruct (Rle_dec (-1) x); [|right; lra]. destruct (Rle_dec x 1); [|right; lra].
  left. lra.
Qed.
Lemma valid_params_some a e x :
  valid_params (Some a) (Some e) (Some x) = valid_params a e x.
Proof. reflexivity. Qed.
Lemma valid_params_true a e x : in_range a e x -> valid_params a e x = Some true.
Proof.
  intros [H1 [H2 H3]]. unfold valid_params. rnum.
  rewrite !Rleb_true by lra. reflexivity.
Qed.
Lemma valid_params_false a e x : ~ in_range a e x -> valid_params a e x = Some false.
Proof.
  intros H. unfold valid_params. rnum.
  destruct (Rleb_spec 0 a), (Rleb_spec a 1), (Rleb_spec 0 e), (Rleb_spec e 1),
    (Rleb_spec (Ropp 1) x), (Rleb_spec x 1); simpl; try reflexivity.
  exfalso; apply H; unfold in_range; lra.
Qed.

Lemma sqrt3 : 0 <= 3 + 2 * sqrt 3.
Proof. pose proof (sqrt_pos 3). lra. Qed.

Lemma separatrix_lift a e x :
  separatrix (Some a) (Some e) (Some x) = lift (separatrix a e x).
Proof.
  unfold separatrix.
  change (neqb (Some a) (nZ 1)) with (neqb a (nZ 1)).
  change (valid_params (Some a) (Some e) (Some x)) with (valid_params a e x).
  change (neqb (Some a) (nZ 0)) with (neqb a (nZ 0)).
  change (neqb (Some x) (nZ 0)) with (neqb x (nZ 0)).
  change (neqb (Some x) (nZ 1)) with (neqb x (nZ 1)).
  change (neqb (Some x) (- nZ 1)%num) with (neqb x (- nZ 1)%num).
  change (nltb (Some x) (nZ 0)) with (nltb x (nZ 0)).
  change (nltb (nZ 0) (Some x)) with (nltb (nZ 0) x).
  destruct (neqb a (nZ 1)) as [[]|]; cbn [ifo]; try reflexivity.
  destruct (in_range_dec a e x) as [Hr|Hr];
    [rewrite valid_params_true by assumption | rewrite valid_params_false by assumption; reflexivity].
  cbn [onot negb ifo].
  destruct (neqb a (nZ 0)) as [[]|]; cbn [ifo]; try reflexivity.
  destruct Hr as [Ha [He Hx]].
  assert (E1 : (nZ 1 + nsqrt (nZ 3) + nsqrt (nZ 3 + nZ 2 * nsqrt (nZ 3)))%num
          = Some (1 + sqrt 3 + sqrt (3 + 2 * sqrt 3))).
  { cnum. rewrite (csqrt_some 3) by lra. cnum. now rewrite csqrt_some by apply sqrt3. }
  rewrite E1.
  change (@nZ (option R) CNum 8) with (Some (nZ 8 : R)).
  rewrite (root_some _ (fun p => S_polar p a e)) by reflexivity.
  change (1 + sqrt 3 + sqrt (3 + 2 * sqrt 3)) with
    (@nZ R RNum 1 + nsqrt (nZ 3) + nsqrt (nZ 3 + nZ 2 * nsqrt (nZ 3)))%num.
  match goal with |- context [root_scalar (fun p => S_polar p a e) ?l ?h] =>
    destruct (root_scalar (fun p => S_polar p a e) l h) as [pp|er|]; cbn [bind lift]; try reflexivity end.
  destruct (neqb x (nZ 0)) as [[]|]; cbn [ifo]; try reflexivity.
  change (@nZ (option R) CNum 1 + Some e)%num with (Some (nZ 1 + e)%num).
  change (@nZ (option R) CNum 6 + nZ 2 * Some e)%num with (Some (nZ 6 + nZ 2 * e)%num).
  rewrite (root_some _ (fun p => S_equatorial p a e)) by reflexivity.
  destruct (root_scalar (fun p => S_equatorial p a e) (nZ 1 + e)%num (nZ 6 + nZ 2 * e)%num)
    as [pe|er|]; cbn [bind lift]; try reflexivity.
  destruct (neqb x (nZ 1)) as [[]|]; cbn [ifo]; try reflexivity.
  destruct (neqb x (- nZ 1)%num) as [[]|]; cbn [ifo].
  - assert (E2 : (nZ 5 + Some e + nZ 4 * nsqrt (Some (nZ 1 + e)))%num
             = Some (nZ 5 + e + nZ 4 * nsqrt (nZ 1 + e))%num).
    { cnum. rewrite csqrt_some by (rnum; lra). reflexivity. }
    rewrite E2. now apply root_some.
  - destruct (nltb (nZ 0) x) as [[]|]; cbn [ifo]; try reflexivity.
    + now apply root_some.
    + destruct (nltb x (nZ 0)) as [[]|]; cbn [ifo]; try reflexivity.
      change (@nZ (option R) CNum 12) with (Some (nZ 12 : R)). now apply root_some.
  - reflexivity.
Qed.

Lemma is_stable_some a p e x :
  is_stable (Some a) (Some p) (Some e) (Some x) = is_stable a p e x.
Proof.
  unfold is_stable. rewrite separatrix_lift.
  destruct (separatrix a e x); reflexivity.
Qed.

Lemma check_constants_some a p e x :
  check_constants_params (Some a) (Some p) (Some e) (Some x) = check_constants_params a p e x.
Proof.
  unfold check_constants_params. rewrite is_stable_some. reflexivity.
Qed.
Lemma check_frequency_some a p e x :
  check_frequency_params (Some a) (Some p) (Some e) (Some x) = check_frequency_params a p e x.
Proof.
  unfold check_frequency_params. rewrite is_stable_some. reflexivity.
Qed.

(** ** polynomials are continuous *)
Lemma cont_S_polar a e : continuity (fun p => S_polar p a e).
Proof. unfold S_polar. rnum. reg. Qed.
Lemma cont_S_equatorial a e : continuity (fun p => S_equatorial p a e).
Proof. unfold S_equatorial. rnum. reg. Qed.
Lemma cont_S_full a e x : continuity (fun p => S_full p a e x).
Proof. unfold S_full. rnum. reg. Qed.
End V.

Section Total.
Context {X : External R} (HX : root_spec X).

Lemma root_ok f l h : continuity f -> f l * f h <= 0 ->
  exists r, root_scalar f l h = Ret r /\ f r = 0 /\ Rmin l h <= r <= Rmax l h.
Proof. intros Hc Hs. now apply (HX f l h). Qed.
End Total.

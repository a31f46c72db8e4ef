(** * Results of Python calls: a value, an exception, or "unspecified".

    [Undef] is returned when control flow depends on a number the checked
    arithmetic calls undefined ([None]); no theorem concludes anything from it
    except where it says so. *)

From Coq Require Import String.
From Verif Require Import Num.

Inductive exn : Type :=
| ValueError (msg : string)
| TypeError
| KeyError
| IndexError
| LinAlgError
| UnboundLocalError
| ZeroDivisionError.

Inductive outcome (A : Type) : Type :=
| Ret (a : A)
| Raise (e : exn)
| Undef.
Arguments Ret {A} a.
Arguments Raise {A} e.
Arguments Undef {A}.

Definition bind {A B} (m : outcome A) (f : A -> outcome B) : outcome B :=
  match m with Ret a => f a | Raise e => Raise e | Undef => Undef end.

Declare Scope outcome_scope.
Delimit Scope outcome_scope with outcome.
Open Scope outcome_scope.
Notation "'do' x <- m ; k" := (bind m (fun x => k))
  (at level 200, x pattern, m at level 100, k at level 200,
   format "'do'  x  <-  m ;  '/' k") : outcome_scope.

(** Python [if] on a comparison. *)
Definition ifo {A} (c : option bool) (t e : outcome A) : outcome A :=
  match c with Some true => t | Some false => e | None => Undef end.
Notation "'If' c 'Then' t 'Else' e" := (ifo c t e)
  (at level 200, c at level 100, t at level 200, e at level 200,
   format "'If'  c  'Then'  '/' t  'Else'  '/' e") : outcome_scope.

(** Python [and], [or], [not] on comparisons (undefined if either part is). *)
Definition oand (a b : option bool) : option bool :=
  match a, b with Some x, Some y => Some (andb x y) | _, _ => None end.
Definition oor (a b : option bool) : option bool :=
  match a, b with Some x, Some y => Some (orb x y) | _, _ => None end.
Definition onot (a : option bool) : option bool :=
  match a with Some x => Some (negb x) | None => None end.

Definition is_ValueError {A} (o : outcome A) : Prop :=
  exists msg, o = Raise (ValueError msg).

(** Optional keyword argument [x=None] recomputed when missing. *)
Definition default {A} (o : option A) (d : outcome A) : outcome A :=
  match o with Some a => Ret a | None => d end.

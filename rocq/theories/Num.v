(** * Arithmetic interface of the model.

    The Python code computes with IEEE doubles.  Every numeric function of the
    model is written once, against the class [Num], and is then used at three
    carriers: exact reals ([RNum]), checked reals ([CNum], where an undefined
    operation is visible as [None]) and primitive floats ([FNum], in
    [FloatNum.v], only for running the model).

    Models: the arithmetic operators and the numpy functions imported in
    /repo/kerrgeopy/constants.py:4, frequencies.py:7, initial_conditions.py:9,
    stable.py:8, plunge.py:2, spacetime.py:3.
    Simplification: rounding, signed zeros, infinities and nan propagation are
    not modelled; on [CNum] every operation that would produce nan/inf or raise
    ZeroDivisionError yields [None], which is absorbing. *)

From Coq Require Import ZArith Reals Lra Ratan.
Open Scope R_scope.

Class Num (T : Type) := {
  nZ : Z -> T;                 (* integer literal *)
  nQ : Z -> positive -> T;     (* decimal literal, numerator / denominator *)
  nadd : T -> T -> T;
  nsub : T -> T -> T;
  nmul : T -> T -> T;
  ndiv : T -> T -> T;
  nopp : T -> T;
  npow : T -> nat -> T;        (* ** with a literal exponent *)
  nabs : T -> T;
  nsqrt : T -> T;
  nsign : T -> T;              (* numpy.sign *)
  ncopysign1 : T -> T;         (* numpy.copysign(1, .) *)
  nsin : T -> T;
  ncos : T -> T;
  nasin : T -> T;
  nacos : T -> T;
  natan : T -> T;
  natan2 : T -> T -> T;
  nlog : T -> T;
  nexp : T -> T;
  nfloor : T -> T;
  npi : T;
  nundef : T;                  (* nan *)
  neqb : T -> T -> option bool;
  nltb : T -> T -> option bool;
  nleb : T -> T -> option bool
}.

Declare Scope num_scope.
Delimit Scope num_scope with num.
Notation "x + y" := (nadd x y) : num_scope.
Notation "x - y" := (nsub x y) : num_scope.
Notation "x * y" := (nmul x y) : num_scope.
Notation "x / y" := (ndiv x y) : num_scope.
Notation "- x" := (nopp x) : num_scope.
Notation "x ^ n" := (npow x n%nat) : num_scope.
(* [# n] is the Python integer literal n *)
Notation "# n" := (nZ n%Z) (at level 1, n at level 0, format "# n") : num_scope.

(** Python's conditional expression / numpy.where on a comparison. *)
Definition nif {T} {N : Num T} (c : option bool) (a b : T) : T :=
  match c with Some true => a | Some false => b | None => nundef end.

(** Python/numpy [%] on floats with positive modulus. *)
Definition nmod {T} {N : Num T} (x y : T) : T :=
  (x - y * nfloor (x / y))%num.

Definition nsq {T} {N : Num T} (x : T) : T := npow x 2.

(** ** Exact reals *)

Definition Rsgn (x : R) : R :=
  if Rlt_dec 0 x then 1 else if Rlt_dec x 0 then -1 else 0.
Definition Rcopysign1 (x : R) : R := if Rlt_dec x 0 then -1 else 1.
Definition Ratan2 (y x : R) : R :=
  if Rlt_dec 0 x then atan (y / x)
  else if Rlt_dec x 0 then
    (if Rle_dec 0 y then atan (y / x) + PI else atan (y / x) - PI)
  else if Rlt_dec 0 y then PI / 2
  else if Rlt_dec y 0 then - (PI / 2) else 0.
Definition Rfloor (x : R) : R := IZR (Int_part x).
Definition Reqb (x y : R) : bool := if Req_EM_T x y then true else false.
Definition Rltb (x y : R) : bool := if Rlt_dec x y then true else false.
Definition Rleb (x y : R) : bool := if Rle_dec x y then true else false.

#[global] Instance RNum : Num R := {
  nZ := IZR;
  nQ n d := IZR n / IZR (Zpos d);
  nadd := Rplus;
  nsub := Rminus;
  nmul := Rmult;
  ndiv := Rdiv;
  nopp := Ropp;
  npow := pow;
  nabs := Rabs;
  nsqrt := sqrt;
  nsign := Rsgn;
  ncopysign1 := Rcopysign1;
  nsin := sin;
  ncos := cos;
  nasin := asin;
  nacos := acos;
  natan := atan;
  natan2 := Ratan2;
  nlog := ln;
  nexp := exp;
  nfloor := Rfloor;
  npi := PI;
  nundef := 0;
  neqb x y := Some (Reqb x y);
  nltb x y := Some (Rltb x y);
  nleb x y := Some (Rleb x y)
}.

(** ** Checked reals *)

Definition c1 (f : R -> R) (x : option R) : option R :=
  match x with Some a => Some (f a) | None => None end.
Definition c2 {A} (f : R -> R -> A) (x y : option R) : option A :=
  match x, y with Some a, Some b => Some (f a b) | _, _ => None end.
Definition cdiv (x y : option R) : option R :=
  match x, y with
  | Some a, Some b => if Req_EM_T b 0 then None else Some (a / b)
  | _, _ => None
  end.
Definition csqrt (x : option R) : option R :=
  match x with
  | Some a => if Rle_dec 0 a then Some (sqrt a) else None
  | None => None
  end.
(* arcsin / arccos: nan outside [-1,1] *)
Definition cunit (f : R -> R) (x : option R) : option R :=
  match x with
  | Some a => if Rle_dec (-1) a then if Rle_dec a 1 then Some (f a) else None else None
  | None => None
  end.
Definition clog (x : option R) : option R :=
  match x with
  | Some a => if Rlt_dec 0 a then Some (ln a) else None
  | None => None
  end.

#[global] Instance CNum : Num (option R) := {
  nZ n := Some (IZR n);
  nQ n d := Some (IZR n / IZR (Zpos d));
  nadd := c2 Rplus;
  nsub := c2 Rminus;
  nmul := c2 Rmult;
  ndiv := cdiv;
  nopp := c1 Ropp;
  npow x n := c1 (fun a => pow a n) x;
  nabs := c1 Rabs;
  nsqrt := csqrt;
  nsign := c1 Rsgn;
  ncopysign1 := c1 Rcopysign1;
  nsin := c1 sin;
  ncos := c1 cos;
  nasin := cunit asin;
  nacos := cunit acos;
  natan := c1 atan;
  natan2 := c2 Ratan2;
  nlog := clog;
  nexp := c1 exp;
  nfloor := c1 Rfloor;
  npi := Some PI;
  nundef := None;
  neqb := c2 Reqb;
  nltb := c2 Rltb;
  nleb := c2 Rleb
}.

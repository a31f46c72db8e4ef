(** * External library functions used by the code (class of oracles).

    scipy.special: /repo/kerrgeopy/frequencies.py:6, stable.py:6, plunge.py:5,
    initial_conditions.py:11.  scipy.optimize.root_scalar: constants.py:5.
    numpy.polynomial.Polynomial.roots: constants.py:9.
    numpy.linalg.solve: initial_conditions.py:50. *)

From Coq Require Import ZArith List String.
From Verif Require Import Num Outcome.

Class External (T : Type) := {
  ellipk : T -> T;                       (* scipy.special.ellipk(m) *)
  ellipe : T -> T;                       (* scipy.special.ellipe(m) *)
  ellipkinc : T -> T -> T;               (* scipy.special.ellipkinc(phi, m) *)
  ellipeinc : T -> T -> T;               (* scipy.special.ellipeinc(phi, m) *)
  ellipj : T -> T -> T * T * T * T;      (* scipy.special.ellipj(u, m) = sn, cn, dn, ph *)
  elliprf : T -> T -> T -> T;            (* scipy.special.elliprf *)
  elliprd : T -> T -> T -> T;            (* scipy.special.elliprd *)
  elliprj : T -> T -> T -> T -> T;       (* scipy.special.elliprj *)
  (* root_scalar(f, bracket=[lo, hi]).root *)
  root_scalar : (T -> T) -> T -> T -> outcome T;
  (* Polynomial(c0, c1, ...).roots(): sorted list of (real part, imaginary part) *)
  polyroots : list T -> list (T * T)
}.

(** numpy.linalg.solve for a 2x2 system (Cramer's rule; exactly singular
    matrices raise LinAlgError).  initial_conditions.py:40-50 *)
Definition solve2 {T} {N : Num T} (a11 a12 a21 a22 b1 b2 : T) : outcome (T * T) :=
  let det := (a11 * a22 - a12 * a21)%num in
  If neqb det (nZ 0) Then Raise LinAlgError
  Else Ret ((b1 * a22 - a12 * b2) / det, (a11 * b2 - b1 * a21) / det)%num.

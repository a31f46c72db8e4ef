(** * Model of /repo/kerrgeopy/constants.py *)

From Coq Require Import ZArith List String.
From Verif Require Import Num Outcome External Model_Units.
Import ListNotations.
Open Scope num_scope.
Open Scope outcome_scope.

Definition msg_extreme : string := "Extreme Kerr not supported".
Definition msg_range : string := "a^2, e and x^2 must be between 0 and 1".
Definition msg_unstable : string := "Not a stable orbit".

(** Result of [plunging_radial_roots]: Python returns a 4-tuple whose last two
    entries are either real or complex numbers. *)
Inductive radial_roots (T : Type) : Type :=
| RealRoots (r1 r2 r3 r4 : T)
| ComplexRoots (r1 r2 : T) (r3 r4 : T * T).
Arguments RealRoots {T}.
Arguments ComplexRoots {T}.

Section Constants.
Context {T : Type} {N : Num T} {X : External T}.

(* constants.py:74-82 (also 464-472, initial_conditions.py:92-100, 192-200):
   coefficients of the radial polynomial, lowest degree first *)
Definition radial_poly (a E L Q : T) : list T :=
  [ - a^2 * Q;
    #2 * L^2 + #2 * Q + #2 * a^2 * E^2 - #4 * a * E * L;
    a^2 * E^2 - L^2 - Q - a^2;
    #2;
    E^2 - #1 ].

(* constants.py:478 (also frequencies.py:515, initial_conditions.py:184,
   plunge.py:656): polar polynomial in z = cos^2(theta) *)
Definition polar_poly (a E L Q : T) : list T :=
  [ Q; - (Q + a^2 * (#1 - E^2) + L^2); a^2 * (#1 - E^2) ].

(* constants.py:145-169 *)
Definition coefficients (r a x : T) : T * T * T * T :=
  let z := nsqrt (#1 - x^2) in
  let delta := r^2 - #2 * r + a^2 in
  let f := r^4 + a^2 * (r * (r + #2) + z^2 * delta) in
  let g := #2 * a * r in
  let h := r * (r - #2) + z^2 / (#1 - z^2) * delta in
  let d := (r^2 + a^2 * z^2) * delta in
  (f, g, h, d).

(* constants.py:172-195 *)
Definition coefficients_derivative (r a x : T) : T * T * T * T :=
  let z := nsqrt (#1 - x^2) in
  let f := #4 * r^3 + #2 * a^2 * ((#1 + z^2) * r + (#1 - z^2)) in
  let g := #2 * a in
  let h := #2 * (r - #1) / (#1 - z^2) in
  let d := #2 * (#2 * r - #3) * r^2 + #2 * a^2 * ((#1 + z^2) * r - z^2) in
  (f, g, h, d).

(* constants.py:198-213 *)
Definition standardize_params (a x : T) : T * T := (nabs a, x * ncopysign1 a).

(* constants.py:491-516 *)
Definition S_polar (p a e : T) : T :=
  p^5 * (- #6 - #2 * e + p)
  + a^2 * p^3 * (- #4 * (- #1 + e) * (#1 + e)^2 + (#3 + e * (#2 + #3 * e)) * p)
  - a^4 * (#1 + e)^2 * p
    * (#6 + #2 * e^3 + #2 * e * (- #1 + p) - #3 * p - #3 * e^2 * (#2 + p))
  + a^6 * (- #1 + e)^2 * (#1 + e)^4.

(* constants.py:519-540 *)
Definition S_equatorial (p a e : T) : T :=
  a^4 * (- #3 - #2 * e + e^2)^2
  + p^2 * (- #6 - #2 * e + p)^2
  - #2 * a^2 * (#1 + e) * p * (#14 + #2 * e^2 + #3 * p - e * p).

(* constants.py:543-589 *)
Definition S_full (p a e x : T) : T :=
  - #4 * (#3 + e) * p^11 + p^12 + a^12 * (- #1 + e)^4 * (#1 + e)^8 * (- #1 + x)^4 * (#1 + 
  x)^4 - #4 * a^10 * (- #3 + e) * (- #1 + e)^3 * (#1 + e)^7 * p * (- #1 + x^2)^4 - #4 * 
  a^8 * (- #1 + e) * (#1 + e)^5 * p^3 * (- #1 + x)^3 * (#1 + x)^3 * (#7 - #7 * x^2 - e^2 
  * (- #13 + x^2) + e^3 * (- #5 + x^2) + #7 * e * (- #1 + x^2)) + #8 * a^6 * (- #1 + e) * 
  (#1 + e)^3 * p^5 * (- #1 + x^2)^2 * (#3 + e + #12 * x^2 + #4 * e * x^2 + e^3 * (- #5 + 
  #2 * x^2) + e^2 * (#1 + #2 * x^2)) - #8 * a^4 * (#1 + e)^2 * p^7 * (- #1 + x) * (#1 + 
  x) * (- #3 + e + #15 * x^2 - #5 * e * x^2 + e^3 * (- #5 + #3 * x^2) + e^2 * (- #1 + #3 
  * x^2)) + #4 * a^2 * p^9 * (- #7 - #7 * e + e^3 * (- #5 + #4 * x^2) + e^2 * (- #13 + 
  #12 * x^2)) + #2 * a^8 * (- #1 + e)^2 * (#1 + e)^6 * p^2 * (- #1 + x^2)^3 * (#2 * (- #3 
  + e)^2 * (- #1 + x^2) + a^2 * (e^2 * (- #3 + x^2) - #3 * (#1 + x^2) + #2 * e * (#1 + 
  x^2))) - #2 * p^10 * (- #2 * (#3 + e)^2 + a^2 * (- #3 + #6 * x^2 + e^2 * (- #3 + #2 * 
  x^2) + e * (- #2 + #4 * x^2))) + a^6 * (#1 + e)^4 * p^4 * (- #1 + x^2)^2 * (- #16 * (- 
  #1 + e)^2 * (- #3 - #2 * e + e^2) * (- #1 + x^2) + a^2 * (#15 + #6 * x^2 + #9 * x^4 + 
  e^2 * (#26 + #20 * x^2 - #2 * x^4) + e^4 * (#15 - #10 * x^2 + x^4) + #4 * e^3 * (- #5 - 
  #2 * x^2 + x^4) - #4 * e * (#5 + #2 * x^2 + #3 * x^4))) - #4 * a^4 * (#1 + e)^2 * p^6 * 
  (- #1 + x) * (#1 + x) * (- #2 * (#11 - #14 * e^2 + #3 * e^4) * (- #1 + x^2) + a^2 * (#5 
  - #5 * x^2 - #9 * x^4 + #4 * e^3 * x^2 * (- #2 + x^2) + e^4 * (#5 - #5 * x^2 + x^4) + 
  e^2 * (#6 - #6 * x^2 + #4 * x^4))) + a^2 * p^8 * (- #16 * (#1 + e)^2 * (- #3 + #2 * e + 
  e^2) * (- #1 + x^2) + a^2 * (#15 - #36 * x^2 + #30 * x^4 + e^4 * (#15 - #20 * x^2 + #6 
  * x^4) + #4 * e^3 * (#5 - #12 * x^2 + #6 * x^4) + #4 * e * (#5 - #12 * x^2 + #10 * x^4) 
  + e^2 * (#26 - #72 * x^2 + #44 * x^4))).

(* constants.py:708-726 *)
Definition valid_params (a e x : T) : option bool :=
  oand (oand (nleb #0 a) (nleb a #1))
       (oand (oand (nleb #0 e) (nleb e #1))
             (oand (nleb (- #1) x) (nleb x #1))).

(* constants.py:592-646.  The implicit "return None" after the last test cannot
   be reached by a comparable x and is left unspecified. *)
Definition separatrix (a e x : T) : outcome T :=
  If neqb a #1 Then Raise (ValueError msg_extreme) Else
  If onot (valid_params a e x) Then Raise (ValueError msg_range) Else
  If neqb a #0 Then Ret (#6 + #2 * e) Else
  do p_polar <- root_scalar (fun p => S_polar p a e)
                  (#1 + nsqrt #3 + nsqrt (#3 + #2 * nsqrt #3)) #8;
  If neqb x #0 Then Ret p_polar Else
  do p_equatorial_prograde <- root_scalar (fun p => S_equatorial p a e)
                  (#1 + e) (#6 + #2 * e);
  If neqb x #1 Then Ret p_equatorial_prograde Else
  If neqb x (- #1) Then
    root_scalar (fun p => S_equatorial p a e) (#6 + #2 * e) (#5 + e + #4 * nsqrt (#1 + e))
  Else
  If nltb #0 x Then root_scalar (fun p => S_full p a e x) p_equatorial_prograde p_polar Else
  If nltb x #0 Then root_scalar (fun p => S_full p a e x) p_polar #12 Else
  Undef.

(* constants.py:685-705 *)
Definition is_stable (a p e x : T) : outcome bool :=
  do s <- separatrix a e x;
  If nltb s p Then Ret true Else Ret false.

(* constants.py:236-241 = 324-329 = 381-386: common prologue of the constants
   functions (a and x already standardised) *)
Definition check_constants_params (a p e x : T) : outcome unit :=
  If neqb a #1 Then Raise (ValueError msg_extreme) Else
  If onot (valid_params a e x) Then Raise (ValueError msg_range) Else
  do st <- is_stable a p e x;
  if st then Ret tt else Raise (ValueError msg_unstable).

(* constants.py:250-266 *)
Definition polar_energy (a p e : T) : T :=
  nsqrt (- (p * (a^4 * (- #1 + e^2)^2 + (- #4 * e^2 + (- #2 + p)^2) * p^2
                 + #2 * a^2 * p * (- #2 + p + e^2 * (#2 + p)))
            / (a^4 * (- #1 + e^2)^2 * (- #1 + e^2 - p) + (#3 + e^2 - p) * p^4
               - #2 * a^2 * p^2 * (- #1 - e^4 + p + e^2 * (#2 + p))))).

(* constants.py:391-405 *)
Definition polar_carter (a p e : T) : T :=
  - (p^2 * (a^4 * (- #1 + e^2)^2 + p^4 + #2 * a^2 * p * (- #2 + p + e^2 * (#2 + p)))
     / (a^4 * (- #1 + e^2)^2 * (- #1 + e^2 - p) + (#3 + e^2 - p) * p^4
        - #2 * a^2 * p^2 * (- #1 - e^4 + p + e^2 * (#2 + p)))).

(* constants.py:280-297: equations B.19-B.22 *)
Definition schmidt_energy (c1 c2 : T * T * T * T) (x : T) : T :=
  let '(f1, g1, h1, d1) := c1 in
  let '(f2, g2, h2, d2) := c2 in
  let kappa := d1 * h2 - h1 * d2 in
  let rho := f1 * h2 - h1 * f2 in
  let sigma := g1 * h2 - h1 * g2 in
  let epsilon := d1 * g2 - g1 * d2 in
  let eta := f1 * g2 - g1 * f2 in
  nsqrt ((kappa * rho + #2 * epsilon * sigma
          - nsign x * #2
            * nsqrt (sigma * (sigma * epsilon^2 + rho * epsilon * kappa - eta * kappa^2)))
         / (rho^2 + #4 * eta * sigma)).

(* constants.py:216-297 *)
Definition energy (a0 p e x0 : T) : outcome T :=
  let '(a, x) := standardize_params a0 x0 in
  do _ <- check_constants_params a p e x;
  If neqb e #1 Then Ret #1 Else
  If neqb x #0 Then Ret (polar_energy a p e) Else
  If neqb e #0 Then
    Ret (schmidt_energy (coefficients p a x) (coefficients_derivative p a x) x)
  Else
    Ret (schmidt_energy (coefficients (p / (#1 - e)) a x) (coefficients (p / (#1 + e)) a x) x).

(* constants.py:344 and 351: equation B.17 solved for L *)
Definition schmidt_L (c : T * T * T * T) (x E : T) : T :=
  let '(f, g, h, d) := c in
  (- E * g + nsign x * nsqrt (- d * h + E^2 * (g^2 + f * h))) / h.

(* constants.py:300-351 *)
Definition angular_momentum (a0 p e x0 : T) (E0 : option T) : outcome T :=
  let '(a, x) := standardize_params a0 x0 in
  do _ <- check_constants_params a p e x;
  do E <- default E0 (energy a p e x);
  If neqb x #0 Then Ret #0 Else
  If neqb e #1 Then Ret (schmidt_L (coefficients (p / (#1 + e)) a x) x E)
  Else Ret (schmidt_L (coefficients (p / (#1 - e)) a x) x E).

(* constants.py:354-414 *)
Definition carter_constant (a0 p e x0 : T) (E0 L0 : option T) : outcome T :=
  let '(a, x) := standardize_params a0 x0 in
  do _ <- check_constants_params a p e x;
  If neqb x #0 Then Ret (polar_carter a p e) Else
  let z := nsqrt (#1 - x^2) in
  do E <- default E0 (energy a p e x);
  do L <- default L0 (angular_momentum a p e x (Some E));
  Ret (z^2 * (a^2 * (#1 - E^2) + L^2 / (#1 - z^2))).

(* constants.py:417-440 *)
Definition constants_of_motion (a p e x : T) : outcome (T * T * T) :=
  do E <- energy a p e x;
  do L <- angular_momentum a p e x (Some E);
  do Q <- carter_constant a p e x (Some E) (Some L);
  Ret (E, L, Q).

(* constants.py:12-48 *)
Definition stable_radial_roots (a p e x : T) (constants : option (T * T * T))
  : outcome (T * T * T * T) :=
  do c <- default constants (constants_of_motion a p e x);
  let '(E, L, Q) := c in
  let r1 := p / (#1 - e) in
  let r2 := p / (#1 + e) in
  let A_plus_B := #2 / (#1 - E^2) - r1 - r2 in
  let AB := a^2 * Q / (r1 * r2 * (#1 - E^2)) in
  let r3 := (A_plus_B + nsqrt (A_plus_B^2 - #4 * AB)) / #2 in
  let r4 := AB / r3 in
  Ret (r1, r2, r3, r4).

(* constants.py:110-142 *)
Definition stable_polar_roots (a p e x : T) (constants : option (T * T * T))
  : outcome (T * T) :=
  do c <- default constants (constants_of_motion a p e x);
  let '(E, L, Q) := c in
  let epsilon0 := a^2 * (#1 - E^2) / L^2 in
  let z_minus := #1 - x^2 in
  If neqb a #0 Then Ret (z_minus, nundef)
  Else Ret (z_minus, #1 + #1 / (epsilon0 * (#1 - z_minus))).

(** numpy.isreal / numpy.iscomplex on the roots (imaginary part == 0 / != 0),
    keeping order.  [None]: undecidable on undefined numbers. *)
Fixpoint split_roots (rs : list (T * T)) : option (list T * list (T * T)) :=
  match rs with
  | [] => Some ([], [])
  | (re, im) :: tl =>
      match neqb im #0, split_roots tl with
      | Some true, Some (xs, cs) => Some (re :: xs, cs)
      | Some false, Some (xs, cs) => Some (xs, (re, im) :: cs)
      | _, _ => None
      end
  end.

(* constants.py:51-107.  The roots returned by numpy are already sorted, so
   np.sort on the real ones is the identity.  UnboundLocalError: neither branch
   assigned r1 (line 107). *)
Definition plunging_radial_roots (a E L Q : T) : outcome (radial_roots T) :=
  match split_roots (polyroots (radial_poly a E L Q)) with
  | None => Undef
  | Some (real_roots, complex_roots) =>
      let r_minus := #1 - nsqrt (#1 - a^2) in
      match real_roots with
      | [x0; x1; x2; x3] =>
          If nltb r_minus x1 Then Ret (RealRoots x1 x0 x3 x2)
          Else Ret (RealRoots x3 x2 x1 x0)
      | [x0; x1] =>
          match complex_roots with
          | [c3; c4] => Ret (ComplexRoots x0 x1 c3 c4)
          | _ => Raise (ValueError "unpack")
          end
      | _ => Raise UnboundLocalError
      end
  end.

(** Unpacking of a root array whose entries are all real; complex entries would
    continue in complex arithmetic, which is not modelled. *)
Definition real_of_roots (rs : list (T * T)) : outcome (list T) :=
  match split_roots rs with
  | Some (xs, []) => Ret xs
  | _ => Undef
  end.
Definition unpack4 (xs : list T) : outcome (T * T * T * T) :=
  match xs with
  | [x0; x1; x2; x3] => Ret (x0, x1, x2, x3)
  | _ => Raise (ValueError "unpack")
  end.
Definition unpack2 (xs : list T) : outcome (T * T) :=
  match xs with
  | [x0; x1] => Ret (x0, x1)
  | _ => Raise (ValueError "unpack")
  end.
Definition polar_roots_of (a E L Q : T) : outcome (T * T) :=
  do zs <- real_of_roots (polyroots (polar_poly a E L Q));
  If neqb a #0 Then
    match zs with
    | [] => Raise IndexError
    | z :: _ => Ret (z, z)
    end
  Else unpack2 zs.

(* constants.py:443-488 *)
Definition apex_from_constants (a E L Q : T) : outcome (T * T * T * T) :=
  do rs <- real_of_roots (polyroots (radial_poly a E L Q));
  do r <- unpack4 rs;
  let '(r4, r3, r2, r1) := r in
  do z <- polar_roots_of a E L Q;
  let '(z_minus, z_plus) := z in
  Ret (a, #2 * r1 * r2 / (r1 + r2), (r1 - r2) / (r1 + r2), nsign L * nsqrt (#1 - z_minus)).

(* constants.py:729-746 *)
Definition scale_constants (constants : T * T * T) (M mu : T) : T * T * T :=
  let '(E, L, Q) := constants in
  let M := mass_in_kg M in
  (E * mu, L * mu * M, Q * mu^2 * M^2).

(* constants.py:649-682: the table handed to the interpolator.  numpy.meshgrid
   (default indexing "xy") gives E[j,i] = e[i], X[j,i] = x[j].  [le], [lx] are the
   two linspace vectors of lengths num_e_pts and num_x_pts; the spline itself is
   scipy's and not modelled. *)
Definition meshgrid_E (le lx : list T) (row col : nat) : option T := nth_error le col.
Definition meshgrid_X (le lx : list T) (row col : nat) : option T := nth_error lx row.
Definition fast_separatrix_entry (a : T) (le lx : list T) (i j : nat) : outcome T :=
  match meshgrid_E le lx j i, meshgrid_X le lx j i with
  | Some e, Some x => separatrix a e x
  | _, _ => Raise IndexError
  end.
(* numpy.linspace(lo, hi, n) *)
Definition linspace (lo hi : T) (n : nat) : list T :=
  match n with
  | 0%nat => []
  | 1%nat => [lo]
  | _ => map (fun k => lo + nZ (Z.of_nat k) * ((hi - lo) / nZ (Z.of_nat (n - 1)))) (seq 0 n)
  end.
(* rows of P for a grid with num_e_pts x num_x_pts points *)
Definition fast_separatrix_table (a : T) (num_e_pts num_x_pts : nat) (i j : nat) : outcome T :=
  fast_separatrix_entry a (linspace #0 #1 num_e_pts) (linspace (- #1) #1 num_x_pts) i j.

End Constants.

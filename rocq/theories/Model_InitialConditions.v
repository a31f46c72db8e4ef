(** * Model of /repo/kerrgeopy/initial_conditions.py *)

From Coq Require Import ZArith List String.
From Verif Require Import Num Outcome External Model_Units Model_Constants Model_Frequencies.
Import ListNotations.
Open Scope num_scope.
Open Scope outcome_scope.

Definition msg_unphysical : string := "Not a physical orbit".

Section InitialConditions.
Context {T : Type} {N : Num T} {X : External T}.

Definition pos := (T * T * T * T)%type.   (* t, r, theta, phi *)

(* initial_conditions.py:36-56 *)
Definition constants_from_initial_conditions (a : T) (position velocity : pos)
  : outcome (T * T * T) :=
  let '(t0, r0, theta0, phi0) := position in
  let '(dt0, dr0, dtheta0, dphi0) := velocity in
  let sigma := r0^2 + a^2 * (ncos theta0)^2 in
  let delta := r0^2 - #2 * r0 + a^2 in
  do EL <- solve2 ((r0^2 + a^2)^2 / delta - a^2 * (#1 - (ncos theta0)^2))
                  (a - a * (r0^2 + a^2) / delta)
                  (a * (r0^2 + a^2) / delta - a)
                  (#1 / (#1 - (ncos theta0)^2) - a^2 / delta)
                  (sigma * dt0) (sigma * dphi0);
  let '(E, L) := EL in
  let Q := ((sigma * dtheta0 * nsin theta0)^2
            + (ncos theta0)^2 * (a^2 * (#1 - E^2) * (#1 - (ncos theta0)^2) + L^2))
           / (#1 - (ncos theta0)^2) in
  Ret (E, L, Q).

(* tol=1e-4, initial_conditions.py:61, 138, 270 *)
Definition default_tol : T := nQ 1 10000.

(* initial_conditions.py:61-127 *)
Definition ic_is_stable (a : T) (position velocity : pos) (constants : option (T * T * T))
    (tol : T) : outcome bool :=
  let '(t0, r0, theta0, phi0) := position in
  do c <- default constants (constants_from_initial_conditions a position velocity);
  let '(E, L, Q) := c in
  match split_roots (polyroots (radial_poly a E L Q)) with
  | None => Undef
  | Some (real_roots, complex_roots) =>
      let r_minus := #1 - nsqrt (#1 - a^2) in
      if Nat.eqb (List.length complex_roots) 4 then Raise (ValueError msg_unphysical) else
      if Nat.eqb (List.length complex_roots) 2 then Ret false else
      do r <- unpack4 real_roots;
      let '(r4, r3, r2, r1) := r in
      If oand (oand (nltb r2 r_minus) (nleb r0 (r1 + tol))) (nleb (r2 - tol) r0)
      Then Ret false Else
      If oand (oand (nltb r_minus r2) (nleb r0 (r1 + tol))) (nleb (r2 - tol) r0)
      Then Ret true Else
      If oand (oand (nltb r_minus r2) (nleb r0 (r3 + tol))) (nleb (r4 - tol) r0)
      Then Ret false Else
      Raise (ValueError msg_unphysical)
  end.

(* initial_conditions.py:217-230: the radial phase away from turning points
   (equations 13, 26, 24) *)
Definition radial_phase (E r0 dr0 : T) (r1 r2 r3 r4 upsilon_r : T) : outcome T :=
  let k_r := nsqrt ((r1 - r2) * (r3 - r4) / ((r1 - r3) * (r2 - r4))) in
  let y_r := nsqrt ((r1 - r3) * (r0 - r2) / ((r1 - r2) * (r0 - r3))) in
  let lambda_r0 := #1 / nsqrt (#1 - E^2) * #2 / nsqrt ((r1 - r3) * (r2 - r4))
                   * ellipkinc (nasin y_r) (k_r^2) in
  If nltb #0 dr0 Then Ret (lambda_r0 * upsilon_r)
  Else Ret (#2 * npi - lambda_r0 * upsilon_r).

(* initial_conditions.py:255-261: the three successive ifs; q_theta0 unassigned
   when dtheta0 is not comparable *)
Definition polar_phase (theta0 dtheta0 lambda_theta0 upsilon_theta : T) : outcome T :=
  If nleb #0 dtheta0 Then Ret (npi / #2 - lambda_theta0 * upsilon_theta) Else
  If oand (neqb dtheta0 #0) (neqb theta0 (npi / #2)) Then Ret #0 Else
  If nltb dtheta0 #0 Then Ret (lambda_theta0 * upsilon_theta + #3 * npi / #2)
  Else Raise UnboundLocalError.

(* initial_conditions.py:130-266 *)
Definition stable_orbit_initial_phases (a : T) (position velocity : pos)
    (constants : option (T * T * T)) (radial_roots : option (T * T * T * T))
    (upsilon_r upsilon_theta : option T) (tol : T) : outcome pos :=
  let '(t0, r0, theta0, phi0) := position in
  let '(dt0, dr0, dtheta0, dphi0) := velocity in
  do c <- default constants (constants_from_initial_conditions a position velocity);
  let '(E, L, Q) := c in
  do zz <- polar_roots_of a E L Q;
  let '(z_minus, z_plus) := zz in
  (* rr: the tuple named radial_roots afterwards (ascending when recomputed);
     (r1,r2,r3,r4): the unpacked names *)
  do rrs <- match radial_roots with
            | None =>
                do rs <- real_of_roots (polyroots (radial_poly a E L Q));
                do r <- unpack4 rs;
                let '(r4, r3, r2, r1) := r in Ret (r, (r1, r2, r3, r4))
            | Some rr => Ret (rr, rr)
            end;
  let '(rr, (r1, r2, r3, r4)) := rrs in
  do q_r0 <-
    If nltb (nabs (r0 - r2)) tol Then Ret #0 Else
    If nltb (nabs (r0 - r1)) tol Then Ret npi Else
    (do ur <- default upsilon_r (Ret (r_frequency_from_constants c rr));
     radial_phase E r0 dr0 r1 r2 r3 r4 ur);
  let theta_min := nacos (nsqrt z_minus) in
  let theta_max := npi - theta_min in
  do q_theta0 <-
    If nltb (nabs (theta0 - theta_min)) tol Then Ret #0 Else
    If nltb (nabs (theta0 - theta_max)) tol Then Ret npi Else
    (do ut <- default upsilon_theta (theta_frequency_from_constants a c rr zz);
     let k_theta := nsqrt (z_minus / z_plus) in
     let y_theta := ncos theta0 / nsqrt z_minus in
     let e0zp := e0zp_of a E L z_minus in
     let lambda_theta0 := #1 / (L * nsqrt e0zp) * ellipkinc (nasin y_theta) (k_theta^2) in
     polar_phase theta0 dtheta0 lambda_theta0 ut);
  Ret (t0, q_r0, q_theta0, phi0).

(* initial_conditions.py:269-383 *)
Definition plunging_orbit_initial_phases (a : T) (position velocity : pos)
    (constants : option (T * T * T)) (roots0 : option (radial_roots T)) (tol : T)
  : outcome pos :=
  let '(t0, r0, theta0, phi0) := position in
  let '(dt0, dr0, dtheta0, dphi0) := velocity in
  do c <- default constants (constants_from_initial_conditions a position velocity);
  let '(E, L, Q) := c in
  do roots <- default roots0 (plunging_radial_roots a E L Q);
  match roots with
  | ComplexRoots r1 r2 r3 r4 =>
      let z1 := plunge_z1 a E L Q in
      let z2 := plunge_z2 a E L Q in
      let k_theta := plunge_k_theta a E L Q in
      let rho_r := fst r3 in
      let rho_i := snd r4 in
      let A := plunge_A r1 r2 rho_r rho_i in
      let B := plunge_B r1 r2 rho_r rho_i in
      let k_r := nsqrt (((r2 - r1)^2 - (A - B)^2) / (#4 * A * B)) in
      let lambda_r0 := - #1 / nsqrt ((#1 - E^2) * A * B)
        * ellipkinc (npi / #2 - nasin ((B * (r2 - r0) - A * (r0 - r1))
                                       / (B * (r2 - r0) + A * (r0 - r1)))) (k_r^2) in
      let lambda_theta0 := #1 / z2 * ellipkinc (nasin (ncos theta0 / z1)) (k_theta^2) in
      do ups <- plunging_mino_frequencies a E L Q;
      let '(upsilon_r, upsilon_theta) := ups in
      do q_r0 <- If nltb #0 dr0 Then Ret (- lambda_r0 * upsilon_r)
                 Else Ret (#2 * npi + lambda_r0 * upsilon_r);
      do q_theta0 <- polar_phase theta0 dtheta0 lambda_theta0 upsilon_theta;
      Ret (t0, q_r0, q_theta0, phi0)
  | RealRoots r1 r2 r3 r4 =>
      stable_orbit_initial_phases a position velocity (Some c) (Some (r1, r2, r3, r4))
        None None tol
  end.

End InitialConditions.

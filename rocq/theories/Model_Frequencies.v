(** * Model of /repo/kerrgeopy/frequencies.py *)

From Coq Require Import ZArith List String.
From Verif Require Import Num Outcome External Model_Units Model_Constants.
Import ListNotations.
Open Scope num_scope.
Open Scope outcome_scope.

Definition msg_polar : string := "Polar orbits not supported".
Definition msg_marginal : string := "Marginally bound orbits not supported".

Section Frequencies.
Context {T : Type} {N : Num T} {X : External T}.

(* frequencies.py:10-40 (scalar phi) *)
Definition ellipeinc_ (phi m : T) : T :=
  let num_cycles := nfloor (phi / (npi / #2)) in
  let phi := nabs (nasin (nsin phi)) in
  let integral := nsin phi * elliprf ((ncos phi)^2) (#1 - m * (nsin phi)^2) #1
                  - #1 / #3 * m * (nsin phi)^3
                    * elliprd ((ncos phi)^2) (#1 - m * (nsin phi)^2) #1 in
  nif (neqb (nmod num_cycles #2) #0)
      (num_cycles * ellipe m + integral)
      ((num_cycles + #1) * ellipe m - integral).

(* frequencies.py:43-59 *)
Definition ellippi (n m : T) : T :=
  elliprf #0 (#1 - m) #1 + #1 / #3 * n * elliprj #0 (#1 - m) #1 (#1 - n).

(* frequencies.py:62-94 (scalar phi) *)
Definition ellippiinc (phi n m : T) : T :=
  let num_cycles := nfloor (phi / (npi / #2)) in
  let phi := nabs (nasin (nsin phi)) in
  let integral := nsin phi * elliprf ((ncos phi)^2) (#1 - m * (nsin phi)^2) #1
                  + #1 / #3 * n * (nsin phi)^3
                    * elliprj ((ncos phi)^2) (#1 - m * (nsin phi)^2) #1 (#1 - n * (nsin phi)^2) in
  nif (neqb (nmod num_cycles #2) #0)
      (num_cycles * ellippi n m + integral)
      ((num_cycles + #1) * ellippi n m - integral).

(* frequencies.py:120-129 = 167-176 = 226-235 = 311-320: common prologue *)
Definition check_frequency_params (a p e x : T) : outcome unit :=
  If neqb a #1 Then Raise (ValueError msg_extreme) Else
  If neqb x #0 Then Raise (ValueError msg_polar) Else
  If neqb e #1 Then Raise (ValueError msg_marginal) Else
  If onot (valid_params a e x) Then Raise (ValueError msg_range) Else
  do st <- is_stable a p e x;
  if st then Ret tt else Raise (ValueError msg_unstable).

(* frequencies.py:138 = 265 = 355 = 547 = 648 = 726: equation 13 *)
Definition kr_of (r1 r2 r3 r4 : T) : T :=
  nsqrt ((r1 - r2) * (r3 - r4) / ((r1 - r3) * (r2 - r4))).
(* frequencies.py:191 = 255 = 586 = 638 *)
Definition e0zp_of (a E L z_minus : T) : T :=
  (a^2 * (#1 - E^2) * (#1 - z_minus) + L^2) / (L^2 * (#1 - z_minus)).

(* frequencies.py:136-140 and 543-549 (identical expressions) *)
Definition r_freq_formula (E : T) (rr : T * T * T * T) : T :=
  let '(r1, r2, r3, r4) := rr in
  let k_r := kr_of r1 r2 r3 r4 in
  npi * nsqrt ((#1 - E^2) * (r1 - r3) * (r2 - r4)) / (#2 * ellipk (k_r^2)).

(* frequencies.py:189-194 and 584-589 (identical expressions) *)
Definition theta_freq_formula (a E L : T) (zz : T * T) : T :=
  let '(z_minus, z_plus) := zz in
  let k_theta := nsqrt (z_minus / z_plus) in
  let e0zp := e0zp_of a E L z_minus in
  npi * L * nsqrt e0zp / (#2 * ellipk (k_theta^2)).

(* frequencies.py:254-279 and 637-662 (identical expressions) *)
Definition phi_freq_formula (a E L : T) (rr : T * T * T * T) (zz : T * T)
    (upsilon_r upsilon_theta : T) : T :=
  let '(r1, r2, r3, r4) := rr in
  let '(z_minus, z_plus) := zz in
  let e0zp := e0zp_of a E L z_minus in
  let r_plus := #1 + nsqrt (#1 - a^2) in
  let r_minus := #1 - nsqrt (#1 - a^2) in
  let h_plus := (r1 - r2) * (r3 - r_plus) / ((r1 - r3) * (r2 - r_plus)) in
  let h_minus := (r1 - r2) * (r3 - r_minus) / ((r1 - r3) * (r2 - r_minus)) in
  let k_theta := nsqrt (z_minus / z_plus) in
  let k_r := kr_of r1 r2 r3 r4 in
  #2 * upsilon_theta / (npi * nsqrt e0zp) * ellippi z_minus (k_theta^2) + #2 * a * 
  upsilon_r / (npi * (r_plus - r_minus) * nsqrt ((#1 - E^2) * (r1 - r3) * (r2 - r4))) * 
  ((#2 * E * r_plus - a * L) / (r3 - r_plus) * (ellipk (k_r^2) - (r2 - r3) / (r2 - 
  r_plus) * ellippi h_plus (k_r^2)) - (#2 * E * r_minus - a * L) / (r3 - r_minus) * 
  (ellipk (k_r^2) - (r2 - r3) / (r2 - r_minus) * ellippi h_minus (k_r^2))).

(* frequencies.py:332-338 = 703-709 = stable.py:412-420 *)
Definition a2sqrt_of (a E L z_minus z_plus : T) : T :=
  let epsilon0 := a^2 * (#1 - E^2) / L^2 in
  nif (neqb a #0) (L^2 / ((#1 - E^2) * nsqrt (#1 - z_minus)))
                  (a^2 * z_plus / nsqrt (epsilon0 * z_plus)).

(* frequencies.py:332-389 and 703-760 (identical expressions) *)
Definition gamma_formula (a E L : T) (rr : T * T * T * T) (zz : T * T)
    (upsilon_r upsilon_theta : T) : T :=
  let '(r1, r2, r3, r4) := rr in
  let '(z_minus, z_plus) := zz in
  let a2sqrt_zp_over_e0 := a2sqrt_of a E L z_minus z_plus in
  let r_plus := #1 + nsqrt (#1 - a^2) in
  let r_minus := #1 - nsqrt (#1 - a^2) in
  let h_r := (r1 - r2) / (r1 - r3) in
  let h_plus := (r1 - r2) * (r3 - r_plus) / ((r1 - r3) * (r2 - r_plus)) in
  let h_minus := (r1 - r2) * (r3 - r_minus) / ((r1 - r3) * (r2 - r_minus)) in
  let k_theta := nif (neqb a #0) #0 (nsqrt (z_minus / z_plus)) in
  let k_r := kr_of r1 r2 r3 r4 in
  #4 * E + #2 * a2sqrt_zp_over_e0 * E * upsilon_theta * (ellipk (k_theta^2) - ellipe 
  (k_theta^2)) / (npi * L) + #2 * upsilon_r / (npi * nsqrt ((#1 - E^2) * (r1 - r3) * (r2 
  - r4))) * (E / #2 * ((r3 * (r1 + r2 + r3) - r1 * r2) * ellipk (k_r^2) + (r2 - r3) * (r1 
  + r2 + r3 + r4) * ellippi h_r (k_r^2) + (r1 - r3) * (r2 - r4) * ellipe (k_r^2)) + #2 * 
  E * (r3 * ellipk (k_r^2) + (r2 - r3) * ellippi h_r (k_r^2)) + #2 / (r_plus - r_minus) * 
  (((#4 * E - a * L) * r_plus - #2 * a^2 * E) / (r3 - r_plus) * (ellipk (k_r^2) - (r2 - 
  r3) / (r2 - r_plus) * ellippi h_plus (k_r^2)) - ((#4 * E - a * L) * r_minus - #2 * a^2 
  * E) / (r3 - r_minus) * (ellipk (k_r^2) - (r2 - r3) / (r2 - r_minus) * ellippi h_minus 
  (k_r^2)))).

(* frequencies.py:97-140 *)
Definition r_frequency (a0 p e x0 : T) (constants : option (T * T * T)) : outcome T :=
  let '(a, x) := standardize_params a0 x0 in
  do _ <- check_frequency_params a p e x;
  do c <- default constants (constants_of_motion a p e x);
  let '(E, L, Q) := c in
  do rr <- stable_radial_roots a p e x (Some c);
  Ret (r_freq_formula E rr).

(* frequencies.py:143-194 *)
Definition theta_frequency (a0 p e x0 : T) (constants : option (T * T * T)) : outcome T :=
  let '(a, x) := standardize_params a0 x0 in
  do _ <- check_frequency_params a p e x;
  If neqb a #0 Then
    Ret (p / nsqrt (- #3 - e^2 + p) * nif (neqb e #0) (nsign x) #1)
  Else
  do c <- default constants (constants_of_motion a p e x);
  let '(E, L, Q) := c in
  do zz <- stable_polar_roots a p e x (Some c);
  Ret (theta_freq_formula a E L zz).

(* frequencies.py:197-279 *)
Definition phi_frequency (a0 p e x0 : T) (constants : option (T * T * T))
    (upsilon_r upsilon_theta : option T) : outcome T :=
  let '(a, x) := standardize_params a0 x0 in
  do _ <- check_frequency_params a p e x;
  If neqb a #0 Then Ret (nsign x * p / nsqrt (- #3 - e^2 + p)) Else
  do c <- default constants (constants_of_motion a p e x);
  let '(E, L, Q) := c in
  do rr <- stable_radial_roots a p e x (Some c);
  do zz <- stable_polar_roots a p e x (Some c);
  do ur <- default upsilon_r (r_frequency a p e x (Some c));
  do ut <- default upsilon_theta (theta_frequency a p e x (Some c));
  Ret (phi_freq_formula a E L rr zz ur ut).

(* frequencies.py:282-389; the second e == 1 test (323-324) is unreachable *)
Definition gamma (a0 p e x0 : T) (constants : option (T * T * T))
    (upsilon_r upsilon_theta : option T) : outcome T :=
  let '(a, x) := standardize_params a0 x0 in
  do _ <- check_frequency_params a p e x;
  do c <- default constants (constants_of_motion a p e x);
  let '(E, L, Q) := c in
  do rr <- stable_radial_roots a p e x (Some c);
  do zz <- stable_polar_roots a p e x (Some c);
  do ur <- default upsilon_r (r_frequency a p e x (Some c));
  do ut <- default upsilon_theta (theta_frequency a p e x (Some c));
  Ret (gamma_formula a E L rr zz ur ut).

(* frequencies.py:392-418 *)
Definition mino_frequencies (a p e x : T) : outcome (T * T * T * T) :=
  do c <- constants_of_motion a p e x;
  do upsilon_r <- r_frequency a p e x (Some c);
  do upsilon_theta <- theta_frequency a p e x (Some c);
  do upsilon_phi <- phi_frequency a p e x (Some c) (Some upsilon_r) (Some upsilon_theta);
  do Gamma <- gamma a p e x (Some c) (Some upsilon_r) (Some upsilon_theta);
  Ret (upsilon_r, nabs upsilon_theta, upsilon_phi, Gamma).

(* frequencies.py:421-446 *)
Definition fundamental_frequencies (a p e x : T) : outcome (T * T * T) :=
  do c <- constants_of_motion a p e x;
  do upsilon_r <- r_frequency a p e x (Some c);
  do upsilon_theta <- theta_frequency a p e x (Some c);
  do upsilon_phi <- phi_frequency a p e x (Some c) (Some upsilon_r) (Some upsilon_theta);
  do Gamma <- gamma a p e x (Some c) (Some upsilon_r) (Some upsilon_theta);
  Ret (upsilon_r / Gamma, nabs upsilon_theta / Gamma, upsilon_phi / Gamma).

(* frequencies.py:527-549 *)
Definition r_frequency_from_constants (c : T * T * T) (rr : T * T * T * T) : T :=
  let '(E, L, Q) := c in r_freq_formula E rr.

(* frequencies.py:552-589 *)
Definition theta_frequency_from_constants (a : T) (c : T * T * T) (rr : T * T * T * T)
    (zz : T * T) : outcome T :=
  let '(r1, r2, r3, r4) := rr in
  let '(E, L, Q) := c in
  If neqb a #0 Then
    let p := #2 * r1 * r2 / (r1 + r2) in
    let e := (r1 - r2) / (r1 + r2) in
    Ret (p / nsqrt (- #3 - e^2 + p) * nif (neqb e #0) (nsign L) #1)
  Else Ret (theta_freq_formula a E L zz).

(* frequencies.py:592-662.  With upsilon_r=None the call on line 633 passes three
   arguments to a two-argument function. *)
Definition phi_frequency_from_constants (a : T) (c : T * T * T) (rr : T * T * T * T)
    (zz : T * T) (upsilon_r upsilon_theta : option T) : outcome T :=
  let '(E, L, Q) := c in
  let '(r1, r2, r3, r4) := rr in
  If neqb a #0 Then
    let p := #2 * r1 * r2 / (r1 + r2) in
    let e := (r1 - r2) / (r1 + r2) in
    Ret (nsign L * p / nsqrt (- #3 - e^2 + p))
  Else
  do ur <- default upsilon_r (Raise TypeError);
  do ut <- default upsilon_theta (theta_frequency_from_constants a c rr zz);
  Ret (phi_freq_formula a E L rr zz ur ut).

(* frequencies.py:665-760; same remark for line 713.  Returning inf (line 699)
   is outside the modelled numbers. *)
Definition gamma_from_constants (a : T) (c : T * T * T) (rr : T * T * T * T)
    (zz : T * T) (upsilon_r upsilon_theta : option T) : outcome T :=
  let '(r1, r2, r3, r4) := rr in
  let e := (r1 - r2) / (r1 + r2) in
  If neqb e #1 Then Ret nundef Else
  let '(E, L, Q) := c in
  do ur <- default upsilon_r (Raise TypeError);
  do ut <- default upsilon_theta (theta_frequency_from_constants a c rr zz);
  Ret (gamma_formula a E L rr zz ur ut).

(* frequencies.py:763-794 *)
Definition mino_frequencies_from_constants (a : T) (c : T * T * T) (rr : T * T * T * T)
    (zz : T * T) : outcome (T * T * T * T) :=
  let upsilon_r := r_frequency_from_constants c rr in
  do upsilon_theta <- theta_frequency_from_constants a c rr zz;
  do upsilon_phi <- phi_frequency_from_constants a c rr zz (Some upsilon_r) (Some upsilon_theta);
  do Gamma <- gamma_from_constants a c rr zz (Some upsilon_r) (Some upsilon_theta);
  Ret (upsilon_r, nabs upsilon_theta, upsilon_phi, Gamma).

(* frequencies.py:797-828 *)
Definition fundamental_frequencies_from_constants (a : T) (c : T * T * T)
    (rr : T * T * T * T) (zz : T * T) : outcome (T * T * T) :=
  let upsilon_r := r_frequency_from_constants c rr in
  do upsilon_theta <- theta_frequency_from_constants a c rr zz;
  do upsilon_phi <- phi_frequency_from_constants a c rr zz (Some upsilon_r) (Some upsilon_theta);
  do Gamma <- gamma_from_constants a c rr zz (Some upsilon_r) (Some upsilon_theta);
  Ret (upsilon_r / Gamma, nabs upsilon_theta / Gamma, upsilon_phi / Gamma).

(* frequencies.py:484-495 = initial_conditions.py:315-326 = plunge.py:421-431 *)
Definition plunge_z1 (a E L Q : T) : T :=
  nsqrt (#1 / #2 * (#1 + (L^2 + Q) / (a^2 * (#1 - E^2))
                    - nsqrt ((#1 + (L^2 + Q) / (a^2 * (#1 - E^2)))^2
                             - #4 * Q / (a^2 * (#1 - E^2))))).
(* frequencies.py:496-508 = initial_conditions.py:327-339 = plunge.py:432-443 *)
Definition plunge_z2 (a E L Q : T) : T :=
  nsqrt (a^2 * (#1 - E^2) / #2 * (#1 + (L^2 + Q) / (a^2 * (#1 - E^2))
                    + nsqrt ((#1 + (L^2 + Q) / (a^2 * (#1 - E^2)))^2
                             - #4 * Q / (a^2 * (#1 - E^2))))).
(* frequencies.py:509 = initial_conditions.py:340 = plunge.py:444 *)
Definition plunge_k_theta (a E L Q : T) : T :=
  a * nsqrt (#1 - E^2) * plunge_z1 a E L Q / plunge_z2 a E L Q.
(* frequencies.py:476-477 = initial_conditions.py:345-346 = plunge.py:182-183 = 352-353 *)
Definition plunge_A (r1 r2 rho_r rho_i : T) : T := nsqrt ((r2 - rho_r)^2 + rho_i^2).
Definition plunge_B (r1 r2 rho_r rho_i : T) : T := nsqrt ((r1 - rho_r)^2 + rho_i^2).

(* frequencies.py:449-524 *)
Definition plunging_mino_frequencies (a E L Q : T) : outcome (T * T) :=
  do roots <- plunging_radial_roots a E L Q;
  match roots with
  | ComplexRoots r1 r2 r3 r4 =>
      let rho_r := fst r3 in
      let rho_i := snd r4 in
      let A := plunge_A r1 r2 rho_r rho_i in
      let B := plunge_B r1 r2 rho_r rho_i in
      let k_r := nsqrt (nabs (((r2 - r1)^2 - (A - B)^2) / (#4 * A * B))) in
      let upsilon_r := npi * nsqrt (A * B * (#1 - E^2)) / (#2 * ellipk (k_r^2)) in
      let z2 := plunge_z2 a E L Q in
      let k_theta := plunge_k_theta a E L Q in
      let upsilon_theta := npi / #2 * z2 / ellipk (k_theta^2) in
      Ret (upsilon_r, upsilon_theta)
  | RealRoots r1 r2 r3 r4 =>
      do zz <- polar_roots_of a E L Q;
      do f <- mino_frequencies_from_constants a (E, L, Q) (r1, r2, r3, r4) zz;
      let '(upsilon_r, upsilon_theta, upsilon_phi, gamma) := f in
      Ret (upsilon_r, upsilon_theta)
  end.

End Frequencies.

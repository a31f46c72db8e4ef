(** * Model of /repo/kerrgeopy/units.py *)

From Coq Require Import ZArith.
From Verif Require Import Num Outcome.
Open Scope num_scope.

Section Units.
Context {T : Type} {N : Num T}.

(* units.py:5 *)
Definition c_light : T := #299792458.
(* units.py:7  6.67408e-11 *)
Definition G_newton : T := nQ 667408 10000000000000000.
(* units.py:9  1.98847e30 *)
Definition solar_mass : T := #1988470000000000000000000000000.

(* units.py:12-22 *)
Definition mass_in_kg (M : T) : T := M * solar_mass.
(* units.py:25-40 *)
Definition distance_in_meters (d M : T) : T := d * G_newton / c_light^2 * mass_in_kg M.
(* units.py:43-58 *)
Definition distance_in_cm (d M : T) : T := distance_in_meters d M * #100.
(* units.py:61-74 *)
Definition distance_in_km (d M : T) : T := distance_in_meters d M / #1000.
(* units.py:77-92  9.461e15 *)
Definition distance_in_lightyears (d M : T) : T := distance_in_meters d M / #9461000000000000.
(* units.py:95-110  1.496e11 *)
Definition distance_in_au (d M : T) : T := distance_in_meters d M / #149600000000.
(* units.py:113-128 *)
Definition time_in_seconds (t M : T) : T := t * G_newton / c_light^3 * mass_in_kg M.
(* units.py:131-141 *)
Definition time2_in_seconds2 (t M : T) : T :=
  t * (G_newton / c_light^3)^2 * (mass_in_kg M)^2.
(* units.py:144-159 *)
Definition time_in_days (t M : T) : T := time_in_seconds t M / #86400.
(* units.py:162-177 *)
Definition energy_in_joules (E M : T) : T := E * c_light^2 * mass_in_kg M.
(* units.py:180-195 *)
Definition energy_in_ergs (E M : T) : T := energy_in_joules E M * #10000000.
(* units.py:198-213 *)
Definition angular_momentum_in_mks (L M : T) : T := L * G_newton / c_light * (mass_in_kg M)^2.
(* units.py:216-231 *)
Definition angular_momentum_in_cgs (L M : T) : T := angular_momentum_in_mks L M * #10000000.
(* units.py:234-244 *)
Definition carter_constant_in_mks (Q M : T) : T :=
  Q * G_newton^2 / c_light^2 * (mass_in_kg M)^4.
(* units.py:247-257 *)
Definition carter_constant_in_cgs (Q M : T) : T := carter_constant_in_mks Q M * #100000000000000.
(* units.py:260-270 *)
Definition frequency_in_Hz (f M : T) : T := f * c_light^3 / G_newton / mass_in_kg M.
(* units.py:273-288 *)
Definition frequency_in_mHz (f M : T) : T := frequency_in_Hz f M * #1000.

End Units.

(** * Model of /repo/kerrgeopy/stable.py (functions; the class is in Model_Orbit.v) *)

From Coq Require Import ZArith List String.
From Verif Require Import Num Outcome External Model_Units Model_Constants Model_Frequencies.
Import ListNotations.
Open Scope num_scope.
Open Scope outcome_scope.

Definition msg_traj_M : string := "M must be specified to convert to physical units".

Section Stable.
Context {T : Type} {N : Num T} {X : External T}.

(* stable.py:308-313 *)
Definition radial_r (rr : T * T * T * T) (q_r : T) : T :=
  let '(r1, r2, r3, r4) := rr in
  let k_r := kr_of r1 r2 r3 r4 in
  let u_r := ellipk (k_r^2) * q_r / npi in
  let '(sn, cn, dn, psi_r) := ellipj u_r (k_r^2) in
    (r3 * (r1 - r2) * sn^2 - r2 * (r1 - r3)) / ((r1 - r2) * sn^2 - (r1 - r3)).

(* stable.py:298-306, 315-362 *)
Definition radial_t (a E L : T) (rr : T * T * T * T) (q_r : T) : T :=
  let '(r1, r2, r3, r4) := rr in
  let r_plus := #1 + nsqrt (#1 - a^2) in
  let r_minus := #1 - nsqrt (#1 - a^2) in
  let h_r := (r1 - r2) / (r1 - r3) in
  let h_plus := (r1 - r2) * (r3 - r_plus) / ((r1 - r3) * (r2 - r_plus)) in
  let h_minus := (r1 - r2) * (r3 - r_minus) / ((r1 - r3) * (r2 - r_minus)) in
  let k_r := kr_of r1 r2 r3 r4 in
  let u_r := ellipk (k_r^2) * q_r / npi in
  let '(sn, cn, dn, psi_r) := ellipj u_r (k_r^2) in
    #2 / nsqrt ((#1 - E^2) * (r1 - r3) * (r2 - r4)) * (E / #2 * ((r2 - r3) * (r1 + r2
    + r3 + r4) * (ellippiinc psi_r h_r (k_r^2) - q_r / npi * ellippi h_r (k_r^2)) +
    (r1 - r3) * (r2 - r4) * (ellipeinc_ psi_r (k_r^2) + h_r * sn * cn * nsqrt (#1 -
    k_r^2 * sn^2) / (h_r * sn^2 - #1) - q_r / npi * ellipe (k_r^2))) + #2 * E * (r2 -
    r3) * (ellippiinc psi_r h_r (k_r^2) - q_r / npi * ellippi h_r (k_r^2)) - #2 /
    (r_plus - r_minus) * (((#4 * E - a * L) * r_plus - #2 * a^2 * E) * (r2 - r3) /
    ((r3 - r_plus) * (r2 - r_plus)) * (ellippiinc psi_r h_plus (k_r^2) - q_r / npi *
    ellippi h_plus (k_r^2)) - ((#4 * E - a * L) * r_minus - #2 * a^2 * E) * (r2 - r3)
    / ((r3 - r_minus) * (r2 - r_minus)) * (ellippiinc psi_r h_minus (k_r^2) - q_r /
    npi * ellippi h_minus (k_r^2)))).

(* stable.py:298-306, 364-383 *)
Definition radial_phi (a E L : T) (rr : T * T * T * T) (q_r : T) : T :=
  let '(r1, r2, r3, r4) := rr in
  let r_plus := #1 + nsqrt (#1 - a^2) in
  let r_minus := #1 - nsqrt (#1 - a^2) in
  let h_plus := (r1 - r2) * (r3 - r_plus) / ((r1 - r3) * (r2 - r_plus)) in
  let h_minus := (r1 - r2) * (r3 - r_minus) / ((r1 - r3) * (r2 - r_minus)) in
  let k_r := kr_of r1 r2 r3 r4 in
  let u_r := ellipk (k_r^2) * q_r / npi in
  let '(sn, cn, dn, psi_r) := ellipj u_r (k_r^2) in
    - #2 * a / ((r_plus - r_minus) * nsqrt ((#1 - E^2) * (r1 - r3) * (r2 - r4))) *
    ((#2 * E * r_plus - a * L) * (r2 - r3) / ((r3 - r_plus) * (r2 - r_plus)) *
    (ellippiinc psi_r h_plus (k_r^2) - q_r / npi * ellippi h_plus (k_r^2)) - (#2 * E *
    r_minus - a * L) * (r2 - r3) / ((r3 - r_minus) * (r2 - r_minus)) * (ellippiinc
    psi_r h_minus (k_r^2) - q_r / npi * ellippi h_minus (k_r^2))).

(* stable.py:272-385 *)
Definition radial_solutions (a : T) (c : T * T * T) (rr : T * T * T * T)
  : (T -> T) * (T -> T) * (T -> T) :=
  let '(E, L, Q) := c in
  (radial_r rr, radial_t a E L rr, radial_phi a E L rr).

(* stable.py:423 *)
Definition ktheta_of (a z_minus z_plus : T) : T :=
  nif (neqb a #0) #0 (nsqrt (z_minus / z_plus)).

(* stable.py:426, 432, 448 *)
Definition u_theta_of (k_theta q_theta : T) : T :=
  #2 / npi * ellipk (k_theta^2) * (q_theta + npi / #2).

(* stable.py:425-429 *)
Definition polar_theta (a : T) (zz : T * T) (q_theta : T) : T :=
  let '(z_minus, z_plus) := zz in
  let k_theta := ktheta_of a z_minus z_plus in
  let '(sn, cn, dn, ph) := ellipj (u_theta_of k_theta q_theta) (k_theta^2) in
  nacos (nsqrt z_minus * sn).

(* stable.py:412-420, 431-444 *)
Definition polar_t (a E L : T) (zz : T * T) (q_theta : T) : T :=
  let '(z_minus, z_plus) := zz in
  let a2sqrt_zp_over_e0 := a2sqrt_of a E L z_minus z_plus in
  let k_theta := ktheta_of a z_minus z_plus in
  let '(sn, cn, dn, psi_theta) := ellipj (u_theta_of k_theta q_theta) (k_theta^2) in
    nsign L * a2sqrt_zp_over_e0 * E / L * (#2 / npi * ellipe (k_theta^2) * (q_theta +
    npi / #2) - ellipeinc_ psi_theta (k_theta^2)).

(* stable.py:414, 446-459 *)
Definition polar_phi (a E L : T) (zz : T * T) (q_theta : T) : T :=
  let '(z_minus, z_plus) := zz in
  let e0zp := e0zp_of a E L z_minus in
  let k_theta := ktheta_of a z_minus z_plus in
  let '(sn, cn, dn, psi_theta) := ellipj (u_theta_of k_theta q_theta) (k_theta^2) in
    nsign L * #1 / nsqrt e0zp * (ellippiinc psi_theta z_minus (k_theta^2) - #2 / npi *
    ellippi z_minus (k_theta^2) * (q_theta + npi / #2)).

(* stable.py:388-461; the polar_roots argument is unpacked into two names, so a
   tuple of any other length raises ValueError (line 411) *)
Definition polar_solutions (a : T) (c : T * T * T) (polar_roots : list T)
  : outcome ((T -> T) * (T -> T) * (T -> T)) :=
  let '(E, L, Q) := c in
  do zz <- unpack2 polar_roots;
  Ret (polar_theta a zz, polar_t a E L zz, polar_phi a E L zz).

(* stable.py:512-518 = plunge.py:567-573 = 668-674 *)
Definition distance_conversion (units : string) : outcome (T -> option T -> T) :=
  let withM (f : T -> T -> T) := fun d M => match M with Some m => f d m | None => nundef end in
  if String.eqb units "natural" then Ret (fun d _ => d) else
  if String.eqb units "mks" then Ret (withM distance_in_meters) else
  if String.eqb units "cgs" then Ret (withM distance_in_cm) else
  if String.eqb units "au" then Ret (withM distance_in_au) else
  if String.eqb units "km" then Ret (withM distance_in_km) else
  Raise KeyError.

(* stable.py:519-524 = plunge.py:574-579 = 675-680 *)
Definition time_conversion (units : string) : outcome (T -> option T -> T) :=
  let withM (f : T -> T -> T) := fun d M => match M with Some m => f d m | None => nundef end in
  if String.eqb units "natural" then Ret (fun d _ => d) else
  if String.eqb units "mks" then Ret (withM time_in_seconds) else
  if String.eqb units "cgs" then Ret (withM time_in_seconds) else
  if String.eqb units "days" then Ret (withM time_in_days) else
  Raise KeyError.

(* stable.py:500-501 = plunge.py:559-560 = 649-650 *)
Definition check_units (M : option T) (distance_units time_units : string) : outcome unit :=
  if (negb (String.eqb distance_units "natural") || negb (String.eqb time_units "natural"))%bool
  then match M with None => Raise (ValueError msg_traj_M) | Some _ => Ret tt end
  else Ret tt.

Definition traj := (T -> outcome T)%type.

(* stable.py:526-559 = plunge.py:682-713: assembly of a trajectory from its parts *)
Definition assemble_trajectory (M : option T) (distance_units time_units : string)
    (phases : T * T * T * T) (upsilon_r upsilon_theta upsilon_phi gamma : T)
    (r_phases t_r phi_r theta_phases t_theta phi_theta : T -> T)
  : traj * traj * traj * traj :=
  let '(q_t0, q_r0, q_theta0, q_phi0) := phases in
  let C_t := t_r q_r0 + t_theta q_theta0 in
  let C_phi := phi_r q_r0 + phi_theta q_theta0 in
  let t := fun mino_time =>
    do conv <- time_conversion time_units;
    Ret (conv (q_t0 + gamma * mino_time + t_r (upsilon_r * mino_time + q_r0)
               + t_theta (upsilon_theta * mino_time + q_theta0) - C_t) M) in
  let r := fun mino_time =>
    do conv <- distance_conversion distance_units;
    Ret (conv (r_phases (upsilon_r * mino_time + q_r0)) M) in
  let theta := fun mino_time => Ret (theta_phases (upsilon_theta * mino_time + q_theta0)) in
  let phi := fun mino_time =>
    Ret (q_phi0 + upsilon_phi * mino_time + phi_r (upsilon_r * mino_time + q_r0)
         + phi_theta (upsilon_theta * mino_time + q_theta0) - C_phi) in
  (t, r, theta, phi).

(* stable.py:464-559 *)
Definition stable_trajectory (a p e x : T) (phases : T * T * T * T) (M : option T)
    (distance_units time_units : string) : outcome (traj * traj * traj * traj) :=
  do _ <- check_units M distance_units time_units;
  do f <- mino_frequencies a p e x;
  let '(upsilon_r, upsilon_theta, upsilon_phi, gamma) := f in
  do c <- constants_of_motion a p e x;
  do rr <- stable_radial_roots a p e x (Some c);
  do zz <- stable_polar_roots a p e x (Some c);
  let '(r_phases, t_r, phi_r) := radial_solutions a c rr in
  do ps <- polar_solutions a c [fst zz; snd zz];
  let '(theta_phases, t_theta, phi_theta) := ps in
  Ret (assemble_trajectory M distance_units time_units phases
         upsilon_r upsilon_theta upsilon_phi gamma
         r_phases t_r phi_r theta_phases t_theta phi_theta).

End Stable.

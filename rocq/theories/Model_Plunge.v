(** * Model of /repo/kerrgeopy/plunge.py (functions; the class is in Model_Orbit.v) *)

From Coq Require Import ZArith List String.
From Verif Require Import Num Outcome External Model_Units Model_Constants Model_Frequencies
  Model_Stable.
Import ListNotations.
Open Scope num_scope.
Open Scope outcome_scope.

Definition msg_two_complex : string := "There should be two complex roots".

Section Plunge.
Context {T : Type} {N : Num T} {X : External T}.

(* plunge.py:185 = 354 *)
Definition plunge_k_r (r1 r2 A B : T) : T :=
  nsqrt (((r2 - r1)^2 - (A - B)^2) / (#4 * A * B)).

(* plunge.py:184 *)
Definition plunge_f (A B : T) : T := #4 * A * B / (A - B)^2.

(* plunge.py:199 = 213 = 237 = 277 = 362: equation 43 *)
Definition plunge_jacobi (k_r q_r : T) : T * T * T * T :=
  ellipj (#2 * ellipk (k_r^2) * q_r / npi) (k_r^2).

(* plunge.py:197-209 *)
Definition I_r (E r1 r2 A B upsilon_r q_r : T) : T :=
  let f := plunge_f A B in
  let k_r := plunge_k_r r1 r2 A B in
  let '(sn, cn, dn, xi_r) := plunge_jacobi k_r q_r in
  let mino_time := q_r / upsilon_r in
    (A * r1 - B * r2) / (A - B) * mino_time - #1 / nsqrt (#1 - E^2) * natan ((r2 - r1)
    * sn / (#2 * nsqrt (A * B) * dn)) + (A + B) * (r2 - r1) / (#2 * (A - B) * nsqrt (A
    * B * (#1 - E^2))) * ellippiinc xi_r (- #1 / f) (k_r^2).

(* plunge.py:211-233 *)
Definition I_r2 (E r1 r2 A B upsilon_r q_r : T) : T :=
  let f := plunge_f A B in
  let k_r := plunge_k_r r1 r2 A B in
  let '(sn, cn, dn, xi_r) := plunge_jacobi k_r q_r in
  let mino_time := q_r / upsilon_r in
    (A * r1^2 - B * r2^2) / (A - B) * mino_time + nsqrt (A * B) / nsqrt (#1 - E^2) *
    ellipeinc xi_r (k_r^2) - (A + B) * (A^2 + #2 * r1^2 - B^2 - #2 * r2^2) / (#4 * (A
    - B) * nsqrt ((#1 - E^2) * A * B)) * ellippiinc xi_r (- #1 / f) (k_r^2) - nsqrt (A
    * B) * (A + B - (A - B) * cn) * sn * dn / ((A - B) * nsqrt (#1 - E^2) * (f +
    sn^2)) + (A^2 + #2 * r1^2 - B^2 - #2 * r2^2) / (#4 * (r2 - r1) * nsqrt (#1 - E^2))
    * natan2 (#2 * sn * dn * nsqrt (f * (#1 + f * k_r^2))) (f - (#1 + #2 * f * k_r^2)
    * sn^2).

(* plunge.py:190-195 and 235-273 with r_plus the outer horizon; lines 275-313 are
   the same expression with r_minus for r_plus *)
Definition I_r_horizon (r_plus E r1 r2 A B upsilon_r q_r : T) : T :=
  let k_r := plunge_k_r r1 r2 A B in
  let D_plus := nsqrt (#4 * A * B * (r2 - r_plus) * (r_plus - r1))
                / (A * (r_plus - r1) + B * (r2 - r_plus)) in
  let '(sn, cn, dn, xi_r) := plunge_jacobi k_r q_r in
  let mino_time := q_r / upsilon_r in
    (A - B) * mino_time / (A * (r1 - r_plus) - B * (r2 - r_plus)) + (r2 - r1) * (A *
    (r1 - r_plus) + B * (r2 - r_plus)) / (#2 * nsqrt (A * B * (#1 - E^2)) * (r_plus -
    r1) * (r2 - r_plus) * (A * (r1 - r_plus) - B * (r2 - r_plus))) * ellippiinc xi_r
    (#1 / D_plus^2) (k_r^2) - nsqrt (r2 - r1) * nlog (((D_plus * nsqrt (#1 - D_plus^2
    * k_r^2) + dn * sn)^2 + (k_r * (D_plus^2 - sn^2))^2) / ((D_plus * nsqrt (#1 -
    D_plus^2 * k_r^2) - dn * sn)^2 + (k_r * (D_plus^2 - sn^2))^2)) / (#4 * nsqrt ((#1
    - E^2) * (r2 - r_plus) * (r_plus - r1)) * nsqrt (A^2 * (r_plus - r1) - (r2 -
    r_plus) * (r1^2 - B^2 + r2 * r_plus - r1 * (r2 + r_plus)))).

(* plunge.py:360-368 *)
Definition plunge_r (r1 r2 A B q_r : T) : T :=
  let k_r := plunge_k_r r1 r2 A B in
  let '(sn, cn, dn, xi_r) := plunge_jacobi k_r q_r in
    ((A - B) * (A * r1 - B * r2) * sn^2 + #2 * A * B * (r1 + r2) - #2 * A * B * (r2 -
    r1) * cn) / (#4 * A * B + (A - B)^2 * sn^2).

(* plunge.py:370-386 *)
Definition plunge_t_r (a E L r1 r2 A B upsilon_r q_r : T) : T :=
  let r_plus := #1 + nsqrt (#1 - a^2) in
  let r_minus := #1 - nsqrt (#1 - a^2) in
  let I_r := I_r E r1 r2 A B upsilon_r in
  let I_r2 := I_r2 E r1 r2 A B upsilon_r in
  let I_r_plus := I_r_horizon r_plus E r1 r2 A B upsilon_r in
  let I_r_minus := I_r_horizon r_minus E r1 r2 A B upsilon_r in
  let mino_time := q_r / upsilon_r in
    E * (r_plus^2 + r_minus^2 + r_plus * r_minus + #2 * a^2) * mino_time + E * (I_r2
    q_r + I_r q_r * (r_minus + r_plus)) + ((r_minus^2 + a^2) * (E * (r_minus^2 + a^2)
    - a * L) / (r_minus - r_plus) * I_r_minus q_r + (r_plus^2 + a^2) * (E * (r_plus^2
    + a^2) - a * L) / (r_plus - r_minus) * I_r_plus q_r).

(* plunge.py:388-394 *)
Definition plunge_phi_r (a E L r1 r2 A B upsilon_r q_r : T) : T :=
  let r_plus := #1 + nsqrt (#1 - a^2) in
  let r_minus := #1 - nsqrt (#1 - a^2) in
  let I_r_plus := I_r_horizon r_plus E r1 r2 A B upsilon_r in
  let I_r_minus := I_r_horizon r_minus E r1 r2 A B upsilon_r in
    a * ((E * (r_minus^2 + a^2) - a * L) / (r_minus - r_plus) * I_r_minus q_r + (E *
    (r_plus^2 + a^2) - a * L) / (r_plus - r_minus) * I_r_plus q_r).

(* plunge.py:318-396 (and 150-315) *)
Definition plunging_radial_solutions_complex (a E L Q : T)
  : outcome ((T -> T) * (T -> T) * (T -> T)) :=
  do roots <- plunging_radial_roots a E L Q;
  match roots with
  | RealRoots _ _ _ _ => Raise (ValueError msg_two_complex)
  | ComplexRoots r1 r2 r3 r4 =>
      let rho_r := fst r3 in
      let rho_i := snd r4 in
      let A := plunge_A r1 r2 rho_r rho_i in
      let B := plunge_B r1 r2 rho_r rho_i in
      do ups <- plunging_mino_frequencies a E L Q;
      let '(upsilon_r, upsilon_theta) := ups in
      Ret (plunge_r r1 r2 A B,
           plunge_t_r a E L r1 r2 A B upsilon_r,
           plunge_phi_r a E L r1 r2 A B upsilon_r)
  end.

(* plunge.py:448-453 *)
Definition plunge_theta (a E L Q upsilon_theta q_theta : T) : T :=
  let z1 := plunge_z1 a E L Q in
  let z2 := plunge_z2 a E L Q in
  let k_theta := plunge_k_theta a E L Q in
  let mino_time := q_theta / upsilon_theta in
  let '(sn, cn, dn, xi_theta) := ellipj (z2 * mino_time) (k_theta^2) in
    nacos (z1 * sn).

(* plunge.py:455-467 *)
Definition plunge_t_theta (a E L Q upsilon_theta q_theta : T) : T :=
  let z2 := plunge_z2 a E L Q in
  let k_theta := plunge_k_theta a E L Q in
  let mino_time := q_theta / upsilon_theta in
  let '(sn, cn, dn, xi_theta) := ellipj (z2 * mino_time) (k_theta^2) in
    E / (#1 - E^2) * ((z2^2 - a^2 * (#1 - E^2)) * mino_time - z2 * ellipeinc xi_theta
    (k_theta^2)).

(* plunge.py:469-474 *)
Definition plunge_phi_theta (a E L Q upsilon_theta q_theta : T) : T :=
  let z1 := plunge_z1 a E L Q in
  let z2 := plunge_z2 a E L Q in
  let k_theta := plunge_k_theta a E L Q in
  let mino_time := q_theta / upsilon_theta in
  let '(sn, cn, dn, xi_theta) := ellipj (z2 * mino_time) (k_theta^2) in
    L / z2 * ellippiinc xi_theta (z1^2) (k_theta^2).

(* plunge.py:399-476 *)
Definition plunging_polar_solutions (a E L Q : T)
  : outcome ((T -> T) * (T -> T) * (T -> T)) :=
  do ups <- plunging_mino_frequencies a E L Q;
  let '(upsilon_r, upsilon_theta) := ups in
  Ret (plunge_theta a E L Q upsilon_theta,
       plunge_t_theta a E L Q upsilon_theta,
       plunge_phi_theta a E L Q upsilon_theta).

(* plunge.py:524-611 *)
Definition complex_plunge_trajectory (a E L Q : T) (phases : T * T * T * T) (M : option T)
    (distance_units time_units : string) : outcome (@traj T * @traj T * @traj T * @traj T) :=
  do _ <- check_units M distance_units time_units;
  do ups <- plunging_mino_frequencies a E L Q;
  let '(upsilon_r, upsilon_theta) := ups in
  do rs <- plunging_radial_solutions_complex a E L Q;
  let '(r_phases, t_r, phi_r) := rs in
  do ps <- plunging_polar_solutions a E L Q;
  let '(theta_phases, t_theta, phi_theta) := ps in
  let '(q_t0, q_r0, q_theta0, q_phi0) := phases in
  let q_theta0 := q_theta0 + npi / #2 in
  let C_t := t_r q_r0 + t_theta q_theta0 in
  let C_phi := phi_r q_r0 + phi_theta q_theta0 in
  let t := fun mino_time =>
    do conv <- time_conversion time_units;
    Ret (conv (t_r (upsilon_r * mino_time + q_r0)
               + t_theta (upsilon_theta * mino_time + q_theta0) - C_t + q_t0) M) in
  let r := fun mino_time =>
    do conv <- distance_conversion distance_units;
    Ret (conv (r_phases (upsilon_r * mino_time + q_r0)) M) in
  let theta := fun mino_time => Ret (theta_phases (upsilon_theta * mino_time + q_theta0)) in
  let phi := fun mino_time =>
    Ret (phi_r (upsilon_r * mino_time + q_r0)
         + phi_theta (upsilon_theta * mino_time + q_theta0) - C_phi + q_phi0) in
  Ret (t, r, theta, phi).

(* plunge.py:614-713 *)
Definition real_plunge_trajectory (a E L Q : T) (phases : T * T * T * T) (M : option T)
    (distance_units time_units : string) : outcome (@traj T * @traj T * @traj T * @traj T) :=
  do _ <- check_units M distance_units time_units;
  do roots <- plunging_radial_roots a E L Q;
  match roots with
  | ComplexRoots _ _ _ _ => Undef (* only called on real roots, plunge.py:516-521 *)
  | RealRoots r1 r2 r3 r4 =>
      do zz <- polar_roots_of a E L Q;
      do f <- mino_frequencies_from_constants a (E, L, Q) (r1, r2, r3, r4) zz;
      let '(upsilon_r, upsilon_theta, upsilon_phi, gamma) := f in
      let '(r_phases, t_r, phi_r) := radial_solutions a (E, L, Q) (r1, r2, r3, r4) in
      do ps <- polar_solutions a (E, L, Q) [fst zz; snd zz];
      let '(theta_phases, t_theta, phi_theta) := ps in
      Ret (assemble_trajectory M distance_units time_units phases
             upsilon_r upsilon_theta upsilon_phi gamma
             r_phases t_r phi_r theta_phases t_theta phi_theta)
  end.

(* plunge.py:479-521 *)
Definition plunging_trajectory (a E L Q : T) (phases : T * T * T * T) (M : option T)
    (distance_units time_units : string) : outcome (@traj T * @traj T * @traj T * @traj T) :=
  do roots <- plunging_radial_roots a E L Q;
  match roots with
  | ComplexRoots _ _ _ _ => complex_plunge_trajectory a E L Q phases M distance_units time_units
  | RealRoots _ _ _ _ => real_plunge_trajectory a E L Q phases M distance_units time_units
  end.

End Plunge.

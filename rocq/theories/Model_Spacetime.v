(** * Model of /repo/kerrgeopy/spacetime.py *)

From Coq Require Import ZArith List String.
From Verif Require Import Num Outcome External Model_Units Model_Constants.
Import ListNotations.
Open Scope num_scope.
Open Scope outcome_scope.

Section Spacetime.
Context {T : Type} {N : Num T} {X : External T}.

(* spacetime.py:30-33 *)
Definition inner_horizon (a : T) : T := #1 - nsqrt (#1 - a^2).
Definition outer_horizon (a : T) : T := #1 + nsqrt (#1 - a^2).

(* spacetime.py:49, 67 *)
Definition spacetime_separatrix (a e x : T) : outcome T := separatrix a e x.
Definition spacetime_is_stable (a p e x : T) : outcome bool := is_stable a p e x.

(* spacetime.py:69-98 *)
Definition metric (a t r theta phi : T) : list (list T) :=
  let sigma := r^2 + a^2 * (ncos theta)^2 in
  let delta := r^2 - #2 * r + a^2 in
  [ [ - (#1 - #2 * r / sigma); #0; #0; - #2 * a * r * (nsin theta)^2 / sigma ];
    [ #0; sigma / delta; #0; #0 ];
    [ #0; #0; sigma; #0 ];
    [ - #2 * a * r * (nsin theta)^2 / sigma; #0; #0;
      (nsin theta)^2 * (r^2 + a^2 + #2 * a^2 * r * (nsin theta)^2 / sigma) ] ].

(* numpy.dot of two vectors / of a matrix and a vector *)
Fixpoint dot (u v : list T) : T :=
  match u, v with
  | x :: u', y :: v' => x * y + dot u' v'
  | _, _ => #0
  end.
Definition mat_vec (m : list (list T)) (v : list T) : list T := map (fun row => dot row v) m.

(* spacetime.py:101-123; v is a 4-vector *)
Definition norm (a t r theta phi : T) (v : T * T * T * T) : T :=
  let '(vt, vr, vth, vph) := v in
  let vl := [vt; vr; vth; vph] in
  dot vl (mat_vec (metric a t r theta phi) vl).

(* spacetime.py:160-162 *)
Definition R_pot (a E L Q r : T) : T :=
  (E * (r^2 + a^2) - a * L)^2 - (r^2 - #2 * r + a^2) * (r^2 + (a * E - L)^2 + Q).
(* spacetime.py:164-168 *)
Definition Z_pot (a E L Q z : T) : T :=
  Q - (Q + a^2 * (#1 - E^2) + L^2) * z^2 + a^2 * (#1 - E^2) * z^4.

(* spacetime.py:170-181 *)
Definition u_t_at (a E L r theta : T) : T :=
  let delta := r^2 - #2 * r + a^2 in
  let sigma := r^2 + a^2 * (ncos theta)^2 in
  #1 / sigma * ((r^2 + a^2) / delta * (E * (r^2 + a^2) - a * L)
                - a^2 * E * (#1 - (ncos theta)^2) + a * L).
(* spacetime.py:183-186 *)
Definition u_r_at (a E L Q q_r r theta : T) : T :=
  let sigma := r^2 + a^2 * (ncos theta)^2 in
  ncopysign1 (nsin q_r) * nsqrt (nabs (R_pot a E L Q r)) / sigma.
(* spacetime.py:188-195 *)
Definition u_theta_at (a E L Q q_theta r theta : T) : T :=
  let sigma := r^2 + a^2 * (ncos theta)^2 in
  ncopysign1 (nsin q_theta) * nsqrt (nabs (Z_pot a E L Q (ncos theta)))
  / (sigma * nsin theta).
(* spacetime.py:197-208 *)
Definition u_phi_at (a E L r theta : T) : T :=
  let sigma := r^2 + a^2 * (ncos theta)^2 in
  let delta := r^2 - #2 * r + a^2 in
  #1 / sigma * (a / delta * (E * (r^2 + a^2) - a * L)
                + L / (#1 - (ncos theta)^2) - a * E).

(** The four component functions returned by [four_velocity]; trajectory
    functions may raise, hence the [outcome]. *)
Definition tfun := T -> outcome T.

(* spacetime.py:125-210 *)
Definition four_velocity (a : T) (r theta : tfun) (constants : T * T * T)
    (upsilon_r upsilon_theta : T) (initial_phases : T * T * T * T)
  : tfun * tfun * tfun * tfun :=
  let '(E, L, Q) := constants in
  let '(q_t0, q_r0, q_theta0, q_phi0) := initial_phases in
  let u_t := fun time => do rt <- r time; do th <- theta time; Ret (u_t_at a E L rt th) in
  let u_r := fun time =>
    do rt <- r time; do th <- theta time;
    Ret (u_r_at a E L Q (upsilon_r * time + q_r0) rt th) in
  let u_theta := fun time =>
    do rt <- r time; do th <- theta time;
    Ret (u_theta_at a E L Q (upsilon_theta * time + q_theta0) rt th) in
  let u_phi := fun time => do rt <- r time; do th <- theta time; Ret (u_phi_at a E L rt th) in
  (u_t, u_r, u_theta, u_phi).

End Spacetime.

(** * Model of /repo/kerrgeopy/orbit.py and of the classes StableOrbit
      (stable.py:11-269) and PlungingOrbit (plunge.py:12-147).
      Drawing (plot, animate) is modelled in Model_Plot.v; here only the index
      arithmetic of animate and is_visible. *)

From Coq Require Import ZArith List String.
From Verif Require Import Num Outcome External Model_Units Model_Constants Model_Frequencies
  Model_Spacetime Model_InitialConditions Model_Stable Model_Plunge.
Import ListNotations.
Open Scope num_scope.
Open Scope outcome_scope.

Definition msg_not_timelike : string := "Initial velocity is not timelike".
Definition msg_not_normalized : string := "Initial velocity is not normalized".
Definition msg_schw_plunge : string := "Schwarzschild plunges are not currently supported".
Definition msg_const_units : string :=
  "M and mu must be specified to convert constants of motion to physical units".
Definition msg_const_unknown : string := "units must be one of 'natural', 'mks', or 'cgs'".
Definition msg_freq_M : string :=
  "M must be specified to convert frequencies to physical units".
Definition msg_fund_unknown : string :=
  "units must be one of 'natural', 'mks', 'cgs', or 'mHz'".

Section Orbit.
Context {T : Type} {N : Num T} {X : External T}.

Notation pos := (T * T * T * T)%type.
Notation traj4 := (@traj T * @traj T * @traj T * @traj T)%type.

(** Attributes set by the constructors (orbit.py:61-106, stable.py:78-101,
    plunge.py:61-81).  [o_apex] = (p, e, x), [o_mino] = (upsilon_phi, gamma),
    [o_omega] = (omega_r, omega_theta, omega_phi) exist only for stable orbits. *)
Record orbit := mkOrbit {
  o_a : T; o_M : option T; o_mu : option T;
  o_E : T; o_L : T; o_Q : T;
  o_stable : bool;
  o_apex : option (T * T * T);
  o_upsilon_r : T; o_upsilon_theta : T;
  o_mino : option (T * T);
  o_omega : option (T * T * T);
  o_phases : pos
}.

(* orbit.py:61-106 *)
Definition Orbit_init (a : T) (position velocity : pos) (M mu : option T) : outcome orbit :=
  let '(t0, r0, theta0, phi0) := position in
  let initial_norm := norm a t0 r0 theta0 phi0 velocity in
  If nleb #0 initial_norm Then Raise (ValueError msg_not_timelike) Else
  If nltb (nQ 1 1000000) (nabs (initial_norm + #1)) Then Raise (ValueError msg_not_normalized) Else
  do c <- constants_from_initial_conditions a position velocity;
  let '(E, L, Q) := c in
  do st <- ic_is_stable a position velocity None default_tol;
  if st then
    do ap <- apex_from_constants a E L Q;
    let '(a, p, e, x) := ap in
    do f <- mino_frequencies a p e x;
    let '(ur, ut, uphi, g) := f in
    do om <- fundamental_frequencies a p e x;
    do ph <- stable_orbit_initial_phases a position velocity None None None None default_tol;
    Ret (mkOrbit a M mu E L Q true (Some (p, e, x)) ur ut (Some (uphi, g)) (Some om) ph)
  else
    If neqb a #0 Then Raise (ValueError msg_schw_plunge) Else
    do ups <- plunging_mino_frequencies a E L Q;
    let '(ur, ut) := ups in
    do ph <- plunging_orbit_initial_phases a position velocity None None default_tol;
    Ret (mkOrbit a M mu E L Q false None ur ut None None ph).

(* stable.py:241-269, plunge.py:121-147, orbit.py:170-222 *)
Definition Orbit_trajectory (o : orbit) (initial_phases : option pos)
    (distance_units time_units : string) : outcome traj4 :=
  let ph := match initial_phases with Some q => q | None => o_phases o end in
  match o_apex o with
  | Some (p, e, x) =>
      stable_trajectory (o_a o) p e x ph (o_M o) distance_units time_units
  | None =>
      plunging_trajectory (o_a o) (o_E o) (o_L o) (o_Q o) ph (o_M o) distance_units time_units
  end.

(* orbit.py:267-298 *)
Definition Orbit_four_velocity (o : orbit) (initial_phases : option pos)
  : outcome ((T -> outcome T) * (T -> outcome T) * (T -> outcome T) * (T -> outcome T)) :=
  let ph := match initial_phases with Some q => q | None => o_phases o end in
  do tr <- Orbit_trajectory o (Some ph) "natural" "natural";
  let '(t, r, theta, phi) := tr in
  Ret (four_velocity (o_a o) r theta (o_E o, o_L o, o_Q o) (o_upsilon_r o) (o_upsilon_theta o) ph).

(* orbit.py:300-327 *)
Definition Orbit_four_velocity_norm (o : orbit) (initial_phases : option pos)
  : outcome (T -> outcome T) :=
  let ph := match initial_phases with Some q => q | None => o_phases o end in
  do tr <- Orbit_trajectory o (Some ph) "natural" "natural";
  let '(t, r, theta, phi) := tr in
  do us <- Orbit_four_velocity o (Some ph);
  let '(u_t, u_r, u_theta, u_phi) := us in
  Ret (fun time =>
    do vt <- u_t time; do vr <- u_r time; do vth <- u_theta time; do vph <- u_phi time;
    do t' <- t time; do r' <- r time; do th' <- theta time; do ph' <- phi time;
    Ret (norm (o_a o) t' r' th' ph' (vt, vr, vth, vph))).

(* stable.py:78-101.  initial_position and initial_velocity (lines 98-101) are
   evaluated for their exceptions. *)
Definition StableOrbit_init (a0 p e x0 : T) (phases : pos) (M mu : option T) : outcome orbit :=
  let '(a, x) := standardize_params a0 x0 in
  do c <- constants_of_motion a p e x;
  let '(E, L, Q) := c in
  do f <- mino_frequencies a p e x;
  let '(ur, ut, uphi, g) := f in
  do om <- fundamental_frequencies a p e x;
  let o := mkOrbit a M mu E L Q true (Some (p, e, x)) ur ut (Some (uphi, g)) (Some om) phases in
  do us <- Orbit_four_velocity o None;
  do tr <- Orbit_trajectory o None "natural" "natural";
  Ret o.

(* stable.py:103-124 *)
Definition StableOrbit_from_constants (a E L Q : T) (phases : pos) (M mu : option T)
  : outcome orbit :=
  do ap <- apex_from_constants a E L Q;
  let '(a, p, e, x) := ap in
  StableOrbit_init a p e x phases M mu.

(* plunge.py:61-81 *)
Definition PlungingOrbit_init (a E L Q : T) (phases : pos) (M mu : option T) : outcome orbit :=
  If neqb a #0 Then Raise (ValueError msg_schw_plunge) Else
  do ups <- plunging_mino_frequencies a E L Q;
  let '(ur, ut) := ups in
  let o := mkOrbit a M mu E L Q false None ur ut None None phases in
  do us <- Orbit_four_velocity o None;
  do tr <- Orbit_trajectory o None "natural" "natural";
  Ret o.

(* orbit.py:108-168 (stable part = stable.py:208-239, plunging part = plunge.py:83-119) *)
Definition Orbit_trajectory_deltas (o : orbit) (initial_phases : option pos)
  : outcome ((T -> T) * (T -> T) * (T -> T) * (T -> T)) :=
  let '(q_t0, q_r0, q_theta0, q_phi0) :=
    match initial_phases with Some q => q | None => o_phases o end in
  let c := (o_E o, o_L o, o_Q o) in
  let a := o_a o in
  do sol <-
    match o_apex o with
    | Some (p, e, x) =>
        do rr <- stable_radial_roots a p e x (Some c);
        do zz <- stable_polar_roots a p e x (Some c);
        let '(r, t_r, phi_r) := radial_solutions a c rr in
        do ps <- polar_solutions a c [fst zz; snd zz];
        let '(theta, t_theta, phi_theta) := ps in
        Ret (q_theta0, t_r, t_theta, phi_r, phi_theta)
    | None =>
        do roots <- plunging_radial_roots a (o_E o) (o_L o) (o_Q o);
        match roots with
        | ComplexRoots _ _ _ _ =>
            do rs <- plunging_radial_solutions_complex a (o_E o) (o_L o) (o_Q o);
            let '(r, t_r, phi_r) := rs in
            do ps <- plunging_polar_solutions a (o_E o) (o_L o) (o_Q o);
            let '(theta, t_theta, phi_theta) := ps in
            Ret (q_theta0 + npi / #2, t_r, t_theta, phi_r, phi_theta)
        | RealRoots r1 r2 r3 r4 =>
            let '(r, t_r, phi_r) := radial_solutions a c (r1, r2, r3, r4) in
            (* orbit.py:159-161: radial_roots, not polar_roots, is passed *)
            do ps <- polar_solutions a c [r1; r2; r3; r4];
            let '(theta, t_theta, phi_theta) := ps in
            Ret (q_theta0, t_r, t_theta, phi_r, phi_theta)
        end
    end;
  let '(q_theta0', t_r, t_theta, phi_r, phi_theta) := sol in
  Ret (fun q_r => t_r (q_r + q_r0),
       fun q_theta => t_theta (q_theta + q_theta0'),
       fun q_r => phi_r (q_r + q_r0),
       fun q_theta => phi_theta (q_theta + q_theta0')).

(* orbit.py:224-265 *)
Definition Orbit_constants_of_motion (o : orbit) (units : string) : outcome (T * T * T) :=
  let c := (o_E o, o_L o, o_Q o) in
  if String.eqb units "natural" then Ret c else
  match o_M o, o_mu o with
  | Some M, Some mu =>
      if String.eqb units "mks" then
        let '(E, L, Q) := scale_constants c #1 (mu / M) in
        Ret (energy_in_joules E M, angular_momentum_in_mks L M, carter_constant_in_mks Q M)
      else if String.eqb units "cgs" then
        let '(E, L, Q) := scale_constants c #1 (mu / M) in
        Ret (energy_in_ergs E M, angular_momentum_in_cgs L M, carter_constant_in_cgs Q M)
      else Raise (ValueError msg_const_unknown)
  | _, _ => Raise (ValueError msg_const_units)
  end.

(* stable.py:126-163 *)
Definition StableOrbit_mino_frequencies (o : orbit) (units : string) : outcome (T * T * T * T) :=
  match o_mino o with
  | None => Undef (* method exists only on StableOrbit *)
  | Some (uphi, g) =>
      if String.eqb units "natural" then Ret (o_upsilon_r o, o_upsilon_theta o, uphi, g) else
      match o_M o with
      | None => Raise (ValueError msg_freq_M)
      | Some M =>
          if (String.eqb units "mks" || String.eqb units "cgs")%bool then
            Ret (time_in_seconds (o_upsilon_r o) M, time_in_seconds (o_upsilon_theta o) M,
                 time_in_seconds uphi M, time2_in_seconds2 g M)
          else Raise (ValueError msg_const_unknown)
      end
  end.

(* stable.py:165-206 *)
Definition StableOrbit_fundamental_frequencies (o : orbit) (units : string)
  : outcome (T * T * T) :=
  match o_mino o with
  | None => Undef
  | Some (uphi, g) =>
      let ur := o_upsilon_r o in
      let ut := o_upsilon_theta o in
      if String.eqb units "natural" then Ret (ur / g, ut / g, uphi / g) else
      match o_M o with
      | None => Raise (ValueError msg_freq_M)
      | Some M =>
          if (String.eqb units "mks" || String.eqb units "cgs")%bool then
            Ret (frequency_in_Hz (ur / g) M, frequency_in_Hz (ut / g) M,
                 frequency_in_Hz (uphi / g) M)
          else if String.eqb units "mHz" then
            Ret (frequency_in_mHz (ur / g) M, frequency_in_mHz (ut / g) M,
                 frequency_in_mHz (uphi / g) M)
          else Raise (ValueError msg_fund_unknown)
      end
  end.

(* orbit.py:381-415: the five-point stencil divided by sigma, for one coordinate
   function [f] *)
Definition stencil (a dx : T) (r theta f : T -> outcome T) (mino_time : T) : outcome T :=
  do rr <- r mino_time;
  do th <- theta mino_time;
  let sigma := rr^2 + a^2 * (ncos th)^2 in
  do f2 <- f (mino_time + #2 * dx);
  do f1 <- f (mino_time + dx);
  do fm1 <- f (mino_time - dx);
  do fm2 <- f (mino_time - #2 * dx);
  Ret ((- f2 + #8 * f1 - #8 * fm1 + fm2) / (#12 * dx * sigma)).

(* orbit.py:358-417 *)
Definition Orbit_numerical_four_velocity (o : orbit) (dx : T) (initial_phases : option pos)
  : outcome (@traj T * @traj T * @traj T * @traj T) :=
  let ph := match initial_phases with Some q => q | None => o_phases o end in
  do tr <- Orbit_trajectory o (Some ph) "natural" "natural";
  let '(t, r, theta, phi) := tr in
  Ret (stencil (o_a o) dx r theta t, stencil (o_a o) dx r theta r,
       stencil (o_a o) dx r theta theta, stencil (o_a o) dx r theta phi).

(* orbit.py:329-356 *)
Definition Orbit_numerical_four_velocity_norm (o : orbit) (dx : T) (initial_phases : option pos)
  : outcome (T -> outcome T) :=
  let ph := match initial_phases with Some q => q | None => o_phases o end in
  do tr <- Orbit_trajectory o (Some ph) "natural" "natural";
  let '(t, r, theta, phi) := tr in
  do us <- Orbit_numerical_four_velocity o dx (Some ph);
  let '(u_t, u_r, u_theta, u_phi) := us in
  Ret (fun time =>
    do vt <- u_t time; do vr <- u_r time; do vth <- u_theta time; do vph <- u_phi time;
    do t' <- t time; do r' <- r time; do th' <- theta time; do ph' <- phi time;
    Ret (norm (o_a o) t' r' th' ph' (vt, vr, vth, vph))).

(** ** is_visible, orbit.py:544-588 *)
Definition pt := (T * T * T)%type.
Definition dot3 (u v : pt) : T :=
  let '(u1, u2, u3) := u in let '(v1, v2, v3) := v in u1 * v1 + u2 * v2 + u3 * v3.
(* orbit.py:572-576 *)
Definition view_plane_normal (elevation azimuth : T) : pt :=
  let el := elevation * npi / #180 in
  let az := azimuth * npi / #180 in
  (ncos el * ncos az, ncos el * nsin az, nsin el).
(* orbit.py:580-583 *)
Definition project (n p : pt) : pt :=
  let c := dot3 p n in
  let '(p1, p2, p3) := p in let '(n1, n2, n3) := n in
  (p1 - c * n1, p2 - c * n2, p3 - c * n3).
(* np.linalg.norm(points) without axis: Frobenius norm of the whole array *)
Definition frobenius (points : list pt) : T :=
  nsqrt (fold_right (fun p acc => dot3 p p + acc) #0 points).
Definition is_visible (a : T) (points : list pt) (elevation azimuth : T) : list (option bool) :=
  let event_horizon := #1 + nsqrt (#1 - a^2) in
  let n := view_plane_normal elevation azimuth in
  map (fun p =>
         let q := project n p in
         oand (oor (nleb #0 (dot3 p n)) (nltb event_horizon (nsqrt (dot3 q q))))
              (nltb event_horizon (frobenius points)))
      points.

End Orbit.

(** ** Index arithmetic of animate, orbit.py:665-670, 796-798, 843.
    [num_pts] = int(lambda_range * 240), [speed8] = int(speed * 8),
    [tail240] = tail_length * 240 (an int for an int tail_length). *)
Section Animate.
Local Open Scope Z_scope.
(* int(num_pts / speed_multiplier): true division then truncation; for the
   non-negative values reached here it is the integer quotient *)
Definition num_frames (num_pts speed8 : Z) : outcome Z :=
  if Z.eqb speed8 0 then Raise ZeroDivisionError else Ret (Z.quot num_pts speed8).
Definition frame_index (speed8 i : Z) : Z := speed8 * i.
Definition frame_tail_start (tail240 j : Z) : Z := Z.max 0 (j - tail240).
(* numpy indexing of an array of length n *)
Definition np_index (n j : Z) : outcome Z :=
  if (Z.leb 0 j && Z.ltb j n)%bool then Ret j
  else if (Z.leb (- n) j && Z.ltb j 0)%bool then Ret (n + j)
  else Raise IndexError.
(* length of the slice v[-k:] of an array of length n, k >= 0: v[-0:] is v[0:] *)
Definition np_suffix_len (n k : Z) : Z := if Z.eqb k 0 then n else Z.min k n.
End Animate.

(** * Model of Orbit.plot (orbit.py:419-543) and Orbit.animate (orbit.py:590-880).

    The value returned is the list of everything handed to matplotlib: line
    segments with their widths or opacities, the marker of the small body, the
    black-hole sphere, axis limits and camera angles.  Not modelled: matplotlib
    itself (projection, rasterisation, clipping, its argument checks), tqdm,
    ffmpeg, colours.  The text label and the four side panels drawn when
    plot_components=True are in Model_Components.v.  Arrays are lists; a masked coordinate (z set to nan,
    orbit.py:492-494) is [None]. *)

From Coq Require Import ZArith Reals String List.
From Verif Require Import Num Outcome External Model_Constants Model_Stable Model_Orbit.
Import ListNotations.
Open Scope num_scope.
Open Scope outcome_scope.

(** Python's int() on a float: truncation towards zero. *)
Class Trunc (T : Type) := { ntrunc : T -> outcome Z }.
Definition Rtrunc (x : R) : Z :=
  if Rle_dec 0 x then Int_part x else Z.opp (Int_part (Ropp x)).
#[global] Instance RTrunc : Trunc R := { ntrunc x := Ret (Rtrunc x) }.
#[global] Instance CTrunc : Trunc (option R) :=
  { ntrunc x := match x with Some v => Ret (Rtrunc v) | None => Undef end }.

(** A Python number that may be an int or a float ([tail_length]). *)
Inductive pynum (T : Type) := PyInt (n : Z) | PyFloat (x : T).
Arguments PyInt {T} n.
Arguments PyFloat {T} x.

(* numpy.linspace: "Number of samples, %s, must be non-negative." *)
Definition msg_linspace : string := "Number of samples must be non-negative".

Section Plot.
Context {T : Type} {N : Num T} {X : External T} {I : Trunc T}.
Notation pos := (T * T * T * T)%type.
Notation pt := (T * T * T)%type.
(* a vertex of a segment: x, y and z, or nan where masked *)
Definition vertex := (T * T * option T)%type.

(* applying a trajectory component to an array, r(time) *)
Fixpoint eval_array (f : T -> outcome T) (ts : list T) : outcome (list T) :=
  match ts with
  | [] => Ret []
  | t :: ts => do v <- f t; do vs <- eval_array f ts; Ret (v :: vs)
  end.

(* orbit.py:470-472, 665-668 *)
Definition time_grid (lambda0 lambda1 density : T) : outcome (list T) :=
  do n <- ntrunc ((lambda1 - lambda0) * density);
  if (n <? 0)%Z then Raise (ValueError msg_linspace)
  else Ret (linspace lambda0 lambda1 (Z.to_nat n)).

(* orbit.py:477-479, 717-719 *)
Definition cartesian (r theta phi : T) : pt :=
  (r * nsin theta * ncos phi, r * nsin theta * nsin phi, r * ncos theta).
Fixpoint cartesian_list (rs thetas phis : list T) : list pt :=
  match rs, thetas, phis with
  | r :: rs, th :: thetas, ph :: phis => cartesian r th ph :: cartesian_list rs thetas phis
  | _, _, _ => []
  end.
(* orbit.py:474-480 and 672, 717-720: the sampled trajectory, one point per entry of time *)
Definition sample (o : @orbit T) (initial_phases : option pos) (time : list T)
  : outcome (list pt) :=
  do tr <- Orbit_trajectory o initial_phases "natural" "natural";
  let '(t, r, theta, phi) := tr in
  do rs <- eval_array r time;
  do ths <- eval_array theta time;
  do phs <- eval_array phi time;
  Ret (cartesian_list rs ths phs).

(* orbit.py:483-488, 714, 723-727: 50 x 25 points of the horizon sphere *)
Definition sphere (a : T) : list pt :=
  let eh := #1 + nsqrt (#1 - a^2) in
  flat_map (fun u => map (fun v => (eh * (ncos u * nsin v), eh * (nsin u * nsin v), eh * (#1 * ncos v)))
                         (linspace #0 npi 25))
           (linspace #0 (#2 * npi) 50).

(* orbit.py:492-494, 822-826 *)
Fixpoint mask (points : list pt) (visible : list (option bool)) : list vertex :=
  match points, visible with
  | (x, y, z) :: ps, v :: vs =>
      (x, y, match v with Some true => Some z | Some false => None | None => Some nundef end)
      :: mask ps vs
  | _, _ => []
  end.
(* orbit.py:500-507, 827-840: pairs of consecutive points *)
Fixpoint consecutive {A} (l : list A) : list (A * A) :=
  match l with
  | p :: ((q :: _) as l') => (p, q) :: consecutive l'
  | _ => []
  end.

(* orbit.py:497 and 740-742: flip(c + lw * exp(-(time - time[0]) / tau)); tau=None is
   numpy.inf, for which the exponent is -0 *)
Definition decay_at (c lw : T) (tau : option T) (dt : T) : T :=
  c + lw * nexp (match tau with Some tau => - dt / tau | None => #0 end).
Definition decay (c lw : T) (tau : option T) (time : list T) : outcome (list T) :=
  match time with
  | [] => Raise IndexError
  | t0 :: _ => Ret (rev (map (fun t => decay_at c lw tau (t - t0)) time))
  end.

(* numpy min / max of a non-empty array *)
Definition nmin2 (x y : T) : T := nif (nltb y x) y x.
Definition nmax2 (x y : T) : T := nif (nltb x y) y x.
Definition nmin (x : T) (l : list T) : T := fold_left nmin2 l x.
Definition nmax (x : T) (l : list T) : T := fold_left nmax2 l x.
Definition extent (l : list T) : outcome (T * T) :=
  match l with
  | [] => Raise (ValueError "zero-size array to reduction operation minimum which has no identity")
  | x :: l => Ret (nmin x l, nmax x l)
  end.
Definition px (p : pt) : T := let '(x, _, _) := p in x.
Definition py (p : pt) : T := let '(_, y, _) := p in y.
Definition pz (p : pt) : T := let '(_, _, z) := p in z.

Record figure := mkFigure {
  f_segments : list (vertex * vertex);
  f_widths : list T;
  f_body : pt;
  f_sphere : list pt;
  f_xlim : T * T; f_ylim : T * T; f_zlim : T * T;
  f_view : T * T;
  f_grid : bool; f_axes : bool
}.

(* orbit.py:419-543 *)
Definition plot (o : @orbit T) (lambda0 lambda1 elevation azimuth : T)
    (initial_phases : option pos) (grid axes : bool) (lw : T) (tau : option T)
    (point_density : T) : outcome figure :=
  let ph := match initial_phases with Some q => q | None => o_phases o end in
  do time <- time_grid lambda0 lambda1 point_density;
  do trajectory <- sample o (Some ph) time;
  let visible := is_visible (o_a o) trajectory elevation azimuth in
  do widths <- decay (nQ 1 10) lw tau time;
  let segments := consecutive (mask trajectory visible) in
  match trajectory with
  | [] => Raise IndexError                     (* trajectory_x[-1], orbit.py:518 *)
  | p :: _ =>
      let body := last trajectory p in
      let pts := trajectory ++ sphere (o_a o) in
      do xl <- extent (map px pts);
      do yl <- extent (map py pts);
      do zl <- extent (map pz pts);
      Ret (mkFigure segments widths body (sphere (o_a o)) xl yl zl (elevation, azimuth) grid axes)
  end.

(** ** animate *)
Record frame := mkFrame {
  fr_time : T;
  fr_segments : list (vertex * vertex);
  fr_alpha : list T;
  fr_body : pt;
  fr_view : T * T * T;        (* elevation, azimuth, roll *)
  fr_limit : option T         (* axis limit set on this frame *)
}.
Record movie := mkMovie {
  m_frames : list frame;
  m_sphere : list pt;
  m_limit : T;                (* initial axis limits are (-limit, limit) on each axis *)
  m_fps : Z
}.

(* array indexing and slicing used by draw_frame *)
Definition get {A} (l : list A) (j : Z) : outcome A :=
  do k <- np_index (Z.of_nat (length l)) j;
  match nth_error l (Z.to_nat k) with Some v => Ret v | None => Raise IndexError end.
(* l[j0:j] for 0 <= j0, 0 <= j *)
Definition slice {A} (l : list A) (j0 j : Z) : list A :=
  firstn (Z.to_nat (j - j0)) (skipn (Z.to_nat j0) l).
(* l[-k:] *)
Definition suffix {A} (l : list A) (k : Z) : list A :=
  let n := Z.of_nat (length l) in
  if (0 <? k)%Z then skipn (Z.to_nat (Z.max 0 (n - k))) l
  else skipn (Z.to_nat (- k)) l.

(* orbit.py:797: max(0, j - tail_length * point_density); Python's max returns the int 0
   unless the other argument is larger, and a float bound makes the slices at lines 823,
   825 and 831 raise TypeError *)
Definition tail_start (tail_length : pynum T) (j : Z) : outcome Z :=
  match tail_length with
  | PyInt k => Ret (frame_tail_start (k * 240) j)
  | PyFloat x => If nltb #0 (nZ j - x * #240) Then Raise TypeError Else Ret 0%Z
  end.

(* abs of the entry of largest absolute value, orbit.py:749-762; Python's max keeps the
   first of equal keys *)
Definition absmax2 (x y : T) : T := nif (nltb (nabs x) (nabs y)) y x.
Definition absmax (x : T) (l : list T) : T := nabs (fold_left absmax2 l x).

(* orbit.py:792-868 *)
Definition draw_frame (a : T) (time : list T) (trajectory : list pt) (alphas : list T)
    (elevation azimuth : T) (tail_length : pynum T) (azimuthal_pan elevation_pan roll axis_limit
    : option (T -> T)) (speed_multiplier i : Z) : outcome frame :=
  let j := frame_index speed_multiplier i in
  do current_time <- get time j;
  let az := match azimuthal_pan with Some f => f current_time | None => azimuth end in
  let el := match elevation_pan with Some f => f current_time | None => elevation end in
  let ro := match roll with Some f => f current_time | None => #0 end in
  let lim := match axis_limit with Some f => Some (f current_time) | None => None end in
  do j0 <- tail_start tail_length j;
  let tail := slice trajectory j0 j in
  let visible := is_visible a tail el az in
  do body <- get trajectory j;
  Ret (mkFrame current_time (consecutive (mask tail visible)) (suffix alphas (j - j0)) body
               (el, az, ro) lim).

Fixpoint draw_frames (draw : Z -> outcome frame) (start : Z) (n : nat) : outcome (list frame) :=
  match n with
  | O => Ret []
  | S n => do f <- draw start; do fs <- draw_frames draw (start + 1)%Z n; Ret (f :: fs)
  end.

(* orbit.py:590-880 *)
Definition animate (o : @orbit T) (lambda0 lambda1 elevation azimuth : T)
    (initial_phases : option pos) (tau : option T) (tail_length : pynum T)
    (azimuthal_pan elevation_pan roll : option (T -> T)) (speed : T)
    (axis_limit : option (T -> T)) : outcome movie :=
  do time <- time_grid lambda0 lambda1 #240;
  do speed_multiplier <- ntrunc (speed * #8);
  do nf <- num_frames (Z.of_nat (length time)) speed_multiplier;
  do trajectory <- sample o initial_phases time;
  do alphas <- decay (nQ 1 10) (nQ 9 10) tau time;
  let pts := trajectory ++ sphere (o_a o) in
  do xl <- extent (map px pts);
  do yl <- extent (map py pts);
  do zl <- extent (map pz pts);
  let limit := absmax (fst xl) [fst yl; fst zl; snd xl; snd yl; snd zl] in
  do frames <- draw_frames (draw_frame (o_a o) time trajectory alphas elevation azimuth tail_length
                              azimuthal_pan elevation_pan roll axis_limit speed_multiplier)
                           0%Z (Z.to_nat nf);
  Ret (mkMovie frames (sphere (o_a o)) limit 30).

End Plot.

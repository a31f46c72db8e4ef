(** * Model of the side panels and the label of Orbit.animate(plot_components=True)
      (orbit.py:675-710 and 851-866).

    The value is the data handed to matplotlib: the four full curves drawn first (they fix the
    autoscaled axes), and for every frame the four partial curves and the fields of the text
    label.  Not modelled: layout, fonts, the number of digits of the label. *)
From Coq Require Import ZArith Reals String List.
From Verif Require Import Num Outcome External Model_Constants Model_Stable Model_Orbit Model_Plot.
Import ListNotations.
Open Scope num_scope.
Open Scope outcome_scope.

Section Components.
Context {T : Type} {N : Num T} {X : External T} {I : Trunc T}.
Notation pos := (T * T * T * T)%type.

(* the data of the four panels: abscissas (Mino time) and ordinates t, r, theta, phi *)
Record panels := mkPanels { pn_time : list T; pn_t : list T; pn_r : list T; pn_theta : list T; pn_phi : list T }.

(* orbit.py:697-700 with all of time, 853-856 with time[:j] *)
Definition draw_panels (t r theta phi : @traj T) (time : list T) : outcome panels :=
  do ts <- eval_array t time;
  do rs <- eval_array r time;
  do ths <- eval_array theta time;
  do phs <- eval_array phi time;
  Ret (mkPanels time ts rs ths phs).

(* orbit.py:857-866: the fields shown in the label.  A stable orbit without p, e, x does not
   occur: the constructors set both together. *)
Definition label (o : @orbit T) (current_time : T) : outcome (list (string * T)) :=
  if o_stable o then
    match o_apex o with
    | Some (p, e, x) => Ret [("a", o_a o); ("p", p); ("e", e); ("x", x); ("lambda", current_time)]%string
    | None => Undef
    end
  else Ret [("a", o_a o); ("E", o_E o); ("L", o_L o); ("Q", o_Q o); ("lambda", current_time)]%string.

(* orbit.py:851-866, inside draw_frame(i) *)
Definition frame_panels (o : @orbit T) (t r theta phi : @traj T) (time : list T) (speed_multiplier i : Z)
  : outcome (panels * list (string * T)) :=
  let j := frame_index speed_multiplier i in
  do current_time <- get time j;
  do ps <- draw_panels t r theta phi (slice time 0%Z j);
  do lb <- label o current_time;
  Ret (ps, lb).

Fixpoint all_frames {A} (draw : Z -> outcome A) (start : Z) (n : nat) : outcome (list A) :=
  match n with
  | O => Ret []
  | S n => do f <- draw start; do fs <- all_frames draw (start + 1)%Z n; Ret (f :: fs)
  end.

(* orbit.py:590-880 with plot_components=True: the movie of [animate], the full curves, and
   the panels of every frame *)
Definition animate_components (o : @orbit T) (lambda0 lambda1 elevation azimuth : T)
    (initial_phases : option pos) (tau : option T) (tail_length : pynum T)
    (azimuthal_pan elevation_pan roll : option (T -> T)) (speed : T)
    (axis_limit : option (T -> T)) : outcome (movie * panels * list (panels * list (string * T))) :=
  do time <- time_grid lambda0 lambda1 #240;
  do speed_multiplier <- ntrunc (speed * #8);
  do nf <- num_frames (Z.of_nat (length time)) speed_multiplier;
  do tr <- Orbit_trajectory o initial_phases "natural" "natural";
  let '(t, r, theta, phi) := tr in
  do full <- draw_panels t r theta phi time;
  do m <- animate o lambda0 lambda1 elevation azimuth initial_phases tau tail_length
            azimuthal_pan elevation_pan roll speed axis_limit;
  do ps <- all_frames (frame_panels o t r theta phi time speed_multiplier) 0%Z (Z.to_nat nf);
  Ret (m, full, ps).
End Components.

(** * Independent specifications, in textbook notation.

    Nothing here refers to the model.  References: Carter (1968); Bardeen, Press
    & Teukolsky (1972); Fujita & Hikida (2009); van de Meent (2020). Geometric
    units, black hole mass 1. *)

From Coq Require Import Reals List Lra.
From Coquelicot Require Import Coquelicot.
Import ListNotations.
Open Scope R_scope.

(** ** Kerr geometry in Boyer-Lindquist coordinates *)
Definition Sigma (a r theta : R) : R := r ^ 2 + a ^ 2 * cos theta ^ 2.
Definition Delta (a r : R) : R := r ^ 2 - 2 * r + a ^ 2.

(** Kerr line element in Carter's canonical (separated) form. *)
Definition kerr_line_element (a r theta vt vr vth vph : R) : R :=
  - (Delta a r / Sigma a r theta) * (vt - a * sin theta ^ 2 * vph) ^ 2
  + sin theta ^ 2 / Sigma a r theta * ((r ^ 2 + a ^ 2) * vph - a * vt) ^ 2
  + Sigma a r theta / Delta a r * vr ^ 2
  + Sigma a r theta * vth ^ 2.

(** ** Geodesic potentials for unit rest mass *)
Definition radial_potential (a E L Q r : R) : R :=
  (E * (r ^ 2 + a ^ 2) - a * L) ^ 2 - Delta a r * (r ^ 2 + (L - a * E) ^ 2 + Q).
(** Theta(theta) = Q - cos^2 theta (a^2 (1-E^2) + L^2 / sin^2 theta) *)
Definition polar_potential (a E L Q theta : R) : R :=
  Q - cos theta ^ 2 * (a ^ 2 * (1 - E ^ 2) + L ^ 2 / sin theta ^ 2).
(** the polar potential times sin^2, as a polynomial in z = cos^2 theta *)
Definition polar_polynomial (a E L Q z : R) : R :=
  Q * (1 - z) - z * (a ^ 2 * (1 - E ^ 2) * (1 - z) + L ^ 2).

(** right-hand sides of the Mino-time geodesic equations *)
Definition dt_dlambda (a E L r theta : R) : R :=
  (r ^ 2 + a ^ 2) / Delta a r * (E * (r ^ 2 + a ^ 2) - a * L)
  + a * (L - a * E * sin theta ^ 2).
Definition dphi_dlambda (a E L r theta : R) : R :=
  a / Delta a r * (E * (r ^ 2 + a ^ 2) - a * L)
  + (L / sin theta ^ 2 - a * E).

(** lowered momenta read off the line element by polarisation:
    p_mu w^mu where p is conserved; E = - p_t, L = p_phi *)
Definition p_t (a r theta vt vph : R) : R :=
  - (Delta a r / Sigma a r theta) * (vt - a * sin theta ^ 2 * vph)
  - a * sin theta ^ 2 / Sigma a r theta * ((r ^ 2 + a ^ 2) * vph - a * vt).
Definition p_phi (a r theta vt vph : R) : R :=
  a * sin theta ^ 2 * (Delta a r / Sigma a r theta) * (vt - a * sin theta ^ 2 * vph)
  + (r ^ 2 + a ^ 2) * (sin theta ^ 2 / Sigma a r theta) * ((r ^ 2 + a ^ 2) * vph - a * vt).

(** * Specification of the special functions (exact-arithmetic idealisation)

    Legendre's elliptic integrals with parameter m = k^2 (DLMF 19.2.4-19.2.7, the
    convention of scipy.special), Jacobi's functions as the inverse of the first
    kind (DLMF 22.2, 22.16.10), and Carlson's symmetric integrals (DLMF 19.16.1,
    19.16.2, 19.16.5).  Nothing here refers to the model. *)
From Coq Require Import Reals Lra.
From Coquelicot Require Import Coquelicot.
From Verif Require Import Num Outcome External.
Open Scope R_scope.

Definition ellF (phi m : R) : R := RInt (fun t => / sqrt (1 - m * sin t ^ 2)) 0 phi.
Definition ellE (phi m : R) : R := RInt (fun t => sqrt (1 - m * sin t ^ 2)) 0 phi.
Definition ellPi (n phi m : R) : R :=
  RInt (fun t => / ((1 - n * sin t ^ 2) * sqrt (1 - m * sin t ^ 2))) 0 phi.
Definition ellK (m : R) : R := ellF (PI / 2) m.

(** improper integral over (0, oo) *)
Definition int_0_oo (f : R -> R) : R := RInt_gen f (at_right 0) (Rbar_locally p_infty).
Definition carlson_RF (x y z : R) : R :=
  int_0_oo (fun t => 1/2 / sqrt ((t + x) * (t + y) * (t + z))).
Definition carlson_RJ (x y z p : R) : R :=
  int_0_oo (fun t => 3/2 / (sqrt ((t + x) * (t + y) * (t + z)) * (t + p))).
Definition carlson_RD (x y z : R) : R := carlson_RJ x y z z.
(** [l] is the Cauchy principal value of the integral of [f] over (0, oo), [s] > 0 being the
    only singularity inside the interval *)
Definition is_principal_value (f : R -> R) (s l : R) : Prop :=
  exists I J : R -> R,
  at_right 0 (fun eps => is_RInt_gen f (at_right 0) (at_point (s - eps)) (I eps) /\
                         is_RInt_gen f (at_point (s + eps)) (Rbar_locally p_infty) (J eps)) /\
  filterlim (fun eps => I eps + J eps) (at_right 0) (locally l).
Definition carlson_RJ_principal (x y z p l : R) : Prop :=
  is_principal_value (fun t => 3/2 / (sqrt ((t + x) * (t + y) * (t + z)) * (t + p))) (- p) l.

(** scipy.special returns these functions.  ellipj: the amplitude ph is the
    (continuous, unreduced) inverse of ellF.  Carlson functions are only specified
    for x >= 0, y > 0, z > 0; elliprj with p < 0 returns the Cauchy principal value
    (scipy.special.elliprj, Notes; DLMF 19.2(iv)). *)
Record special_spec (X : External R) : Prop := {
  sp_ellipk : forall m, m < 1 -> ellipk m = ellK m;
  sp_ellipe : forall m, m < 1 -> ellipe m = ellE (PI / 2) m;
  sp_ellipkinc : forall phi m, m < 1 -> ellipkinc phi m = ellF phi m;
  sp_ellipkinc1 : forall phi, - (PI / 2) < phi < PI / 2 -> ellipkinc phi 1 = ellF phi 1;
  sp_ellipeinc : forall phi m, m < 1 -> ellipeinc phi m = ellE phi m;
  sp_ellipj : forall u m, 0 <= m < 1 ->
    exists ph, ellF ph m = u /\
      ellipj u m = (sin ph, cos ph, sqrt (1 - m * sin ph ^ 2), ph);
  sp_elliprf : forall x y z, 0 <= x -> 0 < y -> 0 < z -> elliprf x y z = carlson_RF x y z;
  sp_elliprd : forall x y z, 0 <= x -> 0 < y -> 0 < z -> elliprd x y z = carlson_RD x y z;
  sp_elliprj : forall x y z p, 0 <= x -> 0 < y -> 0 < z -> 0 < p ->
    elliprj x y z p = carlson_RJ x y z p;
  sp_elliprj_principal : forall x y z p l, 0 <= x -> 0 < y -> 0 < z -> p < 0 ->
    carlson_RJ_principal x y z p l -> elliprj x y z p = l
}.

(** * What a geodesic is (independent of the model)

    Coordinates are numbered 0 = t, 1 = r, 2 = theta, 3 = phi.  A metric is a function from the
    four coordinates to a 4x4 array. *)
From Coq Require Import Reals Lia.
From Coquelicot Require Import Coquelicot.
Open Scope R_scope.

Definition sum4 (f : nat -> R) : R := f 0%nat + f 1%nat + f 2%nat + f 3%nat.
Definition set_coord (x : nat -> R) (mu : nat) (y : R) : nat -> R := fun nu => if Nat.eqb nu mu then y else x nu.
(** partial derivative of g_ij with respect to the coordinate mu, at the point x *)
Definition partial (g : (nat -> R) -> nat -> nat -> R) (mu i j : nat) (x : nat -> R) : R :=
  Derive (fun y => g (set_coord x mu y) i j) (x mu).

(** The curve x (parameter l, proper time tau with d tau / d l = w) is a timelike geodesic on the
    set D of parameter values: there is a four-velocity u = dx/dtau with g(u,u) = -1 and
    d/dtau (g_mu,nu u^nu) = 1/2 (d g_alpha,beta / d x^mu) u^alpha u^beta
    (the Euler-Lagrange equations of 1/2 g(u,u), equivalent to the vanishing of the covariant acceleration). *)
Definition timelike_geodesic (g : (nat -> R) -> nat -> nat -> R) (D : R -> Prop) (x : nat -> R -> R) (w : R -> R) : Prop :=
  exists u : nat -> R -> R, forall l, D l ->
    0 < w l /\
    (forall mu, (mu < 4)%nat -> is_derive (x mu) l (w l * u mu l)) /\
    sum4 (fun i => sum4 (fun j => g (fun k => x k l) i j * u i l * u j l)) = -1 /\
    (forall mu, (mu < 4)%nat ->
       (forall i j, (i < 4)%nat -> (j < 4)%nat -> ex_derive (fun y => g (set_coord (fun k => x k l) mu y) i j) (x mu l)) /\
       is_derive (fun s => sum4 (fun j => g (fun k => x k s) mu j * u j s)) l
         (w l * (1 / 2 * sum4 (fun i => sum4 (fun j => partial g mu i j (fun k => x k l) * u i l * u j l))))).

(** * C100: spherical and equatorial orbits oscillate with the epicyclic frequencies of the potentials *)
From Coq Require Import Reals Lra Lia String.
From Coquelicot Require Import Coquelicot.
From Verif Require Import Num Outcome External Checked ExternalSpec.
From Verif Require Import Model_Constants Model_Frequencies Model_Stable.
From Verif Require Import Spec SpecElliptic Elliptic P_Validation Props_Validation P_Bounds P_Schmidt P_Constants Props_Constants.
From Verif Require Import P_Radial P_Polar P_Traj P_Traj2 P_Traj3 P_Traj4 Props_Trajectory Props_Frequencies Props_Restart.
Open Scope R_scope.

Section Epi.
Context {X : External R} (HX : special_spec X) (HR : root_spec X).

(** a spherical orbit (e = 0) sits at a double root of the radial potential, and its radial
    frequency is that of small oscillations about it: R'' = - 2 Upsilon_r^2 *)
Theorem C100_radial_epicyclic a p x ur uth uph gam E L Q :
  mino_frequencies (Some a) (Some p) (Some 0) (Some x) = Ret (Some ur, Some uth, Some uph, Some gam) ->
  constants_of_motion (Some a) (Some p) (Some 0) (Some x) = Ret (Some E, Some L, Some Q) ->
  radial_potential (Rabs a) E L Q p = 0 /\ is_derive (radial_potential (Rabs a) E L Q) p 0 /\
  is_derive_n (radial_potential (Rabs a) E L Q) 2 p (- 2 * ur^2) /\ 0 < ur.
Proof.
  intros HF HC. rewrite mino_std in HF. rewrite constants_std in HC.
  destruct (mino_facts HX HR _ _ _ _ _ _ _ _ (Rabs_pos a) HF) as (E' & L' & Q' & r1 & r2 & r3 & r4 & zp & beta & a2s & F).
  rewrite (of_constants _ _ _ _ _ _ _ _ _ _ _ _ _ _ _ _ _ _ F) in HC.
  assert (E' = E /\ L' = L /\ Q' = Q) as (-> & -> & ->) by (apply Ret_inj in HC; repeat split; congruence).
  destruct F. assert (R1 : r1 = p) by (rewrite of_r1; field). assert (R2 : r2 = p) by (rewrite of_r2; field). clear of_r1 of_r2. subst r1 r2.
  assert (K0 : kr2 p p r3 r4 = 0) by (unfold kr2; rewrite Rminus_eq_0; unfold Rdiv; ring).
  pose proof PI_RGT_0 as HPI.
  assert (UR : ur = sqrt (sr2 (1 - E^2) p p r3 r4)). { rewrite of_ur, K0, (proj1 ellK_E_0). field. lra. }
  set (f := radial_potential (Rabs a) E L Q) in *.
  assert (D1 : forall r, is_derive f r ((1 - E^2) * (2 * (p - r) * (r - r3) * (r - r4) - (p - r)^2 * (2 * r - r3 - r4)))).
  { intros r. apply (is_derive_ext (fun r => (1 - E^2) * (p - r) * (r - p) * (r - r3) * (r - r4))); [intros s; symmetry; apply of_R|]. auto_derive; [trivial | ring]. }
  refine (conj _ (conj _ (conj _ _))).
  - unfold f. rewrite of_R. ring.
  - match goal with |- is_derive _ _ ?v => replace v with ((1 - E^2) * (2 * (p - p) * (p - r3) * (p - r4) - (p - p)^2 * (2 * p - r3 - r4))) by ring end. apply D1.
  - unfold is_derive_n. apply (is_derive_ext (fun r => (1 - E^2) * (2 * (p - r) * (r - r3) * (r - r4) - (p - r)^2 * (2 * r - r3 - r4)))).
    + intros r. cbn [Derive_n]. symmetry. exact (is_derive_unique f r _ (D1 r)).
    + rewrite UR, pow2_sqrt by lra. unfold sr2. auto_derive; [trivial | ring].
  - rewrite UR. now apply sqrt_lt_R0.
Qed.

(** an equatorial orbit (x = 1 or -1, any eccentricity) sits at the maximum of the polar
    potential, and its polar frequency is that of small oscillations out of the plane:
    Theta'' = - 2 Upsilon_theta^2, with Upsilon_theta^2 = L^2 + a^2 (1 - E^2) *)
Theorem C100_polar_epicyclic a p e x ur uth uph gam E L Q : x = 1 \/ x = -1 ->
  mino_frequencies (Some a) (Some p) (Some e) (Some x) = Ret (Some ur, Some uth, Some uph, Some gam) ->
  constants_of_motion (Some a) (Some p) (Some e) (Some x) = Ret (Some E, Some L, Some Q) ->
  uth^2 = L^2 + a^2 * (1 - E^2) /\ 0 < uth /\
  polar_potential (Rabs a) E L Q (PI / 2) = 0 /\ is_derive (polar_potential (Rabs a) E L Q) (PI / 2) 0 /\
  is_derive_n (polar_potential (Rabs a) E L Q) 2 (PI / 2) (- 2 * uth^2).
Proof.
  intros Hx HF HC. rewrite mino_std in HF. rewrite constants_std in HC.
  destruct (mino_facts HX HR _ _ _ _ _ _ _ _ (Rabs_pos a) HF) as (E' & L' & Q' & r1 & r2 & r3 & r4 & zp & beta & a2s & F).
  rewrite (of_constants _ _ _ _ _ _ _ _ _ _ _ _ _ _ _ _ _ _ F) in HC.
  assert (E' = E /\ L' = L /\ Q' = Q) as (-> & -> & ->) by (apply Ret_inj in HC; repeat split; congruence).
  destruct F. set (y := x * spin_sign a) in *.
  assert (Y : 1 - y^2 = 0). { unfold y. destruct (spin_sign_cases a) as [-> | ->], Hx as [-> | ->]; ring. }
  rewrite Y in *. pose proof PI_RGT_0 as HPI.
  assert (BB : beta = L^2 + a^2 * (1 - E^2)) by (rewrite of_beta, pow2_abs; field).
  assert (UT : uth = sqrt beta). { rewrite of_uth. replace (kt2 (Rabs a ^2 * (1 - E^2)) 0 beta) with 0 by (unfold kt2, Rdiv; ring). rewrite (proj1 ellK_E_0). field. lra. }
  assert (U2 : uth^2 = beta) by (rewrite UT; apply pow2_sqrt; lra).
  assert (Q0 : Q = 0). { pose proof (of_Z 0) as Z. unfold polar_polynomial in Z. lra. }
  set (A := Rabs a ^2 * (1 - E^2)). assert (BA : beta = L^2 + A) by (unfold A; rewrite pow2_abs; exact BB).
  set (f := polar_potential (Rabs a) E L Q).
  assert (D1 : forall s, sin s <> 0 -> is_derive f s (2 * cos s * sin s * (A + L^2 / sin s ^2) + 2 * L^2 * cos s ^3 / sin s ^3)).
  { intros s Hs. unfold f, polar_potential. fold A. auto_derive; [now apply Rmult_integral_contrapositive_currified; [|rewrite Rmult_1_r]|]. field. exact Hs. }
  assert (S1 : sin (PI / 2) = 1) by apply sin_PI2. assert (C1 : cos (PI / 2) = 0) by apply cos_PI2.
  refine (conj _ (conj _ (conj _ (conj _ _)))).
  - rewrite U2. exact BB.
  - rewrite UT. now apply sqrt_lt_R0.
  - unfold f, polar_potential. rewrite C1, Q0. ring.
  - match goal with |- is_derive _ _ ?v => replace v with (2 * cos (PI/2) * sin (PI/2) * (A + L^2 / sin (PI/2) ^2) + 2 * L^2 * cos (PI/2) ^3 / sin (PI/2) ^3) end; [apply D1; lra|]. rewrite C1. unfold Rdiv. ring.
  - unfold is_derive_n. apply (is_derive_ext_loc (fun s => 2 * cos s * sin s * (A + L^2 / sin s ^2) + 2 * L^2 * cos s ^3 / sin s ^3)).
    + apply (filter_imp (fun s => sin s <> 0)).
      * intros s Hs. cbn [Derive_n]. symmetry. exact (is_derive_unique f s _ (D1 s Hs)).
      * assert (CS : continuous sin (PI / 2)). { apply (ex_derive_continuous (V := R_NormedModule)). auto_derive. trivial. }
        apply (CS (fun v => v <> 0)). apply (open_neq 0). lra.
    + rewrite U2, BA. auto_derive; rewrite S1, ?C1; [repeat split; lra|]. field.
Qed.

(** concrete case: an inclined spherical and an eccentric equatorial retrograde orbit *)
Example C100_case : exists ur uth uph gam ur' uth' uph' gam' E L Q E' L' Q',
  mino_frequencies (Some (1/2)) (Some 12) (Some 0) (Some (-1/2)) = Ret (Some ur, Some uth, Some uph, Some gam) /\
  constants_of_motion (Some (1/2)) (Some 12) (Some 0) (Some (-1/2)) = Ret (Some E, Some L, Some Q) /\
  mino_frequencies (Some (1/2)) (Some 12) (Some (1/3)) (Some (-1)) = Ret (Some ur', Some uth', Some uph', Some gam') /\
  constants_of_motion (Some (1/2)) (Some 12) (Some (1/3)) (Some (-1)) = Ret (Some E', Some L', Some Q').
Proof.
  destruct (far_retrograde HX HR (1/2) 12 0 (-1/2)) as (E & L & Q & ur & uth & uph & gam & HC & HF); try lra.
  destruct (far_retrograde HX HR (1/2) 12 (1/3) (-1)) as (E' & L' & Q' & ur' & uth' & uph' & gam' & HC' & HF'); try lra.
  exists ur, uth, uph, gam, ur', uth', uph', gam', E, L, Q, E', L', Q'. tauto.
Qed.
End Epi.

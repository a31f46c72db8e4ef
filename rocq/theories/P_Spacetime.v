(** * Proofs about spacetime.py and constants_from_initial_conditions *)
From Coq Require Import Reals Lra ZArith List String.
From Coquelicot Require Import Coquelicot.
From Verif Require Import Num Outcome External Checked Spec Model_Constants Model_Spacetime
  Model_InitialConditions.
Import ListNotations.
Open Scope R_scope.

Lemma norm_checked a t r th ph vt vr vth vph :
  Sigma a r th <> 0 -> Delta a r <> 0 ->
  norm (Some a) (Some t) (Some r) (Some th) (Some ph) (Some vt, Some vr, Some vth, Some vph)
  = Some (kerr_line_element a r th vt vr vth vph).
Proof.
  intros HS HD.
  unfold norm, metric, mat_vec, dot, map. cnum.
  unfold Sigma in HS. unfold Delta in HD.
  rewrite !cdiv_some by assumption. cnum. f_equal.
  unfold kerr_line_element, Sigma, Delta. rewrite !sin_sq.
  set (c := cos th) in *. clearbody c.
  field. nz.
Qed.

Lemma u_t_checked a E L r th :
  Sigma a r th <> 0 -> Delta a r <> 0 ->
  u_t_at (Some a) (Some E) (Some L) (Some r) (Some th)
  = Some (dt_dlambda a E L r th / Sigma a r th).
Proof.
  intros HS HD. unfold u_t_at. cnum. unfold Sigma, Delta in *.
  rewrite !cdiv_some by assumption. cnum. f_equal.
  unfold dt_dlambda, Sigma, Delta. rewrite !sin_sq.
  set (c := cos th) in *. clearbody c. field. nz.
Qed.

Lemma u_phi_checked a E L r th :
  Sigma a r th <> 0 -> Delta a r <> 0 -> sin th <> 0 ->
  u_phi_at (Some a) (Some E) (Some L) (Some r) (Some th)
  = Some (dphi_dlambda a E L r th / Sigma a r th).
Proof.
  intros HS HD Hs. unfold u_phi_at. cnum. unfold Sigma, Delta in *.
  rewrite one_minus_cos_sq.
  assert (sin th ^ 2 <> 0) by (apply pow_nonzero; assumption).
  rewrite !cdiv_some by assumption. cnum. f_equal.
  unfold dphi_dlambda, Sigma, Delta. field. nz.
Qed.

Lemma R_pot_checked a E L Q r :
  R_pot (Some a) (Some E) (Some L) (Some Q) (Some r) = Some (radial_potential a E L Q r).
Proof. unfold R_pot. cnum. f_equal. unfold radial_potential, Delta. ring. Qed.

Lemma Z_pot_checked a E L Q z :
  Z_pot (Some a) (Some E) (Some L) (Some Q) (Some z) = Some (polar_polynomial a E L Q (z ^ 2)).
Proof. unfold Z_pot. cnum. f_equal. unfold polar_polynomial. ring. Qed.

Lemma polar_polynomial_potential a E L Q th :
  sin th <> 0 ->
  polar_polynomial a E L Q (cos th ^ 2) = sin th ^ 2 * polar_potential a E L Q th.
Proof.
  intros Hs. unfold polar_polynomial, polar_potential. rewrite one_minus_cos_sq.
  field. assumption.
Qed.

Lemma u_r_checked a E L Q q r th :
  Sigma a r th <> 0 ->
  u_r_at (Some a) (Some E) (Some L) (Some Q) (Some q) (Some r) (Some th)
  = Some (Rcopysign1 (sin q) * sqrt (Rabs (radial_potential a E L Q r)) / Sigma a r th).
Proof.
  intros HS. unfold u_r_at. rewrite R_pot_checked. cnum.
  rewrite csqrt_some by apply Rabs_pos. unfold Sigma in *.
  rewrite cdiv_some by assumption. reflexivity.
Qed.

Lemma u_theta_checked a E L Q q r th :
  Sigma a r th <> 0 -> sin th <> 0 ->
  u_theta_at (Some a) (Some E) (Some L) (Some Q) (Some q) (Some r) (Some th)
  = Some (Rcopysign1 (sin q) * sqrt (Rabs (polar_polynomial a E L Q (cos th ^ 2)))
          / (Sigma a r th * sin th)).
Proof.
  intros HS Hs. unfold u_theta_at. change (ncos (Some th)) with (Some (cos th)).
  rewrite Z_pot_checked. cnum.
  rewrite csqrt_some by apply Rabs_pos. unfold Sigma in *.
  rewrite cdiv_some; [reflexivity|]. now apply Rmult_integral_contrapositive_currified.
Qed.

(** pure algebra: the line element on a velocity with these constants *)
Lemma line_element_geodesic a E L Q r th wr wth :
  Sigma a r th <> 0 -> Delta a r <> 0 -> sin th <> 0 ->
  wr ^ 2 = radial_potential a E L Q r ->
  wth ^ 2 = polar_potential a E L Q th ->
  kerr_line_element a r th
    (dt_dlambda a E L r th / Sigma a r th) (wr / Sigma a r th)
    (wth / Sigma a r th) (dphi_dlambda a E L r th / Sigma a r th) = -1.
Proof.
  intros HS HD Hs Hr Hth.
  unfold kerr_line_element, dt_dlambda, dphi_dlambda.
  replace ((wr / Sigma a r th) ^ 2) with (wr ^ 2 / Sigma a r th ^ 2) by (field; assumption).
  replace ((wth / Sigma a r th) ^ 2) with (wth ^ 2 / Sigma a r th ^ 2) by (field; assumption).
  rewrite Hr, Hth. unfold radial_potential, polar_potential.
  rewrite <- (one_minus_cos_sq th).
  assert (Hs2 : 1 - cos th ^ 2 <> 0)
    by (rewrite one_minus_cos_sq; apply pow_nonzero; assumption).
  unfold Sigma, Delta in *. set (c := cos th) in *. clearbody c.
  field. nz.
Qed.

Definition nonneg_sqrt_sq x : 0 <= x -> sqrt (Rabs x) ^ 2 = x.
Proof. intros H. rewrite Rabs_right by lra. simpl. rewrite Rmult_1_r. now apply sqrt_sqrt. Qed.

Lemma copysign_sqrt_sq q x : 0 <= x -> (Rcopysign1 q * sqrt (Rabs x)) ^ 2 = x.
Proof.
  intros H. rewrite Rpow_mult_distr, nonneg_sqrt_sq by assumption.
  simpl. rewrite Rmult_1_r, Rcopysign1_sq. ring.
Qed.

Lemma four_velocity_norm a (rf thf : option R -> outcome (option R)) E L Q ur uth q0t q0r q0th q0ph
    lam r th t ph :
  rf (Some lam) = Ret (Some r) -> thf (Some lam) = Ret (Some th) ->
  Sigma a r th <> 0 -> Delta a r <> 0 -> sin th <> 0 ->
  0 <= radial_potential a E L Q r -> 0 <= polar_potential a E L Q th ->
  let '(u_t, u_r, u_theta, u_phi) :=
    four_velocity (Some a) rf thf (Some E, Some L, Some Q) (Some ur) (Some uth)
      (Some q0t, Some q0r, Some q0th, Some q0ph) in
  exists vt vr vth vph,
    u_t (Some lam) = Ret (Some vt) /\ u_r (Some lam) = Ret (Some vr) /\
    u_theta (Some lam) = Ret (Some vth) /\ u_phi (Some lam) = Ret (Some vph) /\
    norm (Some a) (Some t) (Some r) (Some th) (Some ph) (Some vt, Some vr, Some vth, Some vph)
    = Some (-1) /\
    vt = dt_dlambda a E L r th / Sigma a r th /\
    vph = dphi_dlambda a E L r th / Sigma a r th /\
    (Sigma a r th * vr) ^ 2 = radial_potential a E L Q r /\
    (Sigma a r th * vth) ^ 2 = polar_potential a E L Q th.
Proof.
  intros Hr Hth HS HD Hs HR HZ. unfold four_velocity. rewrite Hr, Hth. cbn [bind].
  rewrite u_t_checked, u_phi_checked by assumption.
  change (nadd (nmul (Some ur) (Some lam)) (Some q0r)) with (Some (ur * lam + q0r)).
  change (nadd (nmul (Some uth) (Some lam)) (Some q0th)) with (Some (uth * lam + q0th)).
  rewrite u_r_checked, u_theta_checked by assumption.
  do 4 eexists. do 4 (split; [reflexivity|]).
  set (wr := Rcopysign1 (sin (ur * lam + q0r)) * sqrt (Rabs (radial_potential a E L Q r))).
  set (wz := Rcopysign1 (sin (uth * lam + q0th)) *
             sqrt (Rabs (polar_polynomial a E L Q (cos th ^ 2)))).
  assert (Hwr : wr ^ 2 = radial_potential a E L Q r) by now apply copysign_sqrt_sq.
  assert (Hwz : (wz / sin th) ^ 2 = polar_potential a E L Q th).
  { replace ((wz / sin th) ^ 2) with (wz ^ 2 / sin th ^ 2) by (field; assumption).
    unfold wz. rewrite copysign_sqrt_sq.
    - rewrite polar_polynomial_potential by assumption. field. assumption.
    - rewrite polar_polynomial_potential by assumption.
      apply Rmult_le_pos; [apply pow2_ge_0 | assumption]. }
  replace (wz / (Sigma a r th * sin th)) with ((wz / sin th) / Sigma a r th)
    by (field; split; assumption).
  repeat split.
  - rewrite norm_checked by assumption. f_equal. now apply line_element_geodesic with Q.
  - rewrite <- Hwr. field. assumption.
  - rewrite <- Hwz. field. split; assumption.
Qed.

(** ** constants_from_initial_conditions *)

Lemma constants_from_ic_checked a t0 r th ph0 vt vr vth vph :
  Sigma a r th <> 0 -> Delta a r <> 0 -> sin th <> 0 ->
  exists Q,
  constants_from_initial_conditions (Some a) (Some t0, Some r, Some th, Some ph0)
    (Some vt, Some vr, Some vth, Some vph)
  = Ret (Some (- p_t a r th vt vph), Some (p_phi a r th vt vph), Some Q)
  /\ (Sigma a r th * vth) ^ 2
     = polar_potential a (- p_t a r th vt vph) (p_phi a r th vt vph) Q th.
Proof.
  intros HS HD Hs.
  assert (Hs2 : sin th ^ 2 <> 0) by (apply pow_nonzero; assumption).
  unfold constants_from_initial_conditions, solve2. cnum.
  rewrite one_minus_cos_sq.
  unfold Sigma, Delta in *.
  rewrite !(cdiv_some _ (r ^ 2 - 2 * r + a ^ 2)) by assumption.
  rewrite !(cdiv_some _ (sin th ^ 2)) by assumption. cnum.
  match goal with |- context [Reqb ?d 0] => set (D := d) end.
  assert (HDet : D = (r ^ 2 + a ^ 2 * cos th ^ 2) ^ 2
                     / ((r ^ 2 - 2 * r + a ^ 2) * sin th ^ 2)).
  { unfold D. assert (Hs2' : 1 - cos th ^ 2 <> 0) by (rewrite one_minus_cos_sq; assumption).
    rewrite !sin_sq. set (c := cos th) in *. clearbody c.
    field. nz. }
  assert (HD0 : D <> 0).
  { rewrite HDet. apply Rmult_integral_contrapositive_currified.
    - apply pow_nonzero. assumption.
    - apply Rinv_neq_0_compat. now apply Rmult_integral_contrapositive_currified. }
  rewrite Reqb_false by assumption. cbn [ifo]. rewrite !cdiv_some by assumption.
  cbn [bind]. 
  match goal with |- context [Ret (Some ?e, Some ?l, _)] => set (E := e); set (L := l) end.
  assert (HE : E = - p_t a r th vt vph).
  { unfold E. rewrite HDet. unfold p_t, Sigma, Delta.
    assert (Hs2' : 1 - cos th ^ 2 <> 0) by (rewrite one_minus_cos_sq; assumption).
    rewrite !sin_sq. set (c := cos th) in *. clearbody c. field. nz. }
  assert (HL : L = p_phi a r th vt vph).
  { unfold L. rewrite HDet. unfold p_phi, Sigma, Delta.
    assert (Hs2' : 1 - cos th ^ 2 <> 0) by (rewrite one_minus_cos_sq; assumption).
    rewrite !sin_sq. set (c := cos th) in *. clearbody c. field. nz. }
  clearbody E L. subst E L.
  rewrite !(cdiv_some _ (sin th ^ 2)) by assumption. cnum.
  eexists. split; [reflexivity|].
  unfold polar_potential.
  set (E := - p_t a r th vt vph) in *. set (L := p_phi a r th vt vph) in *. clearbody E L.
  assert (Hc : cos th ^ 2 = 1 - sin th ^ 2) by (rewrite sin_sq; ring).
  rewrite Hc. field. assumption.
Qed.

Lemma momenta_of_geodesic a E L r th :
  Sigma a r th <> 0 -> Delta a r <> 0 -> sin th <> 0 ->
  - p_t a r th (dt_dlambda a E L r th / Sigma a r th) (dphi_dlambda a E L r th / Sigma a r th) = E
  /\ p_phi a r th (dt_dlambda a E L r th / Sigma a r th) (dphi_dlambda a E L r th / Sigma a r th) = L.
Proof.
  intros HS HD Hs.
  assert (Hs2' : 1 - cos th ^ 2 <> 0)
    by (rewrite one_minus_cos_sq; apply pow_nonzero; assumption).
  unfold p_t, p_phi, dt_dlambda, dphi_dlambda. unfold Sigma, Delta in *. rewrite !sin_sq.
  set (c := cos th) in *. clearbody c. split; field; nz.
Qed.

Lemma geodesic_of_momenta a r th vt vph :
  Sigma a r th <> 0 -> Delta a r <> 0 -> sin th <> 0 ->
  dt_dlambda a (- p_t a r th vt vph) (p_phi a r th vt vph) r th = Sigma a r th * vt /\
  dphi_dlambda a (- p_t a r th vt vph) (p_phi a r th vt vph) r th = Sigma a r th * vph.
Proof.
  intros HS HD Hs.
  assert (Hs2' : 1 - cos th ^ 2 <> 0)
    by (rewrite one_minus_cos_sq; apply pow_nonzero; assumption).
  unfold p_t, p_phi, dt_dlambda, dphi_dlambda. unfold Sigma, Delta in *. rewrite !sin_sq.
  set (c := cos th) in *. clearbody c. split; field; nz.
Qed.

Lemma polar_potential_Q a E L Q Q' th :
  polar_potential a E L Q th = polar_potential a E L Q' th -> Q = Q'.
Proof. unfold polar_potential. lra. Qed.

(** how far the radial equation is off when the norm is off *)
Lemma radial_equation_defect a r th vt vr vth vph Q :
  Sigma a r th <> 0 -> Delta a r <> 0 -> sin th <> 0 ->
  (Sigma a r th * vth) ^ 2
     = polar_potential a (- p_t a r th vt vph) (p_phi a r th vt vph) Q th ->
  radial_potential a (- p_t a r th vt vph) (p_phi a r th vt vph) Q r
  = (Sigma a r th * vr) ^ 2
    - Delta a r * Sigma a r th * (kerr_line_element a r th vt vr vth vph + 1).
Proof.
  intros HS HD Hs HQ.
  destruct (geodesic_of_momenta a r th vt vph HS HD Hs) as [Ht Hp].
  set (E := - p_t a r th vt vph) in *. set (L := p_phi a r th vt vph) in *. clearbody E L.
  assert (Hvt : vt = dt_dlambda a E L r th / Sigma a r th) by (rewrite Ht; field; assumption).
  assert (Hvp : vph = dphi_dlambda a E L r th / Sigma a r th) by (rewrite Hp; field; assumption).
  rewrite Hvt, Hvp. clear Ht Hp Hvt Hvp.
  unfold kerr_line_element.
  replace (Sigma a r th * vth ^ 2) with ((Sigma a r th * vth) ^ 2 / Sigma a r th)
    by (field; assumption).
  rewrite HQ.
  unfold radial_potential, polar_potential, dt_dlambda, dphi_dlambda.
  assert (Hs2' : 1 - cos th ^ 2 <> 0)
    by (rewrite one_minus_cos_sq; apply pow_nonzero; assumption).
  unfold Sigma, Delta in *. rewrite !sin_sq.
  set (c := cos th) in *. clearbody c. field. nz.
Qed.

(** ** horizons *)
Lemma horizons_checked a :
  a ^ 2 <= 1 ->
  inner_horizon (Some a) = Some (1 - sqrt (1 - a ^ 2)) /\
  outer_horizon (Some a) = Some (1 + sqrt (1 - a ^ 2)).
Proof.
  intros H. unfold inner_horizon, outer_horizon. cnum.
  rewrite csqrt_some by lra. cnum. auto.
Qed.
Lemma Delta_factor a r :
  a ^ 2 <= 1 -> Delta a r = (r - (1 - sqrt (1 - a ^ 2))) * (r - (1 + sqrt (1 - a ^ 2))).
Proof.
  intros H. unfold Delta.
  assert (Hs : sqrt (1 - a ^ 2) * sqrt (1 - a ^ 2) = 1 - a ^ 2) by (apply sqrt_sqrt; lra).
  nra.
Qed.

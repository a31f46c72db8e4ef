(** * Properties C01-C05, C07: geometry, four-velocity, initial conditions

    All statements are about checked runs: [Some v] results mean that no division
    by zero, negative square root, etc. occurred. *)
From Coq Require Import Reals Lra ZArith String List Lia.
From Coquelicot Require Import Coquelicot.
From Verif Require Import Num Outcome External Checked Spec ExternalSpec Model_Constants
  Model_Spacetime Model_InitialConditions Model_Orbit P_Spacetime.
Import ListNotations.
Open Scope R_scope.

(** ** C01 *)
Theorem C01_four_velocity_normalised :
  forall a (rf thf : option R -> outcome (option R)) E L Q ur uth qt qr qth qph lam r th t ph,
  rf (Some lam) = Ret (Some r) -> thf (Some lam) = Ret (Some th) ->
  Sigma a r th <> 0 -> Delta a r <> 0 -> sin th <> 0 ->
  0 <= radial_potential a E L Q r -> 0 <= polar_potential a E L Q th ->
  let '(u_t, u_r, u_theta, u_phi) :=
    four_velocity (Some a) rf thf (Some E, Some L, Some Q) (Some ur) (Some uth)
      (Some qt, Some qr, Some qth, Some qph) in
  exists vt vr vth vph,
    u_t (Some lam) = Ret (Some vt) /\ u_r (Some lam) = Ret (Some vr) /\
    u_theta (Some lam) = Ret (Some vth) /\ u_phi (Some lam) = Ret (Some vph) /\
    norm (Some a) (Some t) (Some r) (Some th) (Some ph) (Some vt, Some vr, Some vth, Some vph)
    = Some (-1).
Proof.
  intros.
  pose proof (four_velocity_norm a rf thf E L Q ur uth qt qr qth qph lam r th t ph) as P.
  destruct (four_velocity (Some a) rf thf (Some E, Some L, Some Q) (Some ur) (Some uth)
      (Some qt, Some qr, Some qth, Some qph)) as [[[u_t u_r] u_theta] u_phi].
  destruct P as [vt [vr [vth [vph P]]]]; auto.
  exists vt, vr, vth, vph. tauto.
Qed.
Print Assumptions C01_four_velocity_normalised.

(** the four components are the Kerr geodesic equations (Carter), not merely a
    unit vector *)
Theorem C01_four_velocity_geodesic_equations :
  forall a (rf thf : option R -> outcome (option R)) E L Q ur uth qt qr qth qph lam r th,
  rf (Some lam) = Ret (Some r) -> thf (Some lam) = Ret (Some th) ->
  Sigma a r th <> 0 -> Delta a r <> 0 -> sin th <> 0 ->
  0 <= radial_potential a E L Q r -> 0 <= polar_potential a E L Q th ->
  let '(u_t, u_r, u_theta, u_phi) :=
    four_velocity (Some a) rf thf (Some E, Some L, Some Q) (Some ur) (Some uth)
      (Some qt, Some qr, Some qth, Some qph) in
  exists vt vr vth vph,
    u_t (Some lam) = Ret (Some vt) /\ u_r (Some lam) = Ret (Some vr) /\
    u_theta (Some lam) = Ret (Some vth) /\ u_phi (Some lam) = Ret (Some vph) /\
    Sigma a r th * vt = dt_dlambda a E L r th /\
    Sigma a r th * vph = dphi_dlambda a E L r th /\
    (Sigma a r th * vr) ^ 2 = radial_potential a E L Q r /\
    (Sigma a r th * vth) ^ 2 = polar_potential a E L Q th /\
    (* direction of motion given by the phases *)
    (0 <= sin (ur * lam + qr) -> 0 <= Sigma a r th * vr) /\
    (sin (ur * lam + qr) < 0 -> Sigma a r th * vr <= 0) /\
    (0 < sin th -> 0 <= sin (uth * lam + qth) -> 0 <= Sigma a r th * vth) /\
    (0 < sin th -> sin (uth * lam + qth) < 0 -> Sigma a r th * vth <= 0).
Proof.
  intros a rf thf E L Q ur uth qt qr qth qph lam r th Hr Hth HS HD Hs HR HZ.
  pose proof (four_velocity_norm a rf thf E L Q ur uth qt qr qth qph lam r th 0 0) as P.
  unfold four_velocity in *. rewrite Hr, Hth in *. cbn [bind] in *.
  change (nadd (nmul (Some ur) (Some lam)) (Some qr)) with (Some (ur * lam + qr)) in *.
  change (nadd (nmul (Some uth) (Some lam)) (Some qth)) with (Some (uth * lam + qth)) in *.
  rewrite u_r_checked, u_theta_checked in * by assumption.
  destruct P as [vt [vr [vth [vph P]]]]; auto.
  destruct P as [P1 [P2 [P3 [P4 [_ [P6 [P7 [P8 P9]]]]]]]].
  exists vt, vr, vth, vph. repeat (split; [assumption|]).
  injection P2 as <-. injection P3 as <-. change (cos th * (cos th * 1)) with (cos th ^ 2) in *.
  repeat split; auto.
  - rewrite P6. field. assumption.
  - rewrite P7. field. assumption.
  - intros K. unfold Rcopysign1. destruct (Rlt_dec _ 0) as [K'|K']; [lra|].
    match goal with |- 0 <= ?x => replace x with (sqrt (Rabs (radial_potential a E L Q r))) by (field; assumption) end.
    apply sqrt_pos.
  - intros K. unfold Rcopysign1. destruct (Rlt_dec _ 0) as [K'|K']; [|lra].
    match goal with |- ?x <= 0 => replace x with (- sqrt (Rabs (radial_potential a E L Q r))) by (field; assumption) end.
    pose proof (sqrt_pos (Rabs (radial_potential a E L Q r))). lra.
  - intros Kp K. unfold Rcopysign1. destruct (Rlt_dec _ 0) as [K'|K']; [lra|].
    match goal with |- 0 <= ?x => replace x with (sqrt (Rabs (polar_polynomial a E L Q (cos th ^ 2))) / sin th) by (field; nz) end.
    apply Rmult_le_pos; [apply sqrt_pos | left; now apply Rinv_0_lt_compat].
  - intros Kp K. unfold Rcopysign1. destruct (Rlt_dec _ 0) as [K'|K']; [|lra].
    match goal with |- ?x <= 0 => replace x with (- (sqrt (Rabs (polar_polynomial a E L Q (cos th ^ 2))) / sin th)) by (field; nz) end.
    assert (0 <= sqrt (Rabs (polar_polynomial a E L Q (cos th ^ 2))) / sin th); [|lra].
    apply Rmult_le_pos; [apply sqrt_pos | left; now apply Rinv_0_lt_compat].
Qed.
Print Assumptions C01_four_velocity_geodesic_equations.

(** non-vacuity: a plunging particle at r = 4 on the equator of an a = 1/2 hole *)
Example C01_example :
  Sigma (1/2) 4 (PI/2) <> 0 /\ Delta (1/2) 4 <> 0 /\ sin (PI/2) <> 0 /\
  0 < radial_potential (1/2) (9/10) 2 1 4 /\ 0 < polar_potential (1/2) (9/10) 2 1 (PI/2).
Proof.
  unfold Sigma, Delta, radial_potential, polar_potential, Delta.
  rewrite cos_PI2, sin_PI2. repeat split; lra.
Qed.

(** ** C02 *)
Theorem C02_norm_is_kerr_line_element :
  forall a t r th ph vt vr vth vph,
  Sigma a r th <> 0 -> Delta a r <> 0 ->
  norm (Some a) (Some t) (Some r) (Some th) (Some ph) (Some vt, Some vr, Some vth, Some vph)
  = Some (kerr_line_element a r th vt vr vth vph).
Proof. exact norm_checked. Qed.
Print Assumptions C02_norm_is_kerr_line_element.

(** on a coordinate singularity (Sigma = 0 or Delta = 0) the norm is undefined,
    never a wrong finite number *)
Theorem C02_norm_undefined_on_singularity :
  forall a t r th ph vt vr vth vph,
  Sigma a r th = 0 \/ Delta a r = 0 ->
  norm (Some a) (Some t) (Some r) (Some th) (Some ph) (Some vt, Some vr, Some vth, Some vph)
  = None.
Proof.
  intros a t r th ph vt vr vth vph H.
  unfold norm, metric, mat_vec, dot, map. cnum.
  unfold cdiv. unfold Sigma, Delta in H.
  destruct (Req_EM_T (r ^ 2 + a ^ 2 * cos th ^ 2) 0); [reflexivity|].
  destruct (Req_EM_T (r ^ 2 - 2 * r + a ^ 2) 0); [|destruct H; contradiction].
  reflexivity.
Qed.
Print Assumptions C02_norm_undefined_on_singularity.

(** ** C03 *)
(** determinant by Laplace expansion along the first row *)
Fixpoint drop_nth {A} (n : nat) (l : list A) : list A :=
  match n, l with O, _ :: t => t | S k, h :: t => h :: drop_nth k t | _, [] => [] end.
Fixpoint det (n : nat) (m : list (list R)) : R :=
  match n, m with
  | S k, row :: rest =>
      fold_right Rplus 0
        (map (fun j => (-1) ^ j * nth j row 0 * det k (map (drop_nth j) rest)) (seq 0 n))
  | _, _ => 1
  end.
Definition g_entry (g : list (list R)) (i j : nat) : R := nth j (nth i g []) 0.

Theorem C03_metric :
  forall a t r th ph, Sigma a r th <> 0 -> Delta a r <> 0 ->
  exists g : list (list R),
    metric (Some a) (Some t) (Some r) (Some th) (Some ph) = map (map Some) g /\
    length g = 4%nat /\ List.Forall (fun row => length row = 4%nat) g /\
    (forall i j : nat, g_entry g i j = g_entry g j i) /\
    (* r and theta decouple from each other and from t, phi *)
    (forall i j : nat, (i < 4)%nat -> (j < 4)%nat -> i <> j ->
       ~ (i = 0 /\ j = 3)%nat -> ~ (i = 3 /\ j = 0)%nat -> g_entry g i j = 0) /\
    det 4 g = - (Sigma a r th ^ 2 * sin th ^ 2) /\
    (0 < Delta a r -> 0 < g_entry g 1 1 /\ 0 < g_entry g 2 2) /\
    (* the entries are the coefficients of the line element *)
    (forall v0 v1 v2 v3,
       fold_right Rplus 0 (map (fun i => fold_right Rplus 0
         (map (fun j => g_entry g i j * nth i [v0; v1; v2; v3] 0 * nth j [v0; v1; v2; v3] 0)
            (seq 0 4))) (seq 0 4))
       = kerr_line_element a r th v0 v1 v2 v3).
Proof.
  intros a t r th ph HS HD.
  unfold metric. cnum. unfold Sigma, Delta in HS, HD.
  rewrite !cdiv_some by assumption. cnum.
  match goal with |- exists g, ?m = _ /\ _ =>
    let m' := match m with
      | [ [Some ?a1; Some ?a2; Some ?a3; Some ?a4]; [Some ?b1; Some ?b2; Some ?b3; Some ?b4];
          [Some ?c1; Some ?c2; Some ?c3; Some ?c4]; [Some ?d1; Some ?d2; Some ?d3; Some ?d4] ] =>
        constr:([[a1; a2; a3; a4]; [b1; b2; b3; b4]; [c1; c2; c3; c4]; [d1; d2; d3; d4]]) end in
    exists m' end.
  split; [reflexivity|]. split; [reflexivity|].
  split; [repeat constructor|].
  split.
  { intros i j.
    destruct i as [|[|[|[|i]]]]; destruct j as [|[|[|[|j]]]];
      unfold g_entry; cbn [nth]; try reflexivity; try (destruct i; reflexivity);
      try (destruct j; reflexivity); destruct i, j; reflexivity. }
  split.
  { intros i j Hi Hj Hij H1 H2.
    destruct i as [|[|[|[|i]]]]; destruct j as [|[|[|[|j]]]]; try lia;
    unfold g_entry; cbn [nth]; try reflexivity; exfalso; lia. }
  assert (P : 0 < r ^ 2 + a ^ 2 * cos th ^ 2).
  { pose proof (pow2_ge_0 r). pose proof (pow2_ge_0 (a * cos th)). 
    rewrite Rpow_mult_distr in *. lra. }
  split.
  { unfold Sigma. cbn [det map seq drop_nth nth fold_right]. rewrite !sin_sq.
    set (c := cos th) in *. clearbody c. field. nz. }
  split.
  { intros HDp. unfold Delta in HDp. unfold g_entry; cbn [nth]. split; [|assumption].
    now apply Rdiv_lt_0_compat. }
  { intros. unfold g_entry. cbn [map seq nth fold_right].
    unfold kerr_line_element, Sigma, Delta. rewrite !sin_sq.
    set (c := cos th) in *. clearbody c. field. nz. }
Qed.
Print Assumptions C03_metric.

(** Lorentzian signature (-,+,+,+) outside the outer horizon: an orthonormal
    coframe, linear and injective in the vector *)
Theorem C03_lorentzian_signature :
  forall a r th, 0 < Delta a r -> Sigma a r th <> 0 -> sin th <> 0 ->
  exists e0 e1 e2 e3 : R * R * R * R -> R,
    (forall w u v, In w [e0; e1; e2; e3] ->
       let '(u0, u1, u2, u3) := u in let '(v0, v1, v2, v3) := v in
       w (u0 + v0, u1 + v1, u2 + v2, u3 + v3) = w u + w v) /\
    (forall v, e0 v = 0 -> e1 v = 0 -> e2 v = 0 -> e3 v = 0 -> v = (0, 0, 0, 0)) /\
    (forall t ph v0 v1 v2 v3, let v := (v0, v1, v2, v3) in
       norm (Some a) (Some t) (Some r) (Some th) (Some ph) (Some v0, Some v1, Some v2, Some v3)
       = Some (- e0 v ^ 2 + e1 v ^ 2 + e2 v ^ 2 + e3 v ^ 2)).
Proof.
  intros a r th HD HS Hs.
  assert (P : 0 < Sigma a r th).
  { unfold Sigma in *. pose proof (pow2_ge_0 r). pose proof (pow2_ge_0 (a * cos th)).
    rewrite Rpow_mult_distr in *. lra. }
  set (s := sqrt (Sigma a r th)). set (d := sqrt (Delta a r)).
  assert (Hs2 : s ^ 2 = Sigma a r th) by (unfold s; apply pow2_sqrt; lra).
  assert (Hd2 : d ^ 2 = Delta a r) by (unfold d; apply pow2_sqrt; lra).
  assert (s <> 0) by (intros E; rewrite E in Hs2; simpl in Hs2; lra).
  assert (d <> 0) by (intros E; rewrite E in Hd2; simpl in Hd2; lra).
  exists (fun v => let '(v0, v1, v2, v3) := v in d / s * (v0 - a * sin th ^ 2 * v3)).
  exists (fun v => let '(v0, v1, v2, v3) := v in s / d * v1).
  exists (fun v => let '(v0, v1, v2, v3) := v in s * v2).
  exists (fun v => let '(v0, v1, v2, v3) := v in sin th / s * ((r ^ 2 + a ^ 2) * v3 - a * v0)).
  split; [|split].
  - intros w [[[u0 u1] u2] u3] [[[v0 v1] v2] v3] [<-|[<-|[<-|[<-|[]]]]]; field; auto.
  - intros [[[v0 v1] v2] v3] E0 E1 E2 E3.
    apply Rmult_integral in E0. destruct E0 as [E0|E0].
    { exfalso. revert E0. apply Rmult_integral_contrapositive_currified; auto.
      now apply Rinv_neq_0_compat. }
    apply Rmult_integral in E1. destruct E1 as [E1|E1].
    { exfalso. revert E1. apply Rmult_integral_contrapositive_currified; auto.
      now apply Rinv_neq_0_compat. }
    apply Rmult_integral in E2. destruct E2 as [E2|E2]; [contradiction|].
    apply Rmult_integral in E3. destruct E3 as [E3|E3].
    { exfalso. revert E3. apply Rmult_integral_contrapositive_currified; auto.
      now apply Rinv_neq_0_compat. }
    assert (V0 : v0 = a * sin th ^ 2 * v3) by lra.
    assert (V3 : Sigma a r th * v3 = 0).
    { unfold Sigma. rewrite <- E3, V0, sin_sq. ring. }
    apply Rmult_integral in V3. destruct V3 as [V3|V3]; [contradiction|].
    subst v3. rewrite V0, E1, E2. repeat f_equal; ring.
  - intros t ph v0 v1 v2 v3. cbv zeta.
    rewrite norm_checked by (auto; lra). f_equal.
    unfold kerr_line_element. rewrite <- Hs2, <- Hd2. field. auto.
Qed.
Print Assumptions C03_lorentzian_signature.

Theorem C03_horizons :
  forall a, a ^ 2 <= 1 ->
  exists rm rp,
    inner_horizon (Some a) = Some rm /\ outer_horizon (Some a) = Some rp /\
    rm <= rp /\ (forall r, Delta a r = 0 <-> r = rm \/ r = rp) /\
    (forall r, rp < r -> 0 < Delta a r) /\ (forall r, rm < r < rp -> Delta a r < 0).
Proof.
  intros a Ha. destruct (horizons_checked a Ha) as [H1 H2].
  exists (1 - sqrt (1 - a ^ 2)), (1 + sqrt (1 - a ^ 2)).
  pose proof (sqrt_pos (1 - a ^ 2)) as Hp.
  split; [assumption|]. split; [assumption|]. split; [lra|].
  split; [|split]; intros r; rewrite Delta_factor by assumption.
  - split.
    + intros K. apply Rmult_integral in K. destruct K; [left | right]; lra.
    + intros [-> | ->]; ring.
  - intros K. apply Rmult_lt_0_compat; lra.
  - intros [K1 K2].
    assert (0 < (r - (1 - sqrt (1 - a ^ 2))) * ((1 + sqrt (1 - a ^ 2)) - r))
      by (apply Rmult_lt_0_compat; lra). lra.
Qed.
Print Assumptions C03_horizons.

(** super-extremal spins give no horizon (undefined), not a bogus radius *)
Theorem C03_no_horizon_for_large_spin :
  forall a, 1 < a ^ 2 -> inner_horizon (Some a) = None /\ outer_horizon (Some a) = None.
Proof.
  intros a Ha. unfold inner_horizon, outer_horizon. cnum. unfold csqrt.
  destruct (Rle_dec 0 (1 - a ^ 2)) as [K|K]; [exfalso; lra | auto].
Qed.
Print Assumptions C03_no_horizon_for_large_spin.

(** ** C04 *)
Theorem C04_constants_roundtrip :
  forall a (rf thf : option R -> outcome (option R)) E L Q ur uth qt qr qth qph lam r th t ph,
  rf (Some lam) = Ret (Some r) -> thf (Some lam) = Ret (Some th) ->
  Sigma a r th <> 0 -> Delta a r <> 0 -> sin th <> 0 ->
  0 <= radial_potential a E L Q r -> 0 <= polar_potential a E L Q th ->
  let '(u_t, u_r, u_theta, u_phi) :=
    four_velocity (Some a) rf thf (Some E, Some L, Some Q) (Some ur) (Some uth)
      (Some qt, Some qr, Some qth, Some qph) in
  forall vt vr vth vph,
    u_t (Some lam) = Ret vt -> u_r (Some lam) = Ret vr ->
    u_theta (Some lam) = Ret vth -> u_phi (Some lam) = Ret vph ->
    constants_from_initial_conditions (Some a) (Some t, Some r, Some th, Some ph)
      (vt, vr, vth, vph) = Ret (Some E, Some L, Some Q).
Proof.
  intros a rf thf E L Q ur uth qt qr qth qph lam r th t ph Hr Hth HS HD Hs HR HZ.
  pose proof (four_velocity_norm a rf thf E L Q ur uth qt qr qth qph lam r th t ph) as P.
  destruct (four_velocity (Some a) rf thf (Some E, Some L, Some Q) (Some ur) (Some uth)
      (Some qt, Some qr, Some qth, Some qph)) as [[[u_t u_r] u_theta] u_phi].
  destruct P as [vt [vr [vth [vph P]]]]; auto.
  destruct P as [P1 [P2 [P3 [P4 [_ [P6 [P7 [P8 P9]]]]]]]].
  intros vt' vr' vth' vph' K1 K2 K3 K4.
  rewrite P1 in K1. rewrite P2 in K2. rewrite P3 in K3. rewrite P4 in K4.
  injection K1 as <-. injection K2 as <-. injection K3 as <-. injection K4 as <-.
  destruct (constants_from_ic_checked a t r th ph vt vr vth vph HS HD Hs) as [Q' [HQ HQ']].
  rewrite HQ. subst vt vph.
  destruct (momenta_of_geodesic a E L r th HS HD Hs) as [HE HL].
  rewrite HE, HL in *. rewrite P9 in HQ'. apply polar_potential_Q in HQ'. now subst.
Qed.
Print Assumptions C04_constants_roundtrip.

(** ** C05 *)
Theorem C05_recovered_constants_are_momenta :
  forall a t r th ph vt vr vth vph,
  Sigma a r th <> 0 -> Delta a r <> 0 -> sin th <> 0 ->
  exists E L Q,
    constants_from_initial_conditions (Some a) (Some t, Some r, Some th, Some ph)
      (Some vt, Some vr, Some vth, Some vph) = Ret (Some E, Some L, Some Q) /\
    (* E = - u_t, L = u_phi: pairing of u with the two Killing vectors under the
       polarised line element *)
    (forall w0 w3, kerr_line_element a r th (vt + w0) vr vth (vph + w3)
       = kerr_line_element a r th vt vr vth vph + 2 * (- E * w0 + L * w3)
         + kerr_line_element a r th w0 0 0 w3) /\
    (Sigma a r th * vth) ^ 2 = polar_potential a E L Q th /\
    dt_dlambda a E L r th = Sigma a r th * vt /\
    dphi_dlambda a E L r th = Sigma a r th * vph /\
    (kerr_line_element a r th vt vr vth vph = -1 ->
     (Sigma a r th * vr) ^ 2 = radial_potential a E L Q r).
Proof.
  intros a t r th ph vt vr vth vph HS HD Hs.
  destruct (constants_from_ic_checked a t r th ph vt vr vth vph HS HD Hs) as [Q [HQ HQ']].
  exists (- p_t a r th vt vph), (p_phi a r th vt vph), Q.
  destruct (geodesic_of_momenta a r th vt vph HS HD Hs) as [Ht Hp].
  repeat split; auto.
  - intros w0 w3. unfold kerr_line_element, p_t, p_phi.
    field. split; assumption.
  - intros Hn. rewrite (radial_equation_defect a r th vt vr vth vph Q HS HD Hs HQ'), Hn. ring.
Qed.
Print Assumptions C05_recovered_constants_are_momenta.

(** ** C07 *)
Theorem C07_allowed_region :
  forall a t r th ph vt vr vth vph,
  Sigma a r th <> 0 -> Delta a r <> 0 -> sin th <> 0 ->
  exists E L Q,
    constants_from_initial_conditions (Some a) (Some t, Some r, Some th, Some ph)
      (Some vt, Some vr, Some vth, Some vph) = Ret (Some E, Some L, Some Q) /\
    0 <= polar_potential a E L Q th /\
    (kerr_line_element a r th vt vr vth vph = -1 -> 0 <= radial_potential a E L Q r) /\
    (forall eps, Rabs (kerr_line_element a r th vt vr vth vph + 1) <= eps ->
       Rabs (radial_potential a E L Q r - (Sigma a r th * vr) ^ 2)
       <= Rabs (Delta a r) * Sigma a r th * eps).
Proof.
  intros a t r th ph vt vr vth vph HS HD Hs.
  destruct (constants_from_ic_checked a t r th ph vt vr vth vph HS HD Hs) as [Q [HQ HQ']].
  exists (- p_t a r th vt vph), (p_phi a r th vt vph), Q.
  repeat split; auto.
  - rewrite <- HQ'. apply pow2_ge_0.
  - intros Hn. rewrite (radial_equation_defect a r th vt vr vth vph Q HS HD Hs HQ'), Hn.
    pose proof (pow2_ge_0 (Sigma a r th * vr)). lra.
  - intros eps He.
    assert (P : 0 < Sigma a r th).
    { unfold Sigma in *. pose proof (pow2_ge_0 r). pose proof (pow2_ge_0 (a * cos th)).
      rewrite Rpow_mult_distr in *. lra. }
    rewrite (radial_equation_defect a r th vt vr vth vph Q HS HD Hs HQ').
    set (n := kerr_line_element a r th vt vr vth vph) in *.
    replace ((Sigma a r th * vr) ^ 2 - Delta a r * Sigma a r th * (n + 1) -
      (Sigma a r th * vr) ^ 2) with (- (Delta a r * Sigma a r th * (n + 1))) by ring.
    rewrite Rabs_Ropp, !Rabs_mult, (Rabs_right (Sigma a r th)) by lra.
    apply Rmult_le_compat_l; [|assumption].
    apply Rmult_le_pos; [apply Rabs_pos | lra].
Qed.
Print Assumptions C07_allowed_region.

(** non-vacuity: a genuine timelike unit velocity at r = 4, a = 0 *)
Example C05_example :
  Sigma 0 4 (PI/2) <> 0 /\ Delta 0 4 <> 0 /\ sin (PI/2) <> 0 /\
  kerr_line_element 0 4 (PI/2) 2 (1/2) (1/8) (1/8) = -1.
Proof.
  unfold kerr_line_element, Sigma, Delta. rewrite cos_PI2, sin_PI2. repeat split; lra.
Qed.

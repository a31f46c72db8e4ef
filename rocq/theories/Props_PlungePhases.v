(** * C59: an Orbit built from the initial conditions of a plunge starts at these initial conditions *)
From Coq Require Import Reals Lra Lia ZArith String List.
From Coquelicot Require Import Coquelicot.
From Verif Require Import Num Outcome External Checked ExternalSpec.
From Verif Require Import Model_Units Model_Constants Model_Frequencies Model_Spacetime Model_InitialConditions Model_Stable Model_Plunge Model_Orbit.
From Verif Require Import Spec SpecElliptic Elliptic Props_Elliptic Props_Constants P_Spacetime Props_Spacetime Props_Orbit.
From Verif Require Import P_Radial P_Polar P_Traj P_Plunge P_Plunge2 P_Plunge3 P_Phases Props_Trajectory Props_Plunge Props_Plunge2 Props_Plunge3.
Import ListNotations.
Open Scope R_scope.

(** ** the radial phase of a given radius *)
Section Radial.
Context {X : External R} (HX : special_spec X).
Context (r1 r2 u v r0 E : R) (Hr : r1 < r2) (Hv : 0 < v) (HE : E^2 < 1) (H0 : r1 <= r0 <= r2).
Local Notation A := (pA r2 u v).
Local Notation B := (pB r1 u v).
Local Notation m := (pk2 r1 r2 u v).
Local Notation K := (ellK m).
Local Notation X' := (xi (X := X) r1 r2 u v).
Definition pc0 : R := (B * (r2 - r0) - A * (r0 - r1)) / (B * (r2 - r0) + A * (r0 - r1)).
Lemma pc_den : 0 < B * (r2 - r0) + A * (r0 - r1).
Proof.
  pose proof (pA_pos r2 u v Hv) as PA. pose proof (pB_pos r1 u v Hv) as PB.
  destruct (Rlt_dec r1 r0).
  - assert (0 < A * (r0 - r1)) by (apply Rmult_lt_0_compat; lra). assert (0 <= B * (r2 - r0)) by (apply Rmult_le_pos; lra). lra.
  - assert (0 < B * (r2 - r0)) by (apply Rmult_lt_0_compat; lra). assert (0 <= A * (r0 - r1)) by (apply Rmult_le_pos; lra). lra.
Qed.
Lemma pc_bounds : -1 <= pc0 <= 1.
Proof.
  pose proof pc_den as D. pose proof (pA_pos r2 u v Hv) as PA. pose proof (pB_pos r1 u v Hv) as PB.
  assert (0 <= B * (r2 - r0)) by (apply Rmult_le_pos; lra). assert (0 <= A * (r0 - r1)) by (apply Rmult_le_pos; lra).
  unfold pc0. split; [apply Rle_div_r | apply Rle_div_l]; lra.
Qed.
Lemma prx_pc0 : prx r1 r2 u v pc0 = r0.
Proof.
  pose proof pc_den as D. pose proof (pden_pos r1 r2 u v Hv pc0 pc_bounds) as Pd. pose proof (pA_pos r2 u v Hv) as PA. pose proof (pB_pos r1 u v Hv) as PB.
  apply Rmult_eq_reg_r with (pden r1 r2 u v pc0); [|lra].
  transitivity (A * r1 * (1 + pc0) + B * r2 * (1 - pc0)); [unfold prx; field; lra|].
  unfold pden, pc0. field. lra.
Qed.
Definition pw0 : R := PI / 2 - asin pc0.
Lemma pw0_bounds : 0 <= pw0 <= PI.
Proof. pose proof (asin_bound pc0). unfold pw0. lra. Qed.
Lemma cos_pw0 : cos pw0 = pc0.
Proof. unfold pw0. rewrite cos_shift. apply sin_asin, pc_bounds. Qed.
Definition prq0 : R := PI / (2 * K) * ellF pw0 m.
Lemma xi_up : X' prq0 = pw0.
Proof.
  pose proof (pk2_bounds r1 r2 u v (Rlt_le _ _ Hr) Hv) as Km. pose proof (ellK_pos m (proj2 Km)). pose proof PI_RGT_0.
  unfold xi, prq0. apply (amX_unique HX); [assumption|]. field. lra.
Qed.
Lemma xi_down : X' (2 * PI - prq0) = 2 * PI - pw0.
Proof.
  pose proof (pk2_bounds r1 r2 u v (Rlt_le _ _ Hr) Hv) as Km. pose proof (ellK_pos m (proj2 Km)). pose proof PI_RGT_0.
  unfold xi, prq0. apply (amX_unique HX); [assumption|].
  replace (2 * PI - pw0) with (- pw0 + 2 * PI) by ring. rewrite (ellF_shift m (- pw0) 2) by lra.
  rewrite ellF_odd by lra. field. lra.
Qed.
Definition p_q_r (dr : R) : R := if Rlt_dec 0 dr then prq0 else 2 * PI - prq0.
Lemma pr_at dr : pr r1 r2 u v X' (p_q_r dr) = r0.
Proof.
  unfold p_q_r, pr. destruct (Rlt_dec 0 dr).
  - rewrite xi_up, cos_pw0. apply prx_pc0.
  - rewrite xi_down. replace (2 * PI - pw0) with (- pw0 + 2 * INR 1 * PI) by (simpl; ring).
    rewrite cos_period, cos_neg, cos_pw0. apply prx_pc0.
Qed.
Lemma sin_at dr : (0 < dr -> 0 <= sin (X' (p_q_r dr))) /\ (dr <= 0 -> sin (X' (p_q_r dr)) <= 0).
Proof.
  pose proof pw0_bounds as W. assert (S : 0 <= sin pw0) by (apply sin_ge_0; lra).
  unfold p_q_r. destruct (Rlt_dec 0 dr); split; intros; try lra.
  - rewrite xi_up. exact S.
  - rewrite xi_down. replace (2 * PI - pw0) with (- pw0 + 2 * INR 1 * PI) by (simpl; ring).
    rewrite sin_period, sin_neg. lra.
Qed.
Lemma prq_run : (- (- nZ 1 / nsqrt ((nZ 1 - Some E ^ 2) * Some A * Some B)
        * ellipkinc (npi / nZ 2 - nasin ((Some B * (Some r2 - Some r0) - Some A * (Some r0 - Some r1))
                                       / (Some B * (Some r2 - Some r0) + Some A * (Some r0 - Some r1))))
           (nsqrt (((Some r2 - Some r1)^2 - (Some A - Some B)^2) / (nZ 4 * Some A * Some B)) ^ 2)) * Some (pur r1 r2 u v E))%num = Some prq0.
Proof.
  pose proof (pk2_bounds r1 r2 u v (Rlt_le _ _ Hr) Hv) as Km. pose proof (ellK_pos m (proj2 Km)) as KP. pose proof PI_RGT_0.
  pose proof pc_den as D. pose proof (pA_pos r2 u v Hv) as PA. pose proof (pB_pos r1 u v Hv) as PB.
  assert (EC : ((Some B * (Some r2 - Some r0) - Some A * (Some r0 - Some r1))
                                       / (Some B * (Some r2 - Some r0) + Some A * (Some r0 - Some r1)))%num = Some pc0).
  { cnum. rewrite cdiv_some by lra. reflexivity. }
  rewrite EC, casin_some by exact pc_bounds.
  assert (EM : (nsqrt (((Some r2 - Some r1)^2 - (Some A - Some B)^2) / (nZ 4 * Some A * Some B)) ^ 2)%num = Some m).
  { cnum. rewrite cdiv_some by (apply Rgt_not_eq, den_pos, Hv). fold m. rewrite csqrt_some by apply Km.
    now rewrite pow2_sqrt by apply Km. }
  rewrite EM.
  assert (EW : (npi / nZ 2 - Some (asin pc0))%num = Some pw0).
  { cnum. rewrite cdiv_some by lra. reflexivity. }
  rewrite EW, ellipkinc_some by (tauto || lra).
  pose proof (ABc_pos r1 r2 u v Hv E HE) as P.
  assert (ES : (1 - E^2) * A * B = A * B * (1 - E^2)) by ring.
  cnum. rewrite ES, csqrt_some by lra. pose proof (sqrt_lt_R0 _ P) as SP. rewrite cdiv_some by lra.
  f_equal. unfold pur, prq0. field. lra.
Qed.
End Radial.

(** ** the polar phase of a given polar angle *)
Section Polar.
Context {X : External R} (HX : special_spec X).
Context (a E L Q th0 : R) (Ha : a <> 0) (HE : E^2 < 1) (HL : L <> 0) (HQ : 0 < Q).
Local Notation zm := (pzm a E L Q).
Local Notation be := (pbeta a E L Q).
Local Notation m := (kt2 (a^2 * (1 - E^2)) zm be).
Local Notation K := (ellK m).
Local Notation Ps := (psi_p (X := X) a E L Q).
Lemma pzm_pos : 0 < zm.
Proof.
  pose proof (pz_prod a E L Q Ha HE HL (Rlt_le _ _ HQ)) as P. pose proof (pz_order a E L Q Ha HE HL (Rlt_le _ _ HQ)) as [Z O].
  destruct (proj1 Z) as [K|K]; [exact K|]. rewrite <- K, Rmult_0_l in P.
  assert (0 < Q / (a^2 * (1 - E^2))) by (apply Rdiv_lt_0_compat; [assumption | apply pb_pos; assumption]). lra.
Qed.
Context (Ht : 0 < th0 < PI) (Hc : cos th0 ^ 2 <= zm).
Definition py : R := cos th0 / sqrt zm.
Lemma py_bounds : -1 <= py <= 1.
Proof.
  pose proof pzm_pos as Z. pose proof (sqrt_lt_R0 _ Z) as S. assert (py ^ 2 <= 1).
  { unfold py. replace ((cos th0 / sqrt zm)^2) with (cos th0 ^ 2 / sqrt zm ^ 2) by (field; lra).
    rewrite pow2_sqrt by lra. apply Rle_div_l; lra. }
  split; nra.
Qed.
Definition pph : R := asin py.
Lemma pph_bounds : - (PI / 2) <= pph <= PI / 2. Proof. apply asin_bound. Qed.
Lemma sin_pph : sqrt zm * sin pph = cos th0.
Proof.
  pose proof pzm_pos as Z. pose proof (sqrt_lt_R0 _ Z) as S. unfold pph. rewrite sin_asin by apply py_bounds. unfold py. field. lra.
Qed.
Definition ps0 : R := PI / (2 * K) * ellF pph m.
Definition p_q_th (dth : R) : R := if Rle_dec 0 dth then PI / 2 - ps0 else ps0 + 3 * PI / 2.
Lemma psi_up : Ps (PI / 2 - ps0 + PI / 2) = PI - pph.
Proof.
  pose proof (pHm a E L Q Ha HE HL (Rlt_le _ _ HQ)) as Hm. pose proof PI_RGT_0. pose proof (ellK_pos m (proj2 Hm)) as KP.
  unfold psi_p, ps0. apply (amX_unique HX); [assumption|].
  replace (PI - pph) with (- pph + 1 * PI) by ring. rewrite (ellF_shift m (- pph) 1) by lra.
  rewrite ellF_odd by lra. field. lra.
Qed.
Lemma psi_down : Ps (ps0 + 3 * PI / 2 + PI / 2) = pph + 2 * PI.
Proof.
  pose proof (pHm a E L Q Ha HE HL (Rlt_le _ _ HQ)) as Hm. pose proof PI_RGT_0. pose proof (ellK_pos m (proj2 Hm)) as KP.
  unfold psi_p, ps0. apply (amX_unique HX); [assumption|]. rewrite (ellF_shift m pph 2) by lra. field. lra.
Qed.
Lemma th_at dth : th zm Ps (p_q_th dth + PI / 2) = th0.
Proof.
  unfold p_q_th, th, cth. destruct (Rle_dec 0 dth).
  - rewrite psi_up, sin_PI_x, sin_pph. apply acos_cos. lra.
  - rewrite psi_down. rewrite sin_plus, sin_2PI, cos_2PI.
    replace (sin pph * 1 + cos pph * 0) with (sin pph) by ring. rewrite sin_pph. apply acos_cos. lra.
Qed.
Lemma cos_at dth : (0 <= dth -> cos (Ps (p_q_th dth + PI / 2)) <= 0) /\ (dth < 0 -> 0 <= cos (Ps (p_q_th dth + PI / 2))).
Proof.
  pose proof pph_bounds as W. assert (S : 0 <= cos pph) by (apply cos_ge_0; lra).
  unfold p_q_th. destruct (Rle_dec 0 dth); split; intros; try lra.
  - rewrite psi_up. unfold Rminus. rewrite cos_plus, cos_PI, sin_PI, cos_neg. lra.
  - rewrite psi_down. rewrite cos_plus, cos_2PI, sin_2PI. lra.
Qed.
Lemma lam_run : (nZ 1 / plunge_z2 (Some a) (Some E) (Some L) (Some Q)
   * ellipkinc (nasin (ncos (Some th0) / plunge_z1 (Some a) (Some E) (Some L) (Some Q))) (plunge_k_theta (Some a) (Some E) (Some L) (Some Q) ^ 2))%num
   = Some (1 / sqrt be * ellF pph m).
Proof.
  pose proof (Rlt_le _ _ HQ) as HQ'. pose proof (pHm a E L Q Ha HE HL HQ') as Hm. pose proof pzm_pos as Z. pose proof (sqrt_lt_R0 _ Z) as S.
  pose proof (sb_pos a E L Q Ha HE HL HQ') as SB.
  rewrite (z1_run a E L Q), (z2_run a E L Q), (k_run a E L Q) by assumption. fold be.
  assert (EY : (ncos (Some th0) / Some (sqrt zm))%num = Some py) by (cnum; rewrite cdiv_some by lra; reflexivity).
  rewrite EY, casin_some by exact py_bounds.
  assert (EM : (Some (a * sqrt (1 - E^2) * sqrt zm / sqrt be)%R ^ 2)%num = Some m) by (cnum; now rewrite (k_sq a E L Q Ha HE HL HQ')).
  rewrite EM, ellipkinc_some by tauto. cnum. rewrite cdiv_some by lra. reflexivity.
Qed.
Lemma phase_run dth : polar_phase (Some th0) (Some dth) (Some (1 / sqrt be * ellF pph m)) (Some (put a E L Q)) = Ret (Some (p_q_th dth)).
Proof.
  pose proof (Rlt_le _ _ HQ) as HQ'. pose proof (pHm a E L Q Ha HE HL HQ') as Hm. pose proof (ellK_pos m (proj2 Hm)) as KP.
  pose proof (sb_pos a E L Q Ha HE HL HQ') as SB.
  assert (EQ : 1 / sqrt be * ellF pph m * put a E L Q = ps0) by (unfold put, ps0; field; lra).
  unfold polar_phase. cnum. rewrite EQ, !cdiv_some by lra. unfold p_q_th, Rleb. destruct (Rle_dec 0 dth) as [D|D]; cbn [ifo]; [reflexivity|].
  rewrite (Reqb_false dth 0) by lra. cbn [ifo oand andb]. rewrite Rltb_true by lra. reflexivity.
Qed.
End Polar.

Lemma same_sign_sq x y : x^2 = y^2 -> (0 <= x /\ 0 <= y) \/ (x <= 0 /\ y <= 0) -> x = y.
Proof. intros H [[A B]|[A B]]; nra. Qed.
Lemma mul_np x y : 0 <= x -> y <= 0 -> x * y <= 0.
Proof. intros. nra. Qed.
Lemma plunge_ignores_M {X : External R} (a E L Q : option R) ph (M : option (option R)) :
  plunging_trajectory a E L Q ph M "natural" "natural" = plunging_trajectory a E L Q ph None "natural" "natural".
Proof. reflexivity. Qed.

Section S.
Context {X : External R} (HP : polyroots_spec X) (HX : special_spec X).
Context (a E L Q r1 r2 t0 r0 th0 ph0 dt dr dth dph : R).
Context (Ha : a <> 0) (Ha1 : a^2 < 1) (HE : E^2 < 1) (HL : L <> 0) (HQ' : 0 <= Q).
Context (HCP : complex_plunge a E L Q r1 r2).
Context (Hth : 0 < th0 < PI) (HD : Delta a r0 <> 0) (HS : Sigma a r0 th0 <> 0).
Local Notation pos := (Some t0, Some r0, Some th0, Some ph0).
Local Notation vel := (Some dt, Some dr, Some dth, Some dph).
Context (HN : kerr_line_element a r0 th0 dt dr dth dph = -1).
Context (HI : constants_from_initial_conditions (Some a) pos vel = Ret (Some E, Some L, Some Q)).
Local Notation Sg := (Sigma a r0 th0).
Lemma p_sigma_pos : 0 < Sg.
Proof. unfold Sigma in *. pose proof (pow2_ge_0 r0). assert (0 <= a^2 * cos th0 ^ 2) by (apply Rmult_le_pos; apply pow2_ge_0). lra. Qed.
Lemma p_momenta : (Sg * dth)^2 = polar_potential a E L Q th0 /\ (Sg * dr)^2 = radial_potential a E L Q r0 /\
  dt_dlambda a E L r0 th0 = Sg * dt /\ dphi_dlambda a E L r0 th0 = Sg * dph.
Proof.
  pose proof (sin_gt_0 th0 (proj1 Hth) (proj2 Hth)).
  destruct (C05_recovered_constants_are_momenta a t0 r0 th0 ph0 dt dr dth dph HS HD) as (E' & L' & Q' & K & _ & M1 & M3 & M4 & M2); [lra|].
  rewrite HI in K. apply Ret_inj in K. assert (E = E' /\ L = L' /\ Q = Q') as (<- & <- & <-) by (repeat split; congruence).
  auto.
Qed.
Lemma p_polar : cos th0 ^ 2 <= pzm a E L Q.
Proof.
  destruct p_momenta as (M & _). pose proof (sin_gt_0 th0 (proj1 Hth) (proj2 Hth)) as S0.
  pose proof (p_factor a E L Q Ha HE HL HQ' (cos th0 ^ 2)) as Z. pose proof (pz_order a E L Q Ha HE HL HQ') as [Z0 Z1].
  pose proof (pb_pos a E Ha HE) as B0.
  assert (PP : polar_potential a E L Q th0 * sin th0 ^ 2 = polar_polynomial a E L Q (cos th0 ^ 2)).
  { unfold polar_potential, polar_polynomial. replace (cos th0 ^ 2) with (1 - sin th0 ^ 2) by (rewrite cos2_sin2; ring). field. lra. }
  rewrite <- M, Z in PP. assert (C1 : cos th0 ^ 2 <= 1) by (rewrite cos2_sin2; pose proof (pow2_ge_0 (sin th0)); lra).
  assert (BB : 0 < pbeta a E L Q - a^2 * (1 - E^2) * cos th0 ^ 2).
  { unfold pbeta. replace (a^2 * (1 - E^2) * pzp a E L Q - a^2 * (1 - E^2) * cos th0 ^ 2) with (a^2 * (1 - E^2) * (pzp a E L Q - cos th0 ^ 2)) by ring.
    apply Rmult_lt_0_compat; lra. }
  assert (GE : 0 <= (Sg * dth)^2 * sin th0 ^ 2) by (apply Rmult_le_pos; apply pow2_ge_0).
  rewrite PP in GE. apply Rnot_lt_le. intros G.
  pose proof (Rmult_lt_0_compat (cos th0 ^ 2 - pzm a E L Q) _ ltac:(lra) BB). lra.
Qed.
Lemma p_radial u v : 0 < v -> r1 <= r2 ->
  (forall r, radial_potential a E L Q r = (1 - E^2) * (r2 - r) * (r - r1) * ((r - u)^2 + v^2)) ->
  r1 < r2 /\ r1 <= r0 <= r2.
Proof.
  intros Hv Hr HF.
  assert (In : forall r, 0 <= radial_potential a E L Q r -> r1 <= r <= r2).
  { intros r G. rewrite HF in G. pose proof (pow2_ge_0 (r - u)). pose proof (pow_lt v 2 Hv).
    assert (0 < (1 - E^2) * ((r - u)^2 + v^2)) by (apply Rmult_lt_0_compat; lra).
    split; apply Rnot_lt_le; intros C.
    - assert (0 < (1 - E^2) * ((r - u)^2 + v^2) * ((r2 - r) * (r1 - r))).
      { apply Rmult_lt_0_compat; [assumption|]. apply Rmult_lt_0_compat; lra. }
      lra.
    - assert (0 < (1 - E^2) * ((r - u)^2 + v^2) * ((r - r2) * (r - r1))).
      { apply Rmult_lt_0_compat; [assumption|]. apply Rmult_lt_0_compat; lra. }
      lra. }
  assert (Hz : forall h, Delta a h = 0 -> r1 <= h <= r2).
  { intros h Hh. apply In. unfold radial_potential. rewrite Hh.
    assert (0 <= (E * (h^2 + a^2) - a * L)^2) by apply pow2_ge_0. lra. }
  assert (S0 : 0 < sqrt (1 - a^2)) by (apply sqrt_lt_R0; lra). assert (S1 : sqrt (1 - a^2) ^ 2 = 1 - a^2) by (apply pow2_sqrt; lra).
  pose proof (Hz (1 + sqrt (1 - a^2)) ltac:(unfold Delta; lra)). pose proof (Hz (1 - sqrt (1 - a^2)) ltac:(unfold Delta; lra)).
  split; [lra|]. apply In. destruct p_momenta as (_ & <- & _). apply pow2_ge_0.
Qed.

(** ** the phases of an initial position and velocity *)
Theorem C59_phases_reproduce_initial_conditions : 0 < Q ->
  exists qr qth,
  plunging_orbit_initial_phases (Some a) pos vel None None default_tol = Ret (Some t0, Some qr, Some qth, Some ph0) /\
  forall r theta, coordinates (plunge_run a E L Q t0 qr qth ph0) r theta ->
  r 0 = r0 /\ theta 0 = th0 /\ is_derive r 0 (Sg * dr) /\ is_derive theta 0 (Sg * dth).
Proof.
  intros HQ. destruct (complex_plunge_inv HP a E L Q r1 r2 HCP) as (u & v & Hr' & Hv & HR & HF).
  destruct (p_radial u v Hv Hr' HF) as [Hr H0]. pose proof p_polar as Hc. pose proof p_sigma_pos as SP.
  destruct p_momenta as (M1 & M2 & _).
  exists (p_q_r r1 r2 u v r0 dr), (p_q_th a E L Q th0 dth). split.
  - unfold plunging_orbit_initial_phases. cbn [default]. rewrite HI. cbn [bind]. rewrite HR. cbn [bind fst snd]. cbv zeta.
    rewrite (freq_run HX a E L Q Ha HE HL HQ' r1 r2 u v Hr' Hv HR). cbn [bind].
    rewrite (A_run r1 r2 u v Hv), (B_run r1 r2 u v Hv), (lam_run HX a E L Q th0 Ha HE HL HQ Hth Hc), (phase_run a E L Q th0 Ha HE HL HQ).
    pose proof (prq_run HX r1 r2 u v r0 E Hr Hv HE H0) as PR.
    match goal with |- bind ?x _ = _ => assert (QR : x = Ret (Some (p_q_r r1 r2 u v r0 dr))) end.
    { rewrite PR. 
      match goal with |- context [(nZ 2 * npi + ?l * ?w)%num] =>
        assert (QR2 : (nZ 2 * npi + l * w)%num = Some (2 * PI - prq0 r1 r2 u v r0)) end.
      { match goal with |- (nZ 2 * npi + ?l * ?w)%num = _ => destruct l as [lam|]; [|discriminate PR] end.
        cnum_in PR. cnum. assert (PR' : - lam * pur r1 r2 u v E = prq0 r1 r2 u v r0) by congruence. f_equal. rewrite <- PR'. ring. }
      rewrite QR2. change (nltb (nZ 0) (Some dr)) with (Some (Rltb 0 dr)). unfold p_q_r, Rltb. destruct (Rlt_dec 0 dr); reflexivity. }
    rewrite QR. reflexivity.
  - intros r theta H. pose proof (coordinates_are HX a E L Q Ha HE HL HQ' r1 r2 u v t0 _ _ ph0 r theta Hr' Hv HR H) as Eq.
    destruct (Eq 0) as [R0 T0]. unfold plr, plth in R0, T0. rewrite Rmult_0_r, Rplus_0_l in R0, T0.
    rewrite (pr_at HX r1 r2 u v r0 Hr Hv H0 dr) in R0. rewrite (th_at HX a E L Q th0 Ha HE HL HQ Hth Hc dth) in T0.
    refine (conj R0 (conj T0 (conj _ _))).
    + set (K := ellK (pk2 r1 r2 u v)).
      pose proof (pr_derive r1 r2 u v Hv (2 * K / PI) (xi (X := X) r1 r2 u v) (xi_derive HX r1 r2 u v Hr' Hv)) as D.
      set (q := p_q_r r1 r2 u v r0 dr) in *. set (ur := pur r1 r2 u v E) in *.
      assert (D1 : is_derive r 0 (ur * pr' r1 r2 u v (2 * K / PI) (xi (X := X) r1 r2 u v) (ur * 0 + q))).
      { eapply is_derive_ext; [intros s; symmetry; apply Eq|]. unfold plr.
        apply (is_derive_comp (pr r1 r2 u v (xi r1 r2 u v)) (fun l => ur * l + q)); [apply D|].
        auto_derive; [trivial|ring]. }
      rewrite Rmult_0_r, Rplus_0_l in D1. replace (Sg * dr) with (ur * pr' r1 r2 u v (2 * K / PI) (xi (X := X) r1 r2 u v) q); [exact D1|].
      pose proof (sin_at HX r1 r2 u v r0 Hr Hv dr) as [S1 S2]. fold q in S1, S2.
      apply same_sign_sq.
      * rewrite M2, HF. rewrite (pr_ode r1 r2 u v Hr' Hv (2 * K / PI) _ q (1 - E^2) ur).
        -- unfold q. rewrite (pr_at HX r1 r2 u v r0 Hr Hv H0 dr). reflexivity.
        -- pose proof (w_pur r1 r2 u v Hr' Hv E) as W. fold K in W. fold ur in W. rewrite Rmult_comm, W.
           apply pow2_sqrt. left. exact (ABc_pos r1 r2 u v Hv E HE).
      * pose proof (pur_pos r1 r2 u v Hr' Hv E HE) as U. fold ur in U. pose proof (pden_pos r1 r2 u v Hv (cos (xi (X := X) r1 r2 u v q)) (COS_bound _)) as Pd.
        pose proof (ellK_pos _ (proj2 (pk2_bounds r1 r2 u v Hr' Hv))) as KP. fold K in KP. pose proof PI_RGT_0.
        assert (CP : 0 <= ur * (2 * K / PI * sqrt (dl (pk2 r1 r2 u v) (xi (X := X) r1 r2 u v q)) * (2 * pA r2 u v * pB r1 u v * (r2 - r1)) / pden r1 r2 u v (cos (xi (X := X) r1 r2 u v q)) ^ 2)).
        { apply Rmult_le_pos; [lra|]. apply Rdiv_le_0_compat; [|apply pow_lt; exact Pd].
          pose proof (pA_pos r2 u v Hv). pose proof (pB_pos r1 u v Hv).
          apply Rmult_le_pos; [apply Rmult_le_pos; [apply Rdiv_le_0_compat; lra | apply sqrt_pos] | repeat apply Rmult_le_pos; lra]. }
        assert (SE : ur * pr' r1 r2 u v (2 * K / PI) (xi (X := X) r1 r2 u v) q = ur * (2 * K / PI * sqrt (dl (pk2 r1 r2 u v) (xi (X := X) r1 r2 u v q)) * (2 * pA r2 u v * pB r1 u v * (r2 - r1)) / pden r1 r2 u v (cos (xi (X := X) r1 r2 u v q)) ^ 2) * sin (xi (X := X) r1 r2 u v q)).
        { unfold pr'. field. split; lra. }
        rewrite SE. destruct (Rlt_dec 0 dr) as [G|G]; [left|right]; split.
        -- apply Rmult_le_pos; auto.
        -- apply Rmult_le_pos; lra.
        -- apply mul_np; [assumption|apply S2; lra].
        -- apply mul_np; lra.
    + pose proof (pHz a E L Q Ha HE HL HQ') as Hz. pose proof (pHm a E L Q Ha HE HL HQ') as Hm.
      set (K := ellK (kt2 (a^2 * (1 - E^2)) (pzm a E L Q) (pbeta a E L Q))).
      pose proof (th_derive _ _ _ Hz _ _ (psi_p_derive HX a E L Q Ha HE HL HQ')) as D. fold K in D.
      set (q := p_q_th a E L Q th0 dth) in *. set (ut := put a E L Q) in *.
      set (t' := P_Polar.th' (a^2 * (1 - E^2)) (pzm a E L Q) (pbeta a E L Q) (2 * K / PI) (psi_p (X := X) a E L Q)) in *.
      assert (D1 : is_derive theta 0 (ut * t' (ut * 0 + (q + PI / 2)))).
      { eapply is_derive_ext; [intros s; symmetry; apply Eq|]. unfold plth. fold ut.
        apply (is_derive_comp (th (pzm a E L Q) (psi_p a E L Q)) (fun l => ut * l + (q + PI / 2))); [apply D|].
        auto_derive; [trivial|ring]. }
      rewrite Rmult_0_r, Rplus_0_l in D1. replace (Sg * dth) with (ut * t' (q + PI / 2)); [exact D1|].
      pose proof (cos_at HX a E L Q th0 Ha HE HL HQ Hth dth) as [S1 S2]. fold q in S1, S2.
      apply same_sign_sq.
      * rewrite M1. unfold ut, t', K. rewrite (th_eq a E L Q Ha HE HL HQ'). unfold q. now rewrite (th_at HX a E L Q th0 Ha HE HL HQ Hth Hc dth).
      * pose proof (put_pos a E L Q Ha HE HL HQ') as U. fold ut in U.
        pose proof (ellK_pos _ (proj2 Hm)) as KP. fold K in KP. pose proof PI_RGT_0.
        pose proof (sin_th_pos _ Hz (psi_p (X := X) a E L Q) (q + PI / 2)) as ST.
        set (P := psi_p (X := X) a E L Q) in *. set (m := kt2 (a^2 * (1 - E^2)) (pzm a E L Q) (pbeta a E L Q)) in *.
        assert (CP : 0 <= ut * (sqrt (pzm a E L Q) * (2 * K / PI * sqrt (dl m (P (q + PI / 2)))) / sin (th (pzm a E L Q) P (q + PI / 2)))).
        { apply Rmult_le_pos; [lra|]. apply Rdiv_le_0_compat; [|exact ST].
          apply Rmult_le_pos; [apply sqrt_pos|]. apply Rmult_le_pos; [apply Rdiv_le_0_compat; lra | apply sqrt_pos]. }
        assert (SE : ut * t' (q + PI / 2) = ut * (sqrt (pzm a E L Q) * (2 * K / PI * sqrt (dl m (P (q + PI / 2)))) / sin (th (pzm a E L Q) P (q + PI / 2))) * - cos (P (q + PI / 2))).
        { unfold t', P_Polar.th'. fold m P. field. split; lra. }
        rewrite SE. destruct (Rle_dec 0 dth) as [G|G]; [left|right]; split.
        -- apply Rmult_le_pos; [assumption|]. specialize (S1 G). lra.
        -- apply Rmult_le_pos; lra.
        -- apply mul_np; [assumption|]. specialize (S2 ltac:(lra)). lra.
        -- apply mul_np; lra.
Qed.

(** the same orbit without a polar motion: the polar phase that is computed is not a number, and
    with it t, theta and phi of the trajectory at every Mino time *)
Theorem C59_refuted_equatorial : Q = 0 ->
  th0 = PI / 2 /\ dth = 0 /\
  exists qr, plunging_orbit_initial_phases (Some a) pos vel None None default_tol = Ret (Some t0, Some qr, None, Some ph0) /\
  exists T1 T2 T3 T4,
  plunging_trajectory (Some a) (Some E) (Some L) (Some Q) (Some t0, Some qr, None, Some ph0) None "natural" "natural" = Ret (T1, T2, T3, T4) /\
  forall l, T1 (Some l) = Ret None /\ T3 (Some l) = Ret None /\ T4 (Some l) = Ret None.
Proof.
  intros Z.
  destruct (complex_plunge_inv HP a E L Q r1 r2 HCP) as (u & v & Hr' & Hv & HR & HF).
  destruct (p_radial u v Hv Hr' HF) as [Hr H0]. pose proof p_polar as Hc. pose proof p_sigma_pos as SP.
  destruct p_momenta as (M1 & M2 & _). pose proof (sin_gt_0 th0 (proj1 Hth) (proj2 Hth)) as S0.
  pose proof (pz_prod a E L Q Ha HE HL HQ') as PZ. pose proof (pz_order a E L Q Ha HE HL HQ') as [_ PO].
  assert (Zm : pzm a E L Q = 0).
  { rewrite Z in PZ at 3. unfold Rdiv in PZ. rewrite Rmult_0_l in PZ. apply Rmult_integral in PZ as [PZ|PZ]; lra. }
  assert (C0 : cos th0 = 0).
  { pose proof (pow2_ge_0 (cos th0)). rewrite Zm in Hc. assert (K : cos th0 * cos th0 = 0) by lra. apply Rmult_integral in K as [K|K]; exact K. }
  assert (T0 : th0 = PI / 2).
  { rewrite <- (acos_cos th0) by lra. rewrite C0. apply acos_0. }
  assert (D0 : dth = 0).
  { unfold polar_potential in M1. rewrite C0, Z in M1. unfold Rdiv in M1. assert (K : (Sg * dth) * (Sg * dth) = 0) by lra.
    apply Rmult_integral in K. assert (K' : Sg * dth = 0) by tauto. apply Rmult_integral in K' as [K'|K']; lra. }
  refine (conj T0 (conj D0 _)). exists (p_q_r r1 r2 u v r0 dr). split.
  - unfold plunging_orbit_initial_phases. cbn [default]. rewrite HI. cbn [bind]. rewrite HR. cbn [bind fst snd]. cbv zeta.
    rewrite (freq_run HX a E L Q Ha HE HL HQ' r1 r2 u v Hr' Hv HR). cbn [bind].
    rewrite (A_run r1 r2 u v Hv), (B_run r1 r2 u v Hv), (z1_run a E L Q Ha HE HL HQ'), Zm, sqrt_0.
    assert (EY : (ncos (Some th0) / Some 0%R)%num = None). { cnum. unfold cdiv. destruct (Req_EM_T 0 0); [reflexivity|contradiction]. }
    rewrite EY. 
    assert (EL : forall x y : option R, (x * ellipkinc (nasin None) y)%num = None).
    { intros x y. destruct x, y; reflexivity. }
    rewrite EL.
    assert (EP : polar_phase (Some th0) (Some dth) None (Some (put a E L Q)) = Ret None).
    { unfold polar_phase. change (nleb (nZ 0) (Some dth)) with (Some (Rleb 0 dth)). rewrite Rleb_true by lra. cbn [ifo].
      match goal with |- Ret ?x = _ => replace x with (@None R); [reflexivity|] end. destruct (npi / nZ 2)%num; reflexivity. }
    rewrite EP. pose proof (prq_run HX r1 r2 u v r0 E Hr Hv HE H0) as PR.
    match goal with |- bind ?x _ = _ => assert (QR : x = Ret (Some (p_q_r r1 r2 u v r0 dr))) end.
    { rewrite PR.
      match goal with |- context [(nZ 2 * npi + ?l * ?w)%num] =>
        assert (QR2 : (nZ 2 * npi + l * w)%num = Some (2 * PI - prq0 r1 r2 u v r0)) end.
      { match goal with |- (nZ 2 * npi + ?l * ?w)%num = _ => destruct l as [lam|]; [|discriminate PR] end.
        cnum_in PR. cnum. assert (PR' : - lam * pur r1 r2 u v E = prq0 r1 r2 u v r0) by congruence. f_equal. rewrite <- PR'. ring. }
      rewrite QR2. change (nltb (nZ 0) (Some dr)) with (Some (Rltb 0 dr)). unfold p_q_r, Rltb. destruct (Rlt_dec 0 dr); reflexivity. }
    rewrite QR. reflexivity.
  - unfold plunging_trajectory. rewrite HR. cbn [bind]. unfold complex_plunge_trajectory.
    change (check_units None "natural" "natural") with (Ret (A := unit) tt). cbn [bind]. rewrite (freq_run HX a E L Q Ha HE HL HQ' r1 r2 u v Hr' Hv HR). cbn [bind].
    unfold plunging_radial_solutions_complex. rewrite HR. cbn [bind fst snd]. cbv zeta. rewrite (freq_run HX a E L Q Ha HE HL HQ' r1 r2 u v Hr' Hv HR). cbn [bind].
    unfold plunging_polar_solutions. rewrite (freq_run HX a E L Q Ha HE HL HQ' r1 r2 u v Hr' Hv HR). cbn [bind].
    do 4 eexists. split; [reflexivity|]. intros l. cbv beta.
    assert (NQ : (None + npi / nZ 2)%num = (None : option R)) by (destruct (npi / nZ 2)%num; reflexivity).
    rewrite NQ.
    assert (N2 : forall y : option R, (y + None)%num = None) by (intros []; reflexivity). rewrite !N2.
    assert (NT : plunge_theta (Some a) (Some E) (Some L) (Some Q) (Some (put a E L Q)) None = None).
    { unfold plunge_theta. rewrite (z1_run a E L Q Ha HE HL HQ'), (z2_run a E L Q Ha HE HL HQ'), (k_run a E L Q Ha HE HL HQ'). reflexivity. }
    assert (NTt : plunge_t_theta (Some a) (Some E) (Some L) (Some Q) (Some (put a E L Q)) None = None).
    { unfold plunge_t_theta. rewrite (z2_run a E L Q Ha HE HL HQ'), (k_run a E L Q Ha HE HL HQ'). cnum. rewrite (cdiv_some E) by lra. reflexivity. }
    assert (NTp : plunge_phi_theta (Some a) (Some E) (Some L) (Some Q) (Some (put a E L Q)) None = None).
    { unfold plunge_phi_theta. rewrite (z1_run a E L Q Ha HE HL HQ'), (z2_run a E L Q Ha HE HL HQ'), (k_run a E L Q Ha HE HL HQ'). cnum. fold (pbeta a E L Q). rewrite (cdiv_some L) by (apply Rgt_not_eq, sqrt_lt_R0, pbeta_pos; assumption). reflexivity. }
    rewrite NT, NTt, NTp, !N2. cbn [bind]. repeat split.
Qed.
End S.

(** initial data with prescribed constants exist wherever both potentials allow motion *)
Lemma data_with_constants a E L Q t0 r0 th0 ph0 wr wth :
  Sigma a r0 th0 <> 0 -> Delta a r0 <> 0 -> sin th0 <> 0 ->
  wr^2 = radial_potential a E L Q r0 -> wth^2 = polar_potential a E L Q th0 ->
  exists dt dph,
  kerr_line_element a r0 th0 dt (wr / Sigma a r0 th0) (wth / Sigma a r0 th0) dph = -1 /\
  constants_from_initial_conditions (Some a) (Some t0, Some r0, Some th0, Some ph0)
    (Some dt, Some (wr / Sigma a r0 th0), Some (wth / Sigma a r0 th0), Some dph) = Ret (Some E, Some L, Some Q).
Proof.
  intros HS HD Hs H1 H2.
  exists (dt_dlambda a E L r0 th0 / Sigma a r0 th0), (dphi_dlambda a E L r0 th0 / Sigma a r0 th0).
  split; [now apply line_element_geodesic with Q|].
  destruct (constants_from_ic_checked a t0 r0 th0 ph0 (dt_dlambda a E L r0 th0 / Sigma a r0 th0) (wr / Sigma a r0 th0) (wth / Sigma a r0 th0)
    (dphi_dlambda a E L r0 th0 / Sigma a r0 th0) HS HD Hs) as (Q' & HQ & HQ').
  destruct (momenta_of_geodesic a E L r0 th0 HS HD Hs) as [ME ML]. rewrite ME, ML in HQ, HQ'.
  replace (Sigma a r0 th0 * (wth / Sigma a r0 th0)) with wth in HQ' by (field; assumption). rewrite H2 in HQ'.
  apply polar_potential_Q in HQ'. now subst Q'.
Qed.

Section Orbit.
Context {X : External R} (HP : polyroots_spec X) (HX : special_spec X).
(** ** Orbit(a, initial_position, initial_velocity) of a plunging particle *)
Theorem C59_orbit_reproduces_initial_conditions :
  forall a E L Q r1 r2 t0 r0 th0 ph0 dt dr dth dph M mu,
  a <> 0 -> a^2 < 1 -> E^2 < 1 -> L <> 0 -> 0 < Q ->
  complex_plunge a E L Q r1 r2 ->
  0 < th0 < PI -> Delta a r0 <> 0 -> Sigma a r0 th0 <> 0 ->
  kerr_line_element a r0 th0 dt dr dth dph = -1 ->
  let pos := (Some t0, Some r0, Some th0, Some ph0) in
  let vel := (Some dt, Some dr, Some dth, Some dph) in
  constants_from_initial_conditions (Some a) pos vel = Ret (Some E, Some L, Some Q) ->
  exists o, Orbit_init (Some a) pos vel M mu = Ret o /\
  o_stable o = false /\ o_a o = Some a /\ o_apex o = None /\
  o_E o = Some E /\ o_L o = Some L /\ o_Q o = Some Q /\
  plunging_mino_frequencies (Some a) (Some E) (Some L) (Some Q) = Ret (o_upsilon_r o, o_upsilon_theta o) /\
  exists qr qth, o_phases o = (Some t0, Some qr, Some qth, Some ph0) /\
  Orbit_trajectory o None "natural" "natural" = plunge_run a E L Q t0 qr qth ph0 /\
  exists r theta, coordinates (Orbit_trajectory o None "natural" "natural") r theta /\
  r 0 = r0 /\ theta 0 = th0 /\
  is_derive r 0 (Sigma a r0 th0 * dr) /\ is_derive theta 0 (Sigma a r0 th0 * dth).
Proof.
  intros a E L Q r1 r2 t0 r0 th0 ph0 dt dr dth dph M mu Ha Ha1 HE HL HQ HCP Hth HD HS HN pos vel HI.
  pose proof (Rlt_le _ _ HQ) as HQ'.
  destruct (C59_phases_reproduce_initial_conditions HP HX a E L Q r1 r2 t0 r0 th0 ph0 dt dr dth dph Ha Ha1 HE HL HQ' HCP Hth HD HS HN HI HQ)
    as (qr & qth & HPh & HT).
  destruct (complex_plunge_inv HP a E L Q r1 r2 HCP) as (u & v & Hr' & Hv & HR & HF).
  pose proof (freq_run HX a E L Q Ha HE HL HQ' r1 r2 u v Hr' Hv HR) as Fr.
  assert (ST : ic_is_stable (Some a) pos vel None default_tol = Ret false).
  { transitivity (ic_is_stable (Some a) pos vel (Some (Some E, Some L, Some Q)) default_tol).
    - unfold ic_is_stable, pos. cbn [default]. fold pos. now rewrite HI.
    - apply (C37_two_complex_roots HP a E L Q t0 r0 th0 ph0 vel _ r1 r2 u v); auto. lra. }
  assert (NM : norm (Some a) (Some t0) (Some r0) (Some th0) (Some ph0) vel = Some (-1)).
  { rewrite <- HN. apply C02_norm_is_kerr_line_element; assumption. }
  eexists. split.
  { unfold Orbit_init, pos. rewrite NM.
    change (nleb (nZ 0) (Some (-1))) with (Some (Rleb 0 (-1))). rewrite Rleb_false by lra. cbn [ifo].
    change (nltb (nQ 1 1000000) (nabs (Some (-1) + nZ 1)%num)) with (Some (Rltb (1/1000000) (Rabs (-1 + 1)))).
    replace (-1 + 1) with 0 by ring. rewrite Rabs_R0, Rltb_false by lra. cbn [ifo].
    fold pos. rewrite HI. cbn [bind]. rewrite ST. cbn [bind].
    change (neqb (Some a) (nZ 0)) with (Some (Reqb a 0)). rewrite Reqb_false by assumption. cbn [ifo].
    rewrite Fr. cbn [bind]. unfold pos, vel. rewrite HPh. cbn [bind]. reflexivity. }
  cbn [o_stable o_a o_apex o_E o_L o_Q o_upsilon_r o_upsilon_theta o_phases].
  do 6 (split; [reflexivity|]). split; [exact Fr|]. exists qr, qth. split; [reflexivity|].
  split; [reflexivity|].
  destruct (C39_plunges_are_defined HP HX a E L Q Ha HE HL HQ' r1 r2 t0 qr qth ph0 HCP) as (_ & r & theta & HC).
  exists r, theta. split; [exact HC | exact (HT r theta HC)].
Qed.

(** a particle of the plunge of [plunge_case], outside the horizon at r = 2, moving
    inwards and away from the equator, meets the hypotheses *)
Example C59_case : exists dt dr dth dph,
  complex_plunge (3/5) (3/5) (2/75) (2/9) (1/8) 3 /\ Delta (3/5) 2 <> 0 /\ Sigma (3/5) 2 (PI / 2) <> 0 /\
  dr < 0 /\ 0 < dth /\
  kerr_line_element (3/5) 2 (PI / 2) dt dr dth dph = -1 /\
  constants_from_initial_conditions (Some (3/5)) (Some 0, Some 2, Some (PI / 2), Some 0) (Some dt, Some dr, Some dth, Some dph)
    = Ret (Some (3/5), Some (2/75), Some (2/9)).
Proof.
  destruct (plunge_case HP) as [C F].
  assert (HS : Sigma (3/5) 2 (PI / 2) = 4) by (unfold Sigma; rewrite cos_PI2; ring).
  assert (HD : Delta (3/5) 2 <> 0) by (unfold Delta; lra).
  assert (R2 : 0 < radial_potential (3/5) (3/5) (2/75) (2/9) 2).
  { rewrite F. rewrite pow2_sqrt; lra. }
  assert (P2 : polar_potential (3/5) (3/5) (2/75) (2/9) (PI / 2) = 2/9).
  { unfold polar_potential. rewrite cos_PI2. unfold Rdiv. ring. }
  destruct (data_with_constants (3/5) (3/5) (2/75) (2/9) 0 2 (PI / 2) 0 (- sqrt (radial_potential (3/5) (3/5) (2/75) (2/9) 2)) (sqrt (2/9))) as (dt & dph & N & I).
  - rewrite HS. lra.
  - exact HD.
  - rewrite sin_PI2. lra.
  - rewrite <- Rsqr_pow2, <- Rsqr_neg, Rsqr_sqrt; lra.
  - rewrite P2. apply pow2_sqrt. lra.
  - exists dt. do 2 eexists. exists dph. refine (conj C (conj HD (conj _ (conj _ (conj _ (conj N I)))))).
    + rewrite HS. lra.
    + rewrite HS. pose proof (sqrt_lt_R0 _ R2). lra.
    + rewrite HS. assert (0 < sqrt (2/9)) by (apply sqrt_lt_R0; lra). lra.
Qed.
(** an equatorial plunge from r = 25/8 into r = 0 *)
Example C59_equatorial_case : exists dt dr dph,
  complex_plunge (3/5) (3/5) (-16/25) 0 0 (25/8) /\ Delta (3/5) 2 <> 0 /\ Sigma (3/5) 2 (PI / 2) <> 0 /\
  kerr_line_element (3/5) 2 (PI / 2) dt dr 0 dph = -1 /\
  constants_from_initial_conditions (Some (3/5)) (Some 0, Some 2, Some (PI / 2), Some 0) (Some dt, Some dr, Some 0, Some dph)
    = Ret (Some (3/5), Some (-16/25), Some 0).
Proof.
  assert (F : forall r, radial_potential (3/5) (3/5) (-16/25) 0 r = (1 - (3/5)^2) * (25/8 - r) * (r - 0) * ((r - 0)^2 + 1^2)).
  { intros r. unfold radial_potential, Delta. field. }
  assert (C : complex_plunge (3/5) (3/5) (-16/25) 0 0 (25/8)).
  { do 2 eexists. unfold plunging_radial_roots. rewrite (split_two HP (3/5) (3/5) (-16/25) 0 0 (25/8) 0 1); [reflexivity|lra|lra|lra|exact F]. }
  assert (HS : Sigma (3/5) 2 (PI / 2) = 4) by (unfold Sigma; rewrite cos_PI2; ring).
  assert (HD : Delta (3/5) 2 <> 0) by (unfold Delta; lra).
  assert (R2 : 0 < radial_potential (3/5) (3/5) (-16/25) 0 2) by (rewrite F; lra).
  assert (P2 : polar_potential (3/5) (3/5) (-16/25) 0 (PI / 2) = 0).
  { unfold polar_potential. rewrite cos_PI2. unfold Rdiv. ring. }
  destruct (data_with_constants (3/5) (3/5) (-16/25) 0 0 2 (PI / 2) 0 (sqrt (radial_potential (3/5) (3/5) (-16/25) 0 2)) 0) as (dt & dph & N & I).
  - rewrite HS. lra.
  - exact HD.
  - rewrite sin_PI2. lra.
  - apply pow2_sqrt. lra.
  - rewrite P2. ring.
  - unfold Rdiv in N, I. rewrite Rmult_0_l in N, I. do 2 eexists. exists dph. refine (conj C (conj HD (conj _ (conj N I)))). rewrite HS. lra.
Qed.
End Orbit.
Print Assumptions C59_phases_reproduce_initial_conditions.
Print Assumptions C59_orbit_reproduces_initial_conditions.
Print Assumptions C59_refuted_equatorial.

(** * C82: r_frequency, theta_frequency, phi_frequency and gamma against mino_frequencies *)
From Coq Require Import Reals Lra Lia ZArith String List.
From Coquelicot Require Import Coquelicot.
From Verif Require Import Num Outcome External Checked ExternalSpec Spec SpecElliptic Elliptic.
From Verif Require Import Model_Units Model_Constants Model_Frequencies Model_Stable.
From Verif Require Import P_Validation Props_Validation P_Bounds P_Constants Props_Constants.
From Verif Require Import P_Radial P_Polar P_Traj P_Traj2 P_Traj3 P_Traj4 Props_Trajectory Props_Trajectory2 Props_Elliptic Props_Frequencies Props_Restart Props_Finite Props_Schwarzschild.
Open Scope R_scope.
(** the sign theta_frequency gives to the polar frequency: that of L, except that it is positive for eccentric orbits around a non-rotating hole *)
Definition theta_sign (a e x : R) : R := if Req_EM_T a 0 then (if Req_EM_T e 0 then sign x else 1) else sign (x * spin_sign a).
Section S.
Context {X : External R} (HX : special_spec X) (HR : root_spec X).
Lemma theta_value a p e x ur uth uph gam E L Q r1 r2 r3 r4 zp beta a2s :
  orbit_facts a p e x ur uth uph gam E L Q r1 r2 r3 r4 zp beta a2s -> a <> 0 ->
  theta_freq_formula (Some a) (Some E) (Some L) (Some (1 - x^2), zp) = Some (sign x * uth).
Proof.
  intros F A0. pose proof (Kt_pos _ _ _ _ (of_z _ _ _ _ _ _ _ _ _ _ _ _ _ _ _ _ _ _ F) (of_kt _ _ _ _ _ _ _ _ _ _ _ _ _ _ _ _ _ _ F)) as K0. destruct F.
  unfold theta_freq_formula. rewrite (e0zp_run a E L (1 - x^2) beta of_z of_L of_beta). pose proof of_k as K. unfold ktheta_of in K.
  change (neqb (Some a) (nZ 0)) with (Some (Reqb a 0)) in K. rewrite (Reqb_false a 0 A0) in K. cbn [nif] in K. rewrite K. cnum.
  rewrite (kt_sq _ _ _ _ of_z of_kt), (ellipk_checked HX), (sqrt_e0zp L beta of_L of_b) by apply of_kt. rewrite cdiv_some by lra. f_equal. rewrite of_uth.
  pose proof (Rabs_pos_lt _ of_L) as L0.
  replace (PI * L * (sqrt beta / Rabs L) / (2 * ellK (kt2 (a^2 * (1 - E^2)) (1 - x^2) beta))) with (L / Rabs L * (PI * sqrt beta / (2 * ellK (kt2 (a^2 * (1 - E^2)) (1 - x^2) beta)))) by (field; lra).
  f_equal. destruct (Rtotal_order x 0) as [N|[N|N]].
  - rewrite sign_eq_m1 by exact N. assert (L < 0) by nra. rewrite Rabs_left by assumption. field. lra.
  - destruct of_x. contradiction.
  - rewrite sign_eq_1 by exact N. assert (0 < L) by nra. rewrite Rabs_pos_eq by lra. field. lra.
Qed.
Theorem C82_separate_functions_partial a p e x ur uth uph gam :
  mino_frequencies (Some a) (Some p) (Some e) (Some x) = Ret (Some ur, Some uth, Some uph, Some gam) ->
  0 < uth /\
  r_frequency (Some a) (Some p) (Some e) (Some x) None = Ret (Some ur) /\
  theta_frequency (Some a) (Some p) (Some e) (Some x) None = Ret (Some (theta_sign a e x * uth)) /\
  phi_frequency (Some a) (Some p) (Some e) (Some x) None None None = Ret (Some uph) /\
  gamma (Some a) (Some p) (Some e) (Some x) None None None = Ret (Some gam).
Proof.
  intros HF. pose proof HF as HF'. rewrite mino_std in HF'.
  destruct (mino_facts HX HR _ p e _ ur uth uph gam (Rabs_pos a) HF') as (E & L & Q & r1 & r2 & r3 & r4 & zp & beta & a2s & F).
  assert (U : 0 < uth).
  { pose proof (Kt_pos _ _ _ _ (of_z _ _ _ _ _ _ _ _ _ _ _ _ _ _ _ _ _ _ F) (of_kt _ _ _ _ _ _ _ _ _ _ _ _ _ _ _ _ _ _ F)) as K0. destruct F.
    rewrite of_uth. pose proof PI_RGT_0. pose proof (sqrt_lt_R0 _ of_b). apply Rdiv_lt_0_compat; [apply Rmult_lt_0_compat|]; lra. }
  split; [exact U|].
  unfold mino_frequencies in HF. destruct (constants_of_motion (Some a) (Some p) (Some e) (Some x)) as [c| |] eqn:HC; cbn [bind] in HF; try discriminate.
  destruct (r_frequency (Some a) (Some p) (Some e) (Some x) (Some c)) as [vr| |] eqn:Er; cbn [bind] in HF; try discriminate.
  destruct (theta_frequency (Some a) (Some p) (Some e) (Some x) (Some c)) as [vt| |] eqn:Et; cbn [bind] in HF; try discriminate.
  destruct (phi_frequency (Some a) (Some p) (Some e) (Some x) (Some c) (Some vr) (Some vt)) as [vp| |] eqn:Ep; cbn [bind] in HF; try discriminate.
  destruct (gamma (Some a) (Some p) (Some e) (Some x) (Some c) (Some vr) (Some vt)) as [vg| |] eqn:Eg; cbn [bind] in HF; try discriminate.
  apply Ret_inj in HF. apply pair_equal_spec in HF as [HF ->]. apply pair_equal_spec in HF as [HF ->]. apply pair_equal_spec in HF as [-> At].
  (* the value of theta_frequency *)
  assert (VT : vt = Some (theta_sign a e x * uth)).
  { assert (c = (Some E, Some L, Some Q)).
    { pose proof (of_constants _ _ _ _ _ _ _ _ _ _ _ _ _ _ _ _ _ _ F) as K. rewrite <- constants_std in K. rewrite HC in K. now apply Ret_inj in K. }
    subst c. unfold theta_frequency in Et. rewrite std_some in Et.
    destruct (check_frequency_params (Some (Rabs a)) (Some p) (Some e) (Some (x * spin_sign a))) as [?| |]; cbn [bind] in Et; try discriminate.
    change (neqb (Some (Rabs a)) (nZ 0)) with (Some (Reqb (Rabs a) 0)) in Et. unfold theta_sign. destruct (Req_EM_T a 0) as [A0|A0].
    - rewrite Reqb_true in Et by (rewrite A0; apply Rabs_R0). cbn [ifo] in Et. apply Ret_inj in Et.
      assert (SS : spin_sign a = 1) by (unfold spin_sign; destruct (Rlt_dec a 0); lra). rewrite SS, Rmult_1_r in Et.
      change (neqb (Some e) (nZ 0)) with (Some (Reqb e 0)) in Et.
      destruct vt as [v|]; [|discriminate At]. assert (Av : Rabs v = uth) by (cnum_in At; congruence).
      assert (Pp : 0 < p).
      { destruct F. assert (0 < p / (1 + e)) by lra. replace p with (p / (1 + e) * (1 + e)) by (field; lra). apply Rmult_lt_0_compat; lra. }
      assert (NX : x <> 0). { destruct F. intros Z. apply of_L. rewrite Z in of_Lx. lra. }
      assert (GEN : forall s, c2 Rmult (cdiv (Some p) (csqrt (Some (- (3) - e^2 + p)))) (Some s) = Some v -> Rabs s = 1 -> v = s * uth).
      { intros s G As. destruct (cdiv (Some p) (csqrt (Some (- (3) - e^2 + p)))) as [d|] eqn:Ed; [|discriminate].
        assert (Ev : v = d * s) by (cbn in G; congruence). apply cdiv_inv' in Ed as (n & m & En & Em & Nm & ->).
        assert (n = p) by congruence. subst n. apply csqrt_inv' in Em as (m2 & _ & _ & ->). pose proof (sqrt_pos m2).
        assert (0 < p / sqrt m2) by (apply Rdiv_lt_0_compat; lra).
        rewrite <- Av, Ev, Rabs_mult, As, (Rabs_pos_eq (p / sqrt m2)) by lra. ring. }
      f_equal. destruct (Req_EM_T e 0) as [E0|E0].
      + rewrite (Reqb_true e 0 E0) in Et. cbn [nif] in Et. cnum_in Et. apply (GEN (sign x)).
        * assert (RS : Rsgn x = sign x).
          { unfold Rsgn. destruct (Rtotal_order x 0) as [N|[N|N]]; [rewrite sign_eq_m1 by exact N | lra | rewrite sign_eq_1 by exact N];
            repeat match goal with |- context [if ?d then _ else _] => destruct d end; lra. }
          rewrite RS in Et. exact Et.
        * destruct (Rtotal_order x 0) as [N|[N|N]]; [rewrite sign_eq_m1 by exact N; rewrite Rabs_left; lra | lra | rewrite sign_eq_1 by exact N; apply Rabs_R1].
      + rewrite (Reqb_false e 0 E0) in Et. cbn [nif] in Et. cnum_in Et. apply (GEN 1); [exact Et | apply Rabs_R1].
    - assert (A1 : Rabs a <> 0) by now apply Rabs_no_R0.
      rewrite (Reqb_false _ 0 A1) in Et. cbn [ifo] in Et. cbn [bind default] in Et.
      rewrite (of_polar _ _ _ _ _ _ _ _ _ _ _ _ _ _ _ _ _ _ F) in Et. cbn [bind] in Et. apply Ret_inj in Et.
      rewrite <- Et. exact (theta_value _ _ _ _ _ _ _ _ _ _ _ _ _ _ _ _ _ _ F A1). }
  assert (HE : exists e0 l0 q0, c = (e0, l0, q0) /\ energy (Some a) (Some p) (Some e) (Some x) = Ret e0 /\ angular_momentum (Some a) (Some p) (Some e) (Some x) None = Ret l0).
  { unfold constants_of_motion in HC. destruct (energy (Some a) (Some p) (Some e) (Some x)) as [e0| |] eqn:H1; cbn [bind] in HC; try discriminate.
    destruct (angular_momentum (Some a) (Some p) (Some e) (Some x) (Some e0)) as [l0| |] eqn:H2; cbn [bind] in HC; try discriminate.
    destruct (carter_constant (Some a) (Some p) (Some e) (Some x) (Some e0) (Some l0)) as [q0| |] eqn:H3; cbn [bind] in HC; try discriminate.
    apply Ret_inj in HC. exists e0, l0, q0. split; [now symmetry|]. split; [reflexivity|]. rewrite <- H2.
    assert (HE' := shape_std energy _ _ _ _ _ energy_shape H1). unfold angular_momentum.
    destruct (standardize_params (Some a) (Some x)) as [a' x'] eqn:S. cbn [fst snd] in *. cbn [default]. rewrite HE'. reflexivity. }
  destruct HE as (e0 & l0 & q0 & -> & H1 & H2).
  destruct (C11_cached_arguments (Some a) (Some p) (Some e) (Some x) e0 l0 q0 (Some ur) vt H1 H2 HC) as (_ & _ & _ & _ & _ & _ & Cr & Ct & Cpg).
  rewrite Cr in Er. rewrite Ct in Et. destruct (Cpg Er Et (Some (e0, l0, q0)) (Some (Some ur)) (Some vt)) as [Cp Cg]; try tauto.
  rewrite <- Cp, <- Cg. rewrite <- VT. tauto.
Qed.
(** C82 as one would read the documentation ("theta_frequency ... returns the frequency of motion in theta in Mino time", as mino_frequencies does) fails:
    on the same retrograde inclined eccentric orbit the two differ in sign for a = 1/2 and agree for a = 0. *)
Theorem C82_refuted_polar_sign :
  (exists ur uth uph gam,
    mino_frequencies (Some (1/2)) (Some 20) (Some (1/2)) (Some (-1/2)) = Ret (Some ur, Some uth, Some uph, Some gam) /\ 0 < uth /\
    theta_frequency (Some (1/2)) (Some 20) (Some (1/2)) (Some (-1/2)) None = Ret (Some (- uth))) /\
  (exists ur uth uph gam,
    mino_frequencies (Some 0) (Some 20) (Some (1/2)) (Some (-1/2)) = Ret (Some ur, Some uth, Some uph, Some gam) /\ 0 < uth /\
    theta_frequency (Some 0) (Some 20) (Some (1/2)) (Some (-1/2)) None = Ret (Some uth)).
Proof.
  split.
  - destruct (far_retrograde HX HR (1/2) 20 (1/2) (-1/2)) as (E & L & Q & ur & uth & uph & gam & HC & HF); try lra.
    exists ur, uth, uph, gam. destruct (C82_separate_functions_partial _ _ _ _ _ _ _ _ HF) as (U & _ & T & _). refine (conj HF (conj U _)). rewrite T. f_equal. f_equal.
    unfold theta_sign. destruct (Req_EM_T (1/2) 0); [lra|]. unfold spin_sign. destruct (Rlt_dec (1/2) 0); [lra|]. rewrite sign_eq_m1; lra.
  - assert (CK : check_constants_params 0 20 (1/2) (-1/2) = Ret tt) by (apply accepts_schwarzschild; lra).
    destruct (C54_every_accepted_orbit HX HR 0 20 (1/2) (-1/2) ltac:(lra) ltac:(lra) ltac:(lra) CK) as (E & L & Q & HC & HE & _ & FR).
    { intros (K & _). lra. }
    destruct FR as (ur & uth & uph & gam & HF & _).
    { rewrite Rmult_0_l. apply Rgt_not_eq. pose proof (sqrt_pos (1 - 0^2)). apply Rmult_lt_0_compat; lra. }
    exists ur, uth, uph, gam. destruct (C82_separate_functions_partial _ _ _ _ _ _ _ _ HF) as (U & _ & T & _). refine (conj HF (conj U _)). rewrite T. f_equal. f_equal.
    unfold theta_sign. destruct (Req_EM_T 0 0); [|lra]. destruct (Req_EM_T (1/2) 0); lra.
Qed.
End S.
Print Assumptions C82_separate_functions_partial.
Print Assumptions C82_refuted_polar_sign.

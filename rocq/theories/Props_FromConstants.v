(** * C83: frequencies from the constants of motion agree with frequencies from the orbital parameters *)
From Coq Require Import Reals Lra Lia ZArith String List.
From Coquelicot Require Import Coquelicot.
From Verif Require Import Num Outcome External Checked ExternalSpec Spec SpecElliptic Elliptic.
From Verif Require Import Model_Units Model_Constants Model_Frequencies Model_Stable.
From Verif Require Import P_Validation Props_Validation P_Bounds P_Constants Props_Constants.
From Verif Require Import P_Radial P_Polar P_Traj P_Traj2 P_Traj3 P_Traj4 Props_Trajectory Props_Trajectory2 Props_Elliptic Props_Frequencies Props_Restart.
Open Scope R_scope.
Section S.
Context {X : External R} (HX : special_spec X) (HR : root_spec X).

Theorem C83_frequencies_from_constants a p e x ur uth uph gam E L Q rr zz : 0 <= a ->
  mino_frequencies (Some a) (Some p) (Some e) (Some x) = Ret (Some ur, Some uth, Some uph, Some gam) ->
  constants_of_motion (Some a) (Some p) (Some e) (Some x) = Ret (Some E, Some L, Some Q) ->
  stable_radial_roots (Some a) (Some p) (Some e) (Some x) None = Ret rr ->
  stable_polar_roots (Some a) (Some p) (Some e) (Some x) None = Ret zz ->
  mino_frequencies_from_constants (Some a) (Some E, Some L, Some Q) rr zz = Ret (Some ur, Some uth, Some uph, Some gam) /\
  fundamental_frequencies_from_constants (Some a) (Some E, Some L, Some Q) rr zz = fundamental_frequencies (Some a) (Some p) (Some e) (Some x).
Proof.
  intros Ha HF HC Hrr Hzz.
  destruct (mino_facts HX HR a p e x ur uth uph gam Ha HF) as (E' & L' & Q' & r1 & r2 & r3 & r4 & zp & beta & a2s & F).
  assert (E' = E /\ L' = L /\ Q' = Q) as (-> & -> & ->).
  { pose proof (of_constants _ _ _ _ _ _ _ _ _ _ _ _ _ _ _ _ _ _ F) as K. rewrite HC in K. apply Ret_inj in K. repeat split; congruence. }
  assert (rr = (Some r1, Some r2, Some r3, Some r4)) as ->.
  { pose proof (of_roots _ _ _ _ _ _ _ _ _ _ _ _ _ _ _ _ _ _ F) as K. unfold stable_radial_roots in K, Hrr. cbn [default] in K, Hrr. rewrite HC in Hrr. cbn [bind] in K, Hrr. congruence. }
  assert (zz = (Some (1 - x^2), zp)) as ->.
  { pose proof (of_polar _ _ _ _ _ _ _ _ _ _ _ _ _ _ _ _ _ _ F) as K. unfold stable_polar_roots in K, Hzz. cbn [default] in K, Hzz. rewrite HC in Hzz. cbn [bind] in K, Hzz. congruence. }
  set (c := (Some E, Some L, Some Q)) in *. set (rr := (Some r1, Some r2, Some r3, Some r4)) in *. set (zz := (Some (1 - x^2), zp)) in *.
  assert (ST : standardize_params (Some a) (Some x) = (Some a, Some x)).
  { rewrite std_some. rewrite Rabs_pos_eq by exact Ha. unfold spin_sign. destruct (Rlt_dec a 0); [lra|]. now rewrite Rmult_1_r. }
  assert (PE : p = 2 * r1 * r2 / (r1 + r2) /\ e = (r1 - r2) / (r1 + r2) /\ r1 + r2 <> 0 /\ (r1 - r2) / (r1 + r2) < 1).
  { destruct F. assert (0 < p). { assert (0 < p / (1 + e)) by lra. replace p with (p / (1 + e) * (1 + e)) by (field; lra). apply Rmult_lt_0_compat; lra. }
    assert (r1 + r2 = 2 * p / (1 - e^2)) by (rewrite of_r1, of_r2; field; repeat split; nra).
    assert (ee : e = (r1 - r2) / (r1 + r2)). { rewrite of_r1, of_r2. field. repeat split; nra. }
    split; [rewrite of_r1, of_r2; field; repeat split; nra |]. split; [exact ee|]. split; [apply Rgt_not_eq; lra|]. rewrite <- ee. lra. }
  destruct PE as (PE1 & PE2 & PE3 & PE4).
  assert (SXL : Rsgn x = Rsgn L).
  { pose proof (of_Lx _ _ _ _ _ _ _ _ _ _ _ _ _ _ _ _ _ _ F) as K. destruct (Rtotal_order x 0) as [N|[N|N]].
    - rewrite !Rsgn_neg; [reflexivity | nra | exact N].
    - subst x. lra.
    - rewrite !Rsgn_pos; [reflexivity | nra | exact N]. }
  assert (CKF : check_frequency_params (Some a) (Some p) (Some e) (Some x) = Ret tt).
  { unfold mino_frequencies in HF. rewrite HC in HF. cbn [bind] in HF. unfold r_frequency in HF. rewrite ST in HF.
    destruct (check_frequency_params (Some a) (Some p) (Some e) (Some x)) as [[]| |]; [reflexivity | discriminate | discriminate]. }
  assert (Er : r_frequency (Some a) (Some p) (Some e) (Some x) (Some c) = Ret (r_frequency_from_constants c rr)).
  { unfold r_frequency. rewrite ST, CKF. cbn [bind default]. unfold c. rewrite (of_roots _ _ _ _ _ _ _ _ _ _ _ _ _ _ _ _ _ _ F). reflexivity. }
  assert (Et : theta_frequency (Some a) (Some p) (Some e) (Some x) (Some c) = theta_frequency_from_constants (Some a) c rr zz).
  { unfold theta_frequency, theta_frequency_from_constants. rewrite ST, CKF. cbn [bind default]. unfold c, rr.
    change (neqb (Some a) (nZ 0)) with (Some (Reqb a 0)). destruct (Req_EM_T a 0) as [A0|A0].
    - rewrite (Reqb_true a 0 A0). cbn [ifo]. cbv zeta. cnum. rewrite !cdiv_some by exact PE3. cnum.
      rewrite <- PE1, <- PE2, SXL. reflexivity.
    - rewrite (Reqb_false a 0 A0). cbn [ifo]. rewrite (of_polar _ _ _ _ _ _ _ _ _ _ _ _ _ _ _ _ _ _ F). reflexivity. }
  assert (Ep : forall u v, phi_frequency (Some a) (Some p) (Some e) (Some x) (Some c) (Some u) (Some v) = phi_frequency_from_constants (Some a) c rr zz (Some u) (Some v)).
  { intros u v. unfold phi_frequency, phi_frequency_from_constants. rewrite ST, CKF. cbn [bind default]. unfold c, rr.
    change (neqb (Some a) (nZ 0)) with (Some (Reqb a 0)). destruct (Req_EM_T a 0) as [A0|A0].
    - rewrite (Reqb_true a 0 A0). cbn [ifo]. cbv zeta. cnum. rewrite !cdiv_some by exact PE3. cnum.
      rewrite <- PE1, <- PE2, SXL. reflexivity.
    - rewrite (Reqb_false a 0 A0). cbn [ifo]. rewrite (of_roots _ _ _ _ _ _ _ _ _ _ _ _ _ _ _ _ _ _ F), (of_polar _ _ _ _ _ _ _ _ _ _ _ _ _ _ _ _ _ _ F). reflexivity. }
  assert (Eg : forall u v, gamma (Some a) (Some p) (Some e) (Some x) (Some c) (Some u) (Some v) = gamma_from_constants (Some a) c rr zz (Some u) (Some v)).
  { intros u v. unfold gamma, gamma_from_constants. rewrite ST, CKF. cbn [bind default]. unfold c, rr.
    assert (K : neqb (cdiv (Some (r1 - r2)) (Some (r1 + r2))) (Some 1) = Some false).
    { rewrite cdiv_some by exact PE3. change (neqb (Some ((r1 - r2) / (r1 + r2))) (Some 1)) with (Some (Reqb ((r1 - r2) / (r1 + r2)) 1)). rewrite Reqb_false; [reflexivity | lra]. }
    cbv zeta. change (neqb ((Some r1 - Some r2) / (Some r1 + Some r2))%num (nZ 1)) with (neqb (cdiv (Some (r1 - r2)) (Some (r1 + r2))) (Some 1)). rewrite K. cbn [ifo].
    rewrite (of_roots _ _ _ _ _ _ _ _ _ _ _ _ _ _ _ _ _ _ F), (of_polar _ _ _ _ _ _ _ _ _ _ _ _ _ _ _ _ _ _ F). reflexivity. }
  split.
  - rewrite <- HF. unfold mino_frequencies, mino_frequencies_from_constants. rewrite HC. cbn [bind]. fold c. rewrite Er. cbn [bind]. rewrite <- Et. cbv zeta.
    destruct (theta_frequency (Some a) (Some p) (Some e) (Some x) (Some c)) as [v| |]; cbn [bind]; [rewrite Ep | reflexivity | reflexivity].
    destruct (phi_frequency_from_constants _ _ _ _ _ _) as [w| |]; cbn [bind]; [rewrite Eg | |]; reflexivity.
  - unfold fundamental_frequencies, fundamental_frequencies_from_constants. rewrite HC. cbn [bind]. fold c. rewrite Er. cbn [bind]. rewrite <- Et. cbv zeta.
    destruct (theta_frequency (Some a) (Some p) (Some e) (Some x) (Some c)) as [v| |]; cbn [bind]; [rewrite Ep | reflexivity | reflexivity].
    destruct (phi_frequency_from_constants _ _ _ _ _ _) as [w| |]; cbn [bind]; [rewrite Eg | |]; reflexivity.
Qed.
(** Non-vacuity *)
Example C83_case : exists ur uth uph gam E L Q rr zz,
  mino_frequencies (Some (1/2)) (Some 20) (Some (1/2)) (Some (-1/2)) = Ret (Some ur, Some uth, Some uph, Some gam) /\
  constants_of_motion (Some (1/2)) (Some 20) (Some (1/2)) (Some (-1/2)) = Ret (Some E, Some L, Some Q) /\
  stable_radial_roots (Some (1/2)) (Some 20) (Some (1/2)) (Some (-1/2)) None = Ret rr /\
  stable_polar_roots (Some (1/2)) (Some 20) (Some (1/2)) (Some (-1/2)) None = Ret zz /\
  mino_frequencies_from_constants (Some (1/2)) (Some E, Some L, Some Q) rr zz = Ret (Some ur, Some uth, Some uph, Some gam).
Proof.
  destruct (far_retrograde HX HR (1/2) 20 (1/2) (-1/2)) as (E & L & Q & ur & uth & uph & gam & HC & HF); try lra.
  destruct (mino_facts HX HR (1/2) 20 (1/2) (-1/2) ur uth uph gam ltac:(lra) HF) as (E' & L' & Q' & r1 & r2 & r3 & r4 & zp & beta & a2s & F).
  exists ur, uth, uph, gam, E, L, Q, (Some r1, Some r2, Some r3, Some r4), (Some (1 - (-1/2)^2), zp).
  assert (E' = E /\ L' = L /\ Q' = Q) as (-> & -> & ->).
  { pose proof (of_constants _ _ _ _ _ _ _ _ _ _ _ _ _ _ _ _ _ _ F) as K. rewrite HC in K. apply Ret_inj in K. repeat split; congruence. }
  assert (K1 : stable_radial_roots (Some (1/2)) (Some 20) (Some (1/2)) (Some (-1/2)) None = Ret (Some r1, Some r2, Some r3, Some r4)).
  { rewrite <- (of_roots _ _ _ _ _ _ _ _ _ _ _ _ _ _ _ _ _ _ F). unfold stable_radial_roots. cbn [default]. rewrite HC. reflexivity. }
  assert (K2 : stable_polar_roots (Some (1/2)) (Some 20) (Some (1/2)) (Some (-1/2)) None = Ret (Some (1 - (-1/2)^2), zp)).
  { rewrite <- (of_polar _ _ _ _ _ _ _ _ _ _ _ _ _ _ _ _ _ _ F). unfold stable_polar_roots. cbn [default]. rewrite HC. reflexivity. }
  refine (conj HF (conj HC (conj K1 (conj K2 _)))).
  exact (proj1 (C83_frequencies_from_constants (1/2) _ _ _ _ _ _ _ _ _ _ _ _ ltac:(lra) HF HC K1 K2)).
Qed.
End S.
Print Assumptions C83_frequencies_from_constants.

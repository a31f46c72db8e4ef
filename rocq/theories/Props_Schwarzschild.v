(** * C70: Schwarzschild orbits: closed-form frequencies, no precession of the orbital plane *)
From Coq Require Import Reals Lra Lia ZArith String List.
From Coquelicot Require Import Coquelicot.
From Verif Require Import Num Outcome External Checked ExternalSpec.
From Verif Require Import Model_Constants Model_Frequencies Model_Stable Model_Orbit.
From Verif Require Import Spec SpecElliptic Elliptic P_Validation Props_Validation P_Bounds P_Constants Props_Constants.
From Verif Require Import P_Radial P_Polar P_Traj P_Traj2 P_Traj3 P_Traj4 Props_Trajectory Props_Trajectory2.
From Verif Require Import Props_Stability Props_Finite Props_Frequencies Props_Units Props_Future.
Import ListNotations.
Open Scope R_scope.

(** the complete integral of the third kind for modulus 0 *)
Lemma ellPi_m0 n : n < 1 -> ellPi n (PI / 2) 0 = PI / (2 * sqrt (1 - n)).
Proof.
  intros Hn. set (s := sqrt (1 - n)). assert (S0 : 0 < s) by (apply sqrt_lt_R0; lra).
  assert (S2 : s^2 = 1 - n) by (apply pow2_sqrt; lra).
  set (G := fun t => (t - atan ((1 - s) * (sin t * cos t) / (cos t ^2 + s * sin t ^2))) / s).
  assert (SC : forall t, sin t ^2 + cos t ^2 = 1). { intros t. pose proof (sin2_cos2 t) as Z. unfold Rsqr in Z. lra. }
  assert (DN : forall t, 0 < cos t ^2 + s * sin t ^2).
  { intros t. pose proof (SC t). pose proof (pow2_ge_0 (cos t)). pose proof (pow2_ge_0 (sin t)).
    destruct (Req_dec (sin t ^2) 0) as [Z|Z]; [rewrite Z in *; lra|]. assert (0 < s * sin t ^2) by (apply Rmult_lt_0_compat; lra). lra. }
  assert (D : forall t, is_derive (fun t => ellPi n t 0 - G t) t 0).
  { intros t. pose proof (ellPi_derive n 0 t Hn Rlt_0_1) as D1.
    assert (D2 : is_derive G t (hP n 0 t)).
    { unfold G. pose proof (DN t) as Dt. auto_derive; [lra|].
      unfold hP, dl. replace (1 - 0 * sin t ^2) with 1 by ring. rewrite sqrt_1, Rmult_1_r. pose proof (SC t) as C.
      assert (NN : 0 < 1 - n * sin t ^2).
      { pose proof (pow2_ge_0 (cos t)). replace (1 - n * sin t ^2) with (cos t ^2 + s^2 * sin t ^2) by (rewrite S2; lra).
        destruct (Req_dec (sin t ^2) 0) as [Z|Z]; [rewrite Z in *; lra|]. pose proof (pow2_ge_0 (sin t)).
        assert (0 < s^2 * sin t ^2) by (apply Rmult_lt_0_compat; [apply pow_lt|]; lra). lra. }
      replace (1 - n * sin t ^2) with (cos t ^2 + s^2 * sin t ^2) in * by (rewrite S2; lra).
      clear D1. set (c := cos t) in *. set (S := sin t) in *. clearbody c S s. clear G.
      assert (Q : (c^2 + s * S^2)^2 + ((1 - s) * (S * c))^2 = c^2 + s^2 * S^2).
      { replace (c^2 + s^2 * S^2) with ((c^2 + s^2 * S^2) * (S^2 + c^2)) by (rewrite C; ring). ring. }
      rewrite <- Q in NN |- *.
      transitivity ((S^2 + c^2)^2 / ((c^2 + s * S^2)^2 + ((1 - s) * (S * c))^2)); [|rewrite C; field; lra].
      field. repeat split; try lra. }
    pose proof (is_derive_minus (V := R_NormedModule) _ _ _ _ _ D1 D2) as D3. unfold minus, plus, opp in D3; simpl in D3. rewrite Rplus_opp_r in D3. exact D3. }
  pose proof PI_RGT_0.
  pose proof (eq_is_derive (fun t => ellPi n t 0 - G t) 0 (PI / 2) ltac:(intros; apply D) ltac:(lra)) as K. cbv beta in K.
  rewrite ellPi_0 in K. unfold G in K. rewrite sin_0, cos_0, sin_PI2, cos_PI2 in K.
  replace ((1 - s) * (0 * 1) / (1^2 + s * 0^2)) with 0 in K by field.
  replace ((1 - s) * (1 * 0) / (0^2 + s * 1^2)) with 0 in K by (field; lra).
  rewrite atan_0 in K. unfold zero in K; simpl in K.
  replace (PI / (2 * s)) with ((PI / 2 - 0) / s) by (field; lra). lra.
Qed.

Section S.
Context {X : External R} (HX : special_spec X) (HR : root_spec X).

(** ** C70 (Cutler, Kennefick, Poisson 1994; Fujita, Hikida 2009 for a = 0) *)
Theorem C70_schwarzschild_frequencies p e x ur uth uph gam :
  mino_frequencies (Some 0) (Some p) (Some e) (Some x) = Ret (Some ur, Some uth, Some uph, Some gam) ->
  0 <= e < 1 /\ 6 + 2 * e < p /\ 0 <= 4 * e / (p - 6 + 2 * e) < 1 /\
  uth = p / sqrt (p - 3 - e^2) /\
  (0 < x -> uph = uth) /\ (x < 0 -> uph = - uth) /\
  ur = PI / 2 * sqrt (p * (p - 6 + 2 * e) / (p - 3 - e^2)) / ellK (4 * e / (p - 6 + 2 * e)) /\
  (* after one polar period the particle has gone round exactly once *)
  forall qt qr qth qph t r theta phi,
  runs_as (stable_trajectory (Some 0) (Some p) (Some e) (Some x) (Some qt, Some qr, Some qth, Some qph) None "natural" "natural")
    t r theta phi ->
  forall l, theta (l + 2 * PI / uth) = theta l /\
    Rabs (phi (l + 2 * PI / uth) - phi l) = 2 * PI.
Proof.
  intros HF. assert (Ha : 0 <= 0) by lra.
  destruct (mino_facts HX HR 0 p e x ur uth uph gam Ha HF) as (E & L & Q & r1 & r2 & r3 & r4 & zp & beta & a2s & FA).
  pose proof (of_constants _ _ _ _ _ _ _ _ _ _ _ _ _ _ _ _ _ _ FA) as HC.
  assert (He1 : e < 1) by (destruct FA; lra).
  destruct (constants_inv _ _ _ _ _ _ _ Ha HC) as [HCK _].
  destruct (accepted_bounds HR 0 p e x Ha HCK) as (_ & He & Hx & Hr2 & HD & _ & HP). specialize (HP eq_refl).
  destruct (C15_roots_defined HR 0 p e x E L Q (Some (Some E, Some L, Some Q)) HC He1 (or_intror eq_refl))
    as (s1 & s2 & s3 & s4 & RR & Q1 & Q2 & R4 & R3 & R21 & _).
  assert (Z4 : s4 = 0). { replace (1 - 0^2) with 1 in R4 by ring. rewrite sqrt_1 in R4. lra. }
  pose proof (sch_pos p e ltac:(lra) HP) as ZP.
  set (z := p - 3 - e^2) in *. assert (SZ : 0 < sqrt z) by now apply sqrt_lt_R0.
  assert (SZ2 : sqrt z ^2 = z) by (apply pow2_sqrt; lra).
  assert (P0 : 0 < p) by lra.
  pose proof (C12_schwarzschild p e x HP He Hx) as HC'. fold z in HC'. rewrite HC in HC'. apply Ret_inj in HC'.
  assert (HE : E = sqrt (((p - 2)^2 - 4 * e^2) / (p * z))) by congruence.
  assert (HL : L = x * p / sqrt z) by congruence. assert (HQ : Q = (1 - x^2) * (p^2 / z)) by congruence. clear HC'.
  assert (NN : 0 < (p - 2)^2 - 4 * e^2) by nra.
  assert (PZ : 0 < p * z) by now apply Rmult_lt_0_compat.
  assert (E2 : E^2 = ((p - 2)^2 - 4 * e^2) / (p * z)) by (rewrite HE; apply pow2_sqrt; apply Rlt_le, Rdiv_lt_0_compat; assumption).
  assert (EE : 1 - E^2 = (1 - e^2) * (p - 4) / (p * z)) by (rewrite E2; unfold z; field; split; unfold z in ZP; lra).
  assert (e2 : 0 < 1 - e^2) by nra.
  pose proof PI_RGT_0 as PI0. pose proof FA as FA0.
  destruct FA as [_ _ (_ & X0) _ GRR _ G1 G2 _ GE GR Gs Gk _ _ _ _ _ Gz _ Gx Gb _ GB _ _ _ _ Gur Guth _ Guph].
  assert (Z4' : r4 = 0). { rewrite GRR in RR. apply Ret_inj in RR. congruence. }
  assert (K0 : kt2 (0^2 * (1 - E^2)) (1 - x^2) beta = 0) by (unfold kt2; field; lra).
  rewrite K0 in Guth, Guph. rewrite (proj1 ellK_E_0) in Guth, Guph.
  assert (BB : beta = (p / sqrt z)^2) by (rewrite GB, HL; field; split; lra).
  assert (UT : uth = p / sqrt z).
  { rewrite Guth, BB, sqrt_pow2 by (apply Rlt_le, Rdiv_lt_0_compat; assumption). field. lra. }
  assert (UT0 : 0 < uth) by (rewrite UT; apply Rdiv_lt_0_compat; assumption).
  assert (UP : uph = x / Rabs x * uth).
  { rewrite Guph, ellPi_m0 by lra. replace (1 - (1 - x^2)) with (x^2) by ring. rewrite <- Rsqr_pow2, sqrt_Rsqr_abs.
    replace (Gph 0 E L r1 r2 r3 r4) with 0 by (unfold Gph, Rdiv; ring).
    rewrite HL, UT. assert (0 < Rabs x) by now apply Rabs_pos_lt. field. repeat split; lra. }
  assert (U1 : 0 < x -> uph = uth). { intros K. rewrite UP, Rabs_pos_eq by lra. field. lra. }
  assert (U2 : x < 0 -> uph = - uth). { intros K. rewrite UP, Rabs_left by lra. field. lra. }
  (* the third root *)
  subst r4. assert (T2 : radial_potential 0 E L Q 2 = 16 * E^2) by (unfold radial_potential, Delta; ring).
  rewrite GR in T2.
  assert (V : r3 = 2 * p / (p - 4)).
  { assert (W : (1 - E^2) * (r1 - 2) * (r2 - 2) = ((p - 2)^2 - 4 * e^2) * (p - 4) / (p * z)).
    { rewrite EE, G1, G2. field. repeat split; lra. }
    assert (Y : (((p - 2)^2 - 4 * e^2) * (p - 4) / (p * z)) * (r3 - 2) = 8 * (((p - 2)^2 - 4 * e^2) / (p * z))).
    { rewrite <- W, <- E2. lra. }
    apply (Rmult_eq_reg_l (((p - 2)^2 - 4 * e^2) * (p - 4) / (p * z)));
      [|apply Rgt_not_eq, Rdiv_lt_0_compat; [apply Rmult_lt_0_compat; lra | assumption]].
    transitivity (8 * (((p - 2)^2 - 4 * e^2) / (p * z)) + 2 * (((p - 2)^2 - 4 * e^2) * (p - 4) / (p * z))); [lra|].
    field. repeat split; lra. }
  assert (P6 : 0 < p - 6 + 2 * e) by lra.
  assert (KR : kr2 r1 r2 r3 0 = 4 * e / (p - 6 + 2 * e)).
  { unfold kr2. rewrite V, G1, G2. field. repeat split; try lra. nra. }
  assert (SR : sr2 (1 - E^2) r1 r2 r3 0 = p * (p - 6 + 2 * e) / z).
  { unfold sr2. rewrite EE, V, G1, G2. field. repeat split; lra. }
  rewrite KR in Gk, Gur. rewrite SR in Gur.
  refine (conj _ (conj HP (conj Gk (conj UT (conj U1 (conj U2 (conj _ _))))))); [lra | | ].
  - rewrite Gur. assert (0 < ellK (4 * e / (p - 6 + 2 * e))) by (apply ellK_pos; lra). field. lra.
  - intros qt qr qth qph t r theta phi H l.
    destruct (C27_periodic HX HR 0 p e x ur uth uph gam Ha HF _ _ _ _ _ _ _ _ H) as (_ & _ & PE).
    destruct (PE l 1%Z) as (_ & PT). rewrite Rmult_1_l in PT. split; [exact PT|].
    pose proof (runs_as_unique _ _ _ _ _ _ _ _ _ H (trajectory_runs HX _ _ _ _ _ _ _ _ _ _ _ _ _ _ _ _ _ _ FA0 qt qr qth qph HF)) as Eq.
    destruct (Eq l) as (_ & _ & _ & ->). destruct (Eq (l + 2 * PI / uth)) as (_ & _ & _ & ->). unfold sph.
    assert (R0 : forall q, fpr 0 E L r1 r2 r3 0 q = 0) by (intros q; unfold fpr, phr, Rdiv; ring).
    rewrite !R0. replace (uth * (l + 2 * PI / uth) + qth) with (uth * l + qth + IZR 1 * (2 * PI)) by (field; lra).
    rewrite (fpt_periodic HX _ _ _ _ _ _ _ _ _ _ _ _ _ _ _ _ _ _ FA0).
    match goal with |- Rabs ?y = _ => replace y with (uph * (2 * PI / uth)) by ring end.
    destruct (Rtotal_order x 0) as [K|[K|K]]; [rewrite U2 by lra | contradiction | rewrite U1 by lra].
    + replace (- uth * (2 * PI / uth)) with (- (2 * PI)) by (field; lra). rewrite Rabs_Ropp. apply Rabs_pos_eq. lra.
    + replace (uth * (2 * PI / uth)) with (2 * PI) by (field; lra). apply Rabs_pos_eq. lra.
Qed.

(** concrete case: p = 10, e = 1/2, x = 1/2 *)
Example C70_case : exists ur uth uph gam,
  mino_frequencies (Some 0) (Some 10) (Some (1/2)) (Some (1/2)) = Ret (Some ur, Some uth, Some uph, Some gam) /\
  uph = uth /\ uth^2 = 400/27.
Proof.
  assert (CK : check_constants_params 0 10 (1/2) (1/2) = Ret tt).
  { apply accepts_schwarzschild; lra. }
  destruct (C54_every_accepted_orbit HX HR 0 10 (1/2) (1/2) ltac:(lra) ltac:(lra) ltac:(lra) CK) as (E & L & Q & HC & HE & _ & FR).
  { intros (K & _). lra. }
  destruct FR as (ur & uth & uph & gam & HF & _).
  { rewrite Rmult_0_l. apply Rgt_not_eq. pose proof (sqrt_pos (1 - 0^2)). apply Rmult_lt_0_compat; lra. }
  exists ur, uth, uph, gam. destruct (C70_schwarzschild_frequencies _ _ _ _ _ _ _ HF) as (_ & _ & _ & UT & UP & _).
  refine (conj HF (conj (UP ltac:(lra)) _)). rewrite UT.
  replace (10 - 3 - (1/2)^2) with (27/4) by field. assert (0 < sqrt (27/4)) by (apply sqrt_lt_R0; lra).
  replace ((10 / sqrt (27/4))^2) with (100 / sqrt (27/4)^2) by (field; lra). rewrite pow2_sqrt by lra. field.
Qed.
End S.
Print Assumptions C70_schwarzschild_frequencies.

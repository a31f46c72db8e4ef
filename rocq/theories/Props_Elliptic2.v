(** * C56: the incomplete integral of the third kind with characteristic n > 1 *)
From Coq Require Import Reals Lra Lia ZArith.
From Coquelicot Require Import Coquelicot.
From Verif Require Import Num Outcome External Checked ExternalSpec Model_Frequencies.
From Verif Require Import SpecElliptic Elliptic Carlson Carlson2 Props_Elliptic.
Open Scope R_scope.

Section C56.
Context {X : External R} (HX : special_spec X).
Lemma rj_principal_checked x y z p l : 0 <= x -> 0 < y -> 0 < z -> p < 0 -> carlson_RJ_principal x y z p l ->
  elliprj (Some x) (Some y) (Some z) (Some p) = Some l.
Proof.
  intros Hx Hy Hz Hp H. cbn [elliprj checked]. unfold guard, rf_dom.
  rewrite !Rleb_true, !Rltb_true by lra. rewrite Reqb_false by lra. cbn [andb negb].
  now rewrite (sp_elliprj_principal X HX x y z p l).
Qed.
Section NM.
Context (n m : R) (Hn : 1 < n) (Hm : m < 1).
Local Notation H := (ellPi_hyper n m).
Lemma integral_hyper d : 0 <= d <= PI / 2 -> n * sin d ^ 2 <> 1 -> exists rj,
  elliprj (Some (cos d ^ 2)) (Some (1 - m * sin d ^ 2)) (Some 1) (Some (1 - n * sin d ^ 2)) = Some rj /\
  sin d * carlson_RF (cos d ^ 2) (1 - m * sin d ^ 2) 1 + 1 / 3 * n * sin d ^ 3 * rj = H d.
Proof.
  intros Hd Hp. destruct (carlson_args d m Hd Hm) as [A1 A2].
  destruct (Req_dec d 0) as [->|N].
  - rewrite sin_0, cos_0 in *. eexists. split; [apply (rj_checked HX); lra|].
    unfold ellPi_hyper. rewrite ellF_0, ellPi_0, (Lg_0 n m). ring.
  - assert (D : 0 < d <= PI / 2) by lra. pose proof (s_pos d D) as S. set (s := sin d) in *.
    assert (E : forall G rj, s^3 * rj = 3 * G -> G = Gj n m d ->
      s * carlson_RF (cos d ^ 2) (1 - m * s^2) 1 + 1 / 3 * n * s^3 * rj = H d).
    { intros G rj E1 E2. pose proof (carlson_RF_legendre d D m Hm) as F. unfold s in *. rewrite F.
      replace (1 / 3 * n * sin d ^ 3 * rj) with (1 / 3 * n * (sin d ^ 3 * rj)) by ring. rewrite E1, E2.
      unfold Gj, ellPi_hyper. field. lra. }
    destruct (Rlt_dec (n * s^2) 1) as [C|C].
    + eexists. split; [apply (rj_checked HX); lra|]. apply (E (Gj n m d)); [|reflexivity].
      exact (RJ_hyper_regular n m Hn Hm d D C).
    + assert (C' : 1 < n * s^2) by lra. eexists. split.
      * apply rj_principal_checked; try lra. exact (RJ_hyper_principal n m Hn Hm d D C').
      * apply (E (Gj n m d)); [|reflexivity]. fold s. field. lra.
Qed.
Lemma ellippi_hyper_run : ellippi (Some n) (Some m) = Some (H (PI / 2)).
Proof.
  destruct (integral_hyper (PI / 2) half_pi) as (rj & R1 & R2).
  { rewrite sin_PI2. lra. }
  rewrite sin_PI2, cos_PI2 in *. replace (0^2) with 0 in * by ring.
  replace (1 - m * 1^2) with (1 - m) in * by ring. replace (1 - n * 1^2) with (1 - n) in * by ring.
  unfold ellippi. cnum. rewrite cdiv_some by lra. rewrite R1, (rf_checked HX) by lra.
  f_equal. rewrite <- R2. ring.
Qed.
Lemma hyper_even k d : H (IZR (2 * k) * (PI / 2) + d) = IZR (2 * k) * H (PI / 2) + H d.
Proof.
  pose proof (mn_lt n m Hn Hm) as Q. unfold ellPi_hyper. rewrite !ellF_prim, !ellPi_prim.
  rewrite !prim_even by (auto using hP_ev, hP_per, hF_ev, hF_per, hF_cont, hP_cont).
  rewrite Lg_half. replace (IZR (2 * k) * (PI / 2) + d) with (d + IZR k * PI) by (rewrite mult_IZR; field). rewrite Lg_per_Z. ring.
Qed.
Lemma hyper_odd k d : H (IZR (2 * k + 1) * (PI / 2) + (PI / 2 - d)) = (IZR (2 * k + 1) + 1) * H (PI / 2) - H d.
Proof.
  pose proof (mn_lt n m Hn Hm) as Q. unfold ellPi_hyper. rewrite !ellF_prim, !ellPi_prim.
  rewrite !prim_odd_quadrant by (auto using hP_ev, hP_per, hF_ev, hF_per, hF_cont, hP_cont).
  rewrite Lg_half. replace (IZR (2 * k + 1) * (PI / 2) + (PI / 2 - d)) with (- d + IZR (k + 1) * PI) by (rewrite !plus_IZR, mult_IZR; field).
  rewrite Lg_per_Z, Lg_odd. replace (PI / 2 - (PI / 2 - d)) with d by ring. ring.
Qed.
Lemma ellippiinc_hyper_run phi : n * sin phi ^ 2 <> 1 -> ellippiinc (Some phi) (Some n) (Some m) = Some (H phi).
Proof.
  intros Hp. pose proof PI_RGT_0 as HP.
  destruct (quadrant phi) as (k & d & Hd & Hq & Ha).
  assert (S2 : sin d ^ 2 = sin phi ^ 2).
  { rewrite <- Ha. pose proof (SIN_bound phi). unfold Rabs. destruct (Rcase_abs _); rewrite ?sin_neg, sin_asin by lra; ring. }
  destruct (carlson_args d m Hd Hm) as [A1 A2]. destruct (integral_hyper d Hd) as (rj & R1 & R2); [now rewrite S2|].
  unfold ellippiinc, nmod. rewrite prologue, ellippi_hyper_run. cnum. rewrite Ha.
  rewrite !cdiv_some by lra. rewrite (rf_checked HX) by (assumption || lra). rewrite R1. rewrite R2. rewrite ?cdiv_some by lra.
  destruct Hq as [[Q1 Q2]|[Q1 Q2]]; rewrite Q1.
  - rewrite mod2_even, Reqb_true by reflexivity. cbn [nif]. f_equal. rewrite Q2. symmetry. apply hyper_even.
  - rewrite mod2_odd, Reqb_false by lra. cbn [nif]. f_equal. rewrite Q2. symmetry. apply hyper_odd.
Qed.
Lemma hyper_jump phi : n * sin phi ^ 2 = 1 -> filterlim (fun e => H (phi + e) - H (phi - e)) (at_right 0) (locally 0).
Proof.
  intros Hp. pose proof (mn_lt n m Hn Hm) as Q. pose proof (Ph_pos n m Hn Hm) as PP.
  pose proof (gprod n m Hn Hm phi) as G. rewrite Hp in G. replace ((1 - 1) * (1 - m / n * sin phi ^ 2)) with 0 in G by ring.
  pose proof (wronski n m Hm phi) as W. pose proof (m4 m Hm phi) as M4. pose proof (sqrt_dl_pos m phi Hm) as DP.
  assert (W0 : 0 < 2 * Ph n m * (1 - m * sin phi ^ 4) / sqrt (dl m phi)).
  { apply Rdiv_lt_0_compat; [|assumption]. repeat apply Rmult_lt_0_compat; lra. }
  rewrite <- W in W0. clear W.
  pose proof (gpl_der n m Hm phi) as D1. pose proof (gmi_der n m Hm phi) as D2.
  set (f0 := fun t => ellPi (m / n) t m - ellF t m).
  assert (C0 : forall (g g' : R -> R) (k : R), is_derive g phi (g' phi) -> g phi <> 0 ->
    filterlim (fun e => (f0 (phi - e) + k * ln (g (phi - e) ^ 2)) - (f0 (phi + e) + k * ln (g (phi + e) ^ 2))) (at_right 0) (locally 0)).
  { intros g g' k D N. apply (cont_sym (fun t => f0 t + k * ln (g t ^ 2))). apply (ex_derive_continuous (V := R_NormedModule)).
    unfold f0. pose proof (ellPi_derive (m / n) m phi Q Hm) as P1. pose proof (ellF_derive m phi Hm) as P2.
    auto_derive. repeat split; try (now eexists; eassumption). rewrite Rmult_1_r. change (0 < Rsqr (g phi)). now apply Rsqr_pos_lt. }
  set (k := / (4 * Ph n m)).
  assert (S : forall z : R -> R, filterlim z (at_right 0) (locally 0) -> forall c, filterlim (fun e => c * z e) (at_right 0) (locally 0)).
  { intros z Hz c. apply (lim_eq _ _ (c * 0)); [ring|].
    apply (filterlim_comp _ _ _ z (fun x => c * x) _ (locally 0) _ Hz).
    apply (ex_derive_continuous (V := R_NormedModule) (fun x => c * x) 0). now auto_derive. }
  apply Rmult_integral in G as [G|G].
  - assert (N : gmi n m phi <> 0 /\ gpl' n m phi <> 0) by (rewrite G in W0; split; intros K; rewrite K in W0; lra).
    apply (lim_eq _ _ (0 + 0)); [ring|].
    apply (filterlim_ext (fun e => ((f0 (phi - e) + k * ln (gmi n m (phi - e) ^ 2)) - (f0 (phi + e) + k * ln (gmi n m (phi + e) ^ 2)))
      + (- k) * (ln (gpl n m (phi - e) ^ 2) - ln (gpl n m (phi + e) ^ 2)))).
    { intros e. unfold ellPi_hyper, Lg, f0, k. ring. }
    apply (lim_plus _ _ (at_right 0)).
    + apply (C0 (gmi n m) (gmi' n m) k D2). tauto.
    + apply S. apply (zero_ratio (gpl n m) phi (gpl' n m phi) G D1). tauto.
  - assert (N : gpl n m phi <> 0 /\ gmi' n m phi <> 0) by (rewrite G in W0; split; intros K; rewrite K in W0; lra).
    apply (lim_eq _ _ (0 + 0)); [ring|].
    apply (filterlim_ext (fun e => ((f0 (phi - e) + (- k) * ln (gpl n m (phi - e) ^ 2)) - (f0 (phi + e) + (- k) * ln (gpl n m (phi + e) ^ 2)))
      + k * (ln (gmi n m (phi - e) ^ 2) - ln (gmi n m (phi + e) ^ 2)))).
    { intros e. unfold ellPi_hyper, Lg, f0, k. ring. }
    apply (lim_plus _ _ (at_right 0)).
    + apply (C0 (gpl n m) (gpl' n m) (- k) D1). tauto.
    + apply S. apply (zero_ratio (gmi n m) phi (gmi' n m phi) G D2). tauto.
Qed.
(** For n > 1 the code returns the Cauchy principal value of the integral from 0: the value at 0
    is 0, the derivative is the integrand away from the poles n sin^2 = 1, and across a pole the
    one-sided values differ by o(1) (these three facts determine the function). *)
Theorem C56_ellippiinc_principal_value : exists H : R -> R,
  (forall phi, n * sin phi ^ 2 <> 1 ->
     ellippiinc (Some phi) (Some n) (Some m) = Some (H phi) /\
     is_derive H phi (1 / ((1 - n * sin phi ^ 2) * sqrt (1 - m * sin phi ^ 2)))) /\
  H 0 = 0 /\
  (forall phi, n * sin phi ^ 2 = 1 -> filterlim (fun e => H (phi + e) - H (phi - e)) (at_right 0) (locally 0)) /\
  ellippi (Some n) (Some m) = Some (H (PI / 2)).
Proof.
  exists H. split; [|split; [|split; [exact hyper_jump | exact ellippi_hyper_run]]].
  - intros phi Hp. split; [now apply ellippiinc_hyper_run|].
    evar_last; [now apply ellPi_hyper_derive|]. unfold hP, dl. unfold Rdiv. now rewrite Rmult_1_l.
  - unfold ellPi_hyper. rewrite ellF_0, ellPi_0, Lg_0. ring.
Qed.
End NM.
End C56.
(** non-vacuous: n = 2, m = 1/2, an amplitude past the pole at pi/4 *)
Example C56_case (X : External R) : special_spec X -> exists v, ellippiinc (Some (PI / 3)) (Some 2) (Some (1/2)) = Some v.
Proof.
  intros HX. eexists. apply (ellippiinc_hyper_run HX 2 (1/2)); try lra.
  rewrite sin_PI3. replace (2 * (sqrt 3 / 2)^2) with (sqrt 3 ^ 2 / 2) by field. rewrite pow2_sqrt; lra.
Qed.
Print Assumptions C56_ellippiinc_principal_value.

(** * The incomplete elliptic integrals of frequencies.py (C31) *)
From Coq Require Import Reals Lra Lia ZArith ClassicalEpsilon.
From Coquelicot Require Import Coquelicot.
From Verif Require Import Num Outcome External Checked ExternalSpec Model_Frequencies.
From Verif Require Import SpecElliptic Elliptic Carlson Carlson2.
Open Scope R_scope.

(** ** the specification of the special functions is satisfiable *)
Definition legendre_external (X : External R) : External R := {|
  ellipk m := ellK m;
  ellipe m := ellE (PI / 2) m;
  ellipkinc phi m := ellF phi m;
  ellipeinc phi m := ellE phi m;
  ellipj u m := let ph := epsilon (inhabits 0) (fun ph => ellF ph m = u) in
                (sin ph, cos ph, sqrt (1 - m * sin ph ^ 2), ph);
  elliprf := carlson_RF;
  elliprd := carlson_RD;
  elliprj x y z p := if Rlt_dec p 0 then epsilon (inhabits 0) (carlson_RJ_principal x y z p) else carlson_RJ x y z p;
  root_scalar := @root_scalar R X;
  polyroots := @polyroots R X |}.
Lemma special_spec_satisfiable X : special_spec (legendre_external X).
Proof.
  constructor; try reflexivity.
  2: { intros x y z p Hx Hy Hz Hp. cbn [elliprj legendre_external]. destruct (Rlt_dec p 0); [lra | reflexivity]. }
  2: { intros x y z p l Hx Hy Hz Hp H. cbn [elliprj legendre_external]. destruct (Rlt_dec p 0); [|lra].
       eapply principal_unique; [|exact H]. apply (epsilon_spec (inhabits 0) (carlson_RJ_principal x y z p)). now exists l. }
  intros u m [H0 H1].
  exists (epsilon (inhabits 0) (fun ph => ellF ph m = u)). split; [|reflexivity].
  apply (epsilon_spec (inhabits 0) (fun ph => ellF ph m = u)). now apply ellF_surj.
Qed.
Theorem all_specs_satisfiable : exists X : External R, special_spec X /\ root_spec X /\ polyroots_spec X.
Proof.
  assert (X0 : External R).
  { constructor; try (intros; exact 0).
    - intros; exact (0, 0, 0, 0). - intros; exact (Raise KeyError). - intros; exact nil. }
  exists (with_choice (legendre_external X0)). split; [|split].
  - destruct (special_spec_satisfiable X0). constructor; assumption.
  - apply root_spec_satisfiable.
  - apply polyroots_spec_satisfiable.
Qed.

(** ** quadrant reduction *)
Lemma sin2_shift_Z x k : sin (x + IZR k * PI) ^ 2 = sin x ^ 2.
Proof.
  assert (N : forall n x, sin (x + INR n * PI) ^ 2 = sin x ^ 2).
  { induction n as [|n IH]; intros y.
    - simpl INR. now replace (y + 0 * PI) with y by ring.
    - rewrite S_INR. replace (y + (INR n + 1) * PI) with ((y + INR n * PI) + PI) by ring.
      rewrite neg_sin. rewrite <- (IH y). ring. }
  destruct (Z.le_gt_cases 0 k) as [K|K].
  - rewrite <- (Z2Nat.id k K), <- INR_IZR_INZ. apply N.
  - rewrite <- (N (Z.to_nat (- k)) (x + IZR k * PI)). f_equal. f_equal.
    rewrite INR_IZR_INZ, Z2Nat.id by lia. rewrite opp_IZR. ring.
Qed.
Lemma abs_asin_sin phi d : 0 <= d <= PI / 2 -> sin phi ^ 2 = sin d ^ 2 -> Rabs (asin (sin phi)) = d.
Proof.
  intros Hd H. pose proof PI_RGT_0.
  assert (0 <= sin d) by (apply sin_ge_0; lra).
  destruct (Rle_dec 0 (sin phi)) as [P|P].
  - assert (E : sin phi = sin d).
    { rewrite <- (sqrt_pow2 (sin phi)), <- (sqrt_pow2 (sin d)) by assumption. now rewrite H. }
    rewrite E, asin_sin by lra. apply Rabs_pos_eq. lra.
  - assert (E : sin phi = sin (- d)).
    { rewrite sin_neg. cut (- sin phi = sin d); [lra|].
      rewrite <- (sqrt_pow2 (- sin phi)), <- (sqrt_pow2 (sin d)) by lra.
      f_equal. rewrite <- H. ring. }
    rewrite E, asin_sin by lra. rewrite Rabs_Ropp. apply Rabs_pos_eq. lra.
Qed.
Lemma floor_unique x k : IZR k <= x < IZR k + 1 -> Rfloor x = IZR k.
Proof.
  intros H. unfold Rfloor, Int_part. f_equal.
  rewrite <- (tech_up x (k + 1)); [lia | rewrite plus_IZR; lra | rewrite plus_IZR; lra].
Qed.
Lemma mod2_even k : IZR (2 * k) - 2 * Rfloor (IZR (2 * k) / 2) = 0.
Proof. rewrite (floor_unique _ k); rewrite mult_IZR; lra. Qed.
Lemma mod2_odd k : IZR (2 * k + 1) - 2 * Rfloor (IZR (2 * k + 1) / 2) = 1.
Proof. rewrite (floor_unique _ k); rewrite plus_IZR, mult_IZR; lra. Qed.
(** every real is N quarter turns plus a remainder; the code's |arcsin(sin phi)| is the
    remainder in even quadrants and its complement in odd ones *)
Lemma quadrant phi : exists k d, 0 <= d <= PI / 2 /\
  (Rfloor (phi / (PI / 2)) = IZR (2 * k) /\ phi = IZR (2 * k) * (PI / 2) + d
   \/ Rfloor (phi / (PI / 2)) = IZR (2 * k + 1) /\ phi = IZR (2 * k + 1) * (PI / 2) + (PI / 2 - d)) /\
  Rabs (asin (sin phi)) = d.
Proof.
  pose proof PI_RGT_0 as HP. unfold Rfloor.
  pose proof (base_Int_part (phi / (PI / 2))) as [H1 H2].
  set (N := Int_part (phi / (PI / 2))) in *.
  assert (E : phi = IZR N * (PI / 2) + (phi / (PI / 2) - IZR N) * (PI / 2)) by (field; lra).
  set (f := phi / (PI / 2) - IZR N) in *.
  assert (F0 : 0 <= f < 1) by (unfold f; lra). clearbody f.
  assert (F : 0 <= f * (PI / 2) <= PI / 2).
  { split; [apply Rmult_le_pos; lra|]. rewrite <- (Rmult_1_l (PI / 2)) at 2. apply Rmult_le_compat_r; lra. }
  destruct (Z.Even_or_Odd N) as [[k K]|[k K]].
  - exists k, (f * (PI / 2)). split; [assumption|]. split; [left; rewrite <- K; now split|].
    apply abs_asin_sin; [assumption|].
    rewrite E, K, mult_IZR.
    replace (2 * IZR k * (PI / 2) + f * (PI / 2)) with (f * (PI / 2) + IZR k * PI) by field.
    apply sin2_shift_Z.
  - exists k, (PI / 2 - f * (PI / 2)). split; [lra|]. split.
    { right. rewrite <- K. split; [reflexivity|]. rewrite E at 1. ring. }
    apply abs_asin_sin; [lra|].
    rewrite E, K, plus_IZR, mult_IZR.
    replace ((2 * IZR k + 1) * (PI / 2) + f * (PI / 2)) with (- (PI / 2 - f * (PI / 2)) + IZR (k + 1) * PI)
      by (rewrite plus_IZR; field).
    rewrite sin2_shift_Z, sin_neg. ring.
Qed.

Section C31.
Context {X : External R} (HX : special_spec X).

Lemma carlson_args d m : 0 <= d <= PI / 2 -> m < 1 ->
  0 <= cos d ^ 2 /\ 0 < 1 - m * sin d ^ 2.
Proof.
  intros Hd Hm. split; [apply pow2_ge_0|]. exact (dl_pos m d Hm).
Qed.
Lemma rf_checked x y z : 0 <= x -> 0 < y -> 0 < z ->
  elliprf (Some x) (Some y) (Some z) = Some (carlson_RF x y z).
Proof.
  intros. cbn [elliprf checked]. unfold guard, rf_dom.
  rewrite !Rleb_true, !Rltb_true by lra. cbn [andb]. now rewrite (sp_elliprf X HX) by assumption.
Qed.
Lemma rd_checked x y z : 0 <= x -> 0 < y -> 0 < z ->
  elliprd (Some x) (Some y) (Some z) = Some (carlson_RD x y z).
Proof.
  intros. cbn [elliprd checked]. unfold guard.
  rewrite !Rleb_true, !Rltb_true by lra. cbn [andb]. now rewrite (sp_elliprd X HX) by assumption.
Qed.
Lemma rj_checked x y z p : 0 <= x -> 0 < y -> 0 < z -> 0 < p ->
  elliprj (Some x) (Some y) (Some z) (Some p) = Some (carlson_RJ x y z p).
Proof.
  intros. cbn [elliprj checked]. unfold guard, rf_dom.
  rewrite !Rleb_true, !Rltb_true by lra. rewrite Reqb_false by lra. cbn [andb negb].
  now rewrite (sp_elliprj X HX) by assumption.
Qed.
Lemma ellipk_checked m : m < 1 -> ellipk (Some m) = Some (ellK m).
Proof. intros. cbn [ellipk checked]. unfold guard. rewrite Rltb_true by assumption. now rewrite (sp_ellipk X HX). Qed.
Lemma ellipe_checked m : m < 1 -> ellipe (Some m) = Some (ellE (PI / 2) m).
Proof. intros. cbn [ellipe checked]. unfold guard. rewrite Rleb_true by lra. now rewrite (sp_ellipe X HX). Qed.
Lemma ellipkinc_checked p m : m < 1 -> ellipkinc (Some p) (Some m) = Some (ellF p m).
Proof. intros. cbn [ellipkinc checked]. unfold guard. rewrite Rltb_true by assumption. cbn [orb]. now rewrite (sp_ellipkinc X HX). Qed.

(** first-quadrant values of the two "integral" expressions of the code *)
Lemma integral_E d m : 0 <= d <= PI / 2 -> m < 1 ->
  sin d * carlson_RF (cos d ^ 2) (1 - m * sin d ^ 2) 1
  - 1 / 3 * m * sin d ^ 3 * carlson_RD (cos d ^ 2) (1 - m * sin d ^ 2) 1 = ellE d m.
Proof.
  intros Hd Hm. destruct (Req_dec d 0) as [->|N].
  - rewrite sin_0, ellE_0. ring.
  - assert (D : 0 < d <= PI / 2) by lra.
    rewrite (carlson_RF_legendre d D m Hm), (prim_hJ_E m d Hm).
    pose proof (carlson_RD_prim d D m Hm) as K.
    transitivity (ellF d m - 1 / 3 * m * (sin d ^ 3 * carlson_RD (cos d ^ 2) (1 - m * sin d ^ 2) 1)); [ring|].
    rewrite K. field.
Qed.
Lemma integral_Pi d n m : 0 <= d <= PI / 2 -> n < 1 -> m < 1 ->
  sin d * carlson_RF (cos d ^ 2) (1 - m * sin d ^ 2) 1
  + 1 / 3 * n * sin d ^ 3 * carlson_RJ (cos d ^ 2) (1 - m * sin d ^ 2) 1 (1 - n * sin d ^ 2) = ellPi n d m.
Proof.
  intros Hd Hn Hm. destruct (Req_dec d 0) as [->|N].
  - rewrite sin_0, ellPi_0. ring.
  - assert (D : 0 < d <= PI / 2) by lra.
    rewrite (carlson_RF_legendre d D m Hm), (prim_hJ_Pi n m d Hn Hm).
    pose proof (carlson_RJ_prim d D n m Hn Hm) as K.
    transitivity (ellF d m + 1 / 3 * n * (sin d ^ 3 * carlson_RJ (cos d ^ 2) (1 - m * sin d ^ 2) 1 (1 - n * sin d ^ 2))); [ring|].
    rewrite K. field.
Qed.
Lemma half_pi : 0 <= PI / 2 <= PI / 2. Proof. pose proof PI_RGT_0. lra. Qed.

Theorem C31_ellippi n m : n < 1 -> m < 1 ->
  ellippi (Some n) (Some m) = Some (ellPi n (PI / 2) m).
Proof.
  intros Hn Hm. unfold ellippi. cnum. rewrite cdiv_some by lra.
  rewrite rf_checked, rj_checked by lra. rewrite <- (integral_Pi (PI / 2) n m half_pi Hn Hm).
  rewrite sin_PI2, cos_PI2. f_equal.
  replace (0 ^ 2) with 0 by ring. replace (1 - m * 1 ^ 2) with (1 - m) by ring.
  replace (1 - n * 1 ^ 2) with (1 - n) by ring. field.
Qed.

Lemma sin_bounds x : -1 <= sin x <= 1. Proof. apply SIN_bound. Qed.
Lemma prologue phi : nasin (nsin (Some phi)) = Some (asin (sin phi)).
Proof.
  cnum. unfold cunit. pose proof (sin_bounds phi).
  destruct (Rle_dec (-1) (sin phi)); [|lra]. destruct (Rle_dec (sin phi) 1); [reflexivity | lra].
Qed.

Theorem C31_ellipeinc phi m : m < 1 -> ellipeinc_ (Some phi) (Some m) = Some (ellE phi m).
Proof.
  intros Hm. pose proof PI_RGT_0 as HP.
  destruct (quadrant phi) as (k & d & Hd & Hq & Ha).
  destruct (carlson_args d m Hd Hm) as [A1 A2].
  unfold ellipeinc_, nmod. rewrite prologue. cnum. rewrite Ha.
  rewrite !cdiv_some by lra. rewrite rf_checked, rd_checked by (assumption || lra).
  rewrite ellipe_checked by assumption. rewrite integral_E by assumption.
  rewrite ?cdiv_some by lra.
  pose proof (fun x => hE_cont m x Hm) as Hc.
  destruct Hq as [[Q1 Q2]|[Q1 Q2]]; rewrite Q1.
  - rewrite mod2_even, Reqb_true by reflexivity. cbn [nif]. f_equal.
    rewrite Q2. rewrite !ellE_prim. symmetry. apply prim_even; auto using hE_ev, hE_per.
  - rewrite mod2_odd, Reqb_false by lra. cbn [nif]. f_equal.
    rewrite Q2. rewrite !ellE_prim. symmetry.
    rewrite prim_odd_quadrant; auto using hE_ev, hE_per.
    now replace (PI / 2 - (PI / 2 - d)) with d by ring.
Qed.

Theorem C31_ellippiinc phi n m : n < 1 -> m < 1 ->
  ellippiinc (Some phi) (Some n) (Some m) = Some (ellPi n phi m).
Proof.
  intros Hn Hm. pose proof PI_RGT_0 as HP.
  destruct (quadrant phi) as (k & d & Hd & Hq & Ha).
  destruct (carlson_args d m Hd Hm) as [A1 A2]. destruct (carlson_args d n Hd Hn) as [_ A3].
  unfold ellippiinc, nmod. rewrite prologue, C31_ellippi by assumption. cnum. rewrite Ha.
  rewrite !cdiv_some by lra. rewrite rf_checked, rj_checked by (assumption || lra).
  rewrite integral_Pi by assumption. rewrite ?cdiv_some by lra.
  pose proof (fun x => hP_cont n m x Hn Hm) as Hc.
  destruct Hq as [[Q1 Q2]|[Q1 Q2]]; rewrite Q1.
  - rewrite mod2_even, Reqb_true by reflexivity. cbn [nif]. f_equal.
    rewrite Q2. rewrite !ellPi_prim. symmetry. apply prim_even; auto using hP_ev, hP_per.
  - rewrite mod2_odd, Reqb_false by lra. cbn [nif]. f_equal.
    rewrite Q2. rewrite !ellPi_prim. symmetry.
    rewrite prim_odd_quadrant; auto using hP_ev, hP_per.
    now replace (PI / 2 - (PI / 2 - d)) with d by ring.
Qed.
End C31.

(** concrete: the complete integral at m = 0, and one full turn past it *)
Example C31_case (X : External R) : special_spec X ->
  ellipeinc_ (Some (3 * PI)) (Some 0) = Some (3 * PI).
Proof.
  intros HX. rewrite (C31_ellipeinc HX) by lra. f_equal. unfold ellE.
  rewrite (RInt_ext _ (fun _ => 1)).
  - rewrite RInt_const. unfold scal; simpl; unfold mult; simpl. ring.
  - intros x _. replace (1 - 0 * sin x ^ 2) with 1 by ring. apply sqrt_1.
Qed.

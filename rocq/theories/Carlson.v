(** * Carlson's integrals and the Legendre integrals (DLMF 19.25(i)) *)
From Coq Require Import Reals Lra Lia ZArith.
From Coquelicot Require Import Coquelicot.
From Verif Require Import SpecElliptic Elliptic.
Open Scope R_scope.

Section Sub.
Context (phi : R) (Hphi : 0 < phi <= PI / 2).
Let s := sin phi.
Let c := cos phi.
Lemma s_pos : 0 < s.
Proof. apply sin_gt_0; pose proof PI_RGT_0; lra. Qed.
Lemma c_pos : 0 <= c.
Proof. apply cos_ge_0; pose proof PI_RGT_0; lra. Qed.
Lemma sc1 : s^2 + c^2 = 1.
Proof. unfold s, c. pose proof (sin2_cos2 phi). unfold Rsqr in *. lra. Qed.

(** the substitution t + 1 = sin^2 phi / sin^2 theta *)
Definition theta (t : R) : R := PI / 2 - atan (sqrt (t + c^2) / s).
Lemma theta_0 : theta 0 = phi.
Proof.
  unfold theta. rewrite Rplus_0_l, sqrt_pow2 by apply c_pos.
  replace (c / s) with (tan (PI / 2 - phi)).
  - rewrite atan_tan; lra.
  - unfold tan. rewrite sin_shift, cos_shift. reflexivity.
Qed.
Lemma theta_sin2 t : 0 <= t -> sin (theta t) ^ 2 = s^2 / (t + 1).
Proof.
  intros Ht. unfold theta. rewrite sin_shift, cos_atan.
  pose proof s_pos. pose proof sc1. pose proof (pow2_ge_0 c).
  set (v := sqrt (t + c^2) / s).
  assert (V2 : v² = (t + c^2) / s^2).
  { unfold v, Rsqr. transitivity (sqrt (t + c^2) * sqrt (t + c^2) / s^2); [field; lra|].
    rewrite sqrt_sqrt by lra. reflexivity. }
  assert (0 < 1 + v²). { pose proof (Rle_0_sqr v). lra. }
  assert (S2 : sqrt (1 + v²) ^ 2 = 1 + v²) by (apply pow2_sqrt; lra).
  assert (0 < sqrt (1 + v²)) by (apply sqrt_lt_R0; assumption).
  transitivity (/ (sqrt (1 + v²) ^ 2)); [field; lra|]. rewrite S2, V2.
  replace (1 + (t + c^2) / s^2) with ((t + 1) / s^2).
  - field. split; lra.
  - apply (Rmult_eq_reg_r (s^2)); [|apply pow_nonzero; lra].
    transitivity (t + 1); [field; lra|]. transitivity (s^2 + (t + c^2)); [lra | field; lra].
Qed.
Lemma theta_derive t : 0 < t -> is_derive theta t (- (s / (2 * (t + 1) * sqrt (t + c^2)))).
Proof.
  intros Ht. pose proof s_pos. pose proof sc1. pose proof (pow2_ge_0 c).
  assert (0 < sqrt (t + c^2)) by (apply sqrt_lt_R0; lra).
  assert (Q : sqrt (t + c^2) ^ 2 = t + c^2) by (apply pow2_sqrt; lra).
  unfold theta. auto_derive.
  - replace (t + c * (c * 1)) with (t + c^2) by ring. lra.
  - replace (t + c * (c * 1)) with (t + c^2) by ring. set (q := sqrt (t + c^2)) in *.
    assert (q * q + s * s = t + 1) by (simpl in *; lra).
    replace (t + 1) with (q^2 + s^2) by lra.
    assert (0 < q^2) by (apply pow_lt; lra). assert (0 < s^2) by (apply pow_lt; lra).
    field. repeat split; lra.
Qed.
Lemma theta_lim_0 : filterlim theta (at_right 0) (locally phi).
Proof.
  rewrite <- theta_0. apply (filterlim_filter_le_1 (F := locally 0)).
  { intros P [d Hd]. exists d. intros y Hy _. now apply Hd. }
  assert (K : continuous theta 0); [|exact K].
  unfold theta. apply (continuous_minus (V := R_NormedModule)); [apply continuous_const|].
  apply continuous_comp; [|apply continuous_atan].
  unfold Rdiv. apply (continuous_mult (K := R_AbsRing)); [|apply continuous_const].
  apply (continuous_comp (fun t => t + c^2) sqrt).
  - apply (continuous_plus (V := R_NormedModule)); [apply continuous_id | apply continuous_const].
  - apply continuous_sqrt.
Qed.
Lemma theta_lim_oo : filterlim theta (Rbar_locally p_infty) (locally 0).
Proof.
  pose proof s_pos. pose proof (pow2_ge_0 c).
  apply (filterlim_ext_loc (fun t => atan (s / sqrt (t + c^2)))).
  { exists 0. intros t Ht. unfold theta. assert (0 < sqrt (t + c^2)) by (apply sqrt_lt_R0; lra).
    replace (s / sqrt (t + c^2)) with (/ (sqrt (t + c^2) / s)) by (field; lra).
    apply atan_inv. now apply Rdiv_lt_0_compat. }
  rewrite <- atan_0. apply (filterlim_comp _ _ _ _ atan _ (locally 0)); [|apply continuous_atan].
  intros P [d Hd].
  exists ((s / d)^2). intros t Ht. apply Hd. pose proof (cond_pos d) as Hd0.
  assert (0 < s / d) by (apply Rdiv_lt_0_compat; lra).
  assert (s / d < sqrt (t + c^2)).
  { rewrite <- (sqrt_pow2 (s / d)) by lra. apply sqrt_lt_1; try apply pow2_ge_0; try lra.
    pose proof (pow2_ge_0 (s / d)). lra. }
  change (Rabs (s / sqrt (t + c^2) - 0) < d). rewrite Rminus_0_r, Rabs_pos_eq.
  - apply Rlt_div_l; [lra|]. apply Rlt_div_l in H2; lra.
  - apply Rlt_le, Rdiv_lt_0_compat; lra.
Qed.

Context (h : R -> R) (Hc : forall x, continuous h x).
Lemma substitution f : (forall t, 0 < t -> f t = h (theta t) * (s / (2 * (t + 1) * sqrt (t + c^2)))) ->
  is_RInt_gen f (at_right 0) (Rbar_locally p_infty) (prim h phi).
Proof.
  intros Hf. pose proof s_pos. pose proof (pow2_ge_0 c).
  set (D := fun t => - prim h (theta t)).
  assert (HD : forall t, 0 < t -> is_derive D t (f t)).
  { intros t Ht. rewrite Hf by assumption.
    replace (h (theta t) * (s / (2 * (t + 1) * sqrt (t + c^2))))
      with (- (- (s / (2 * (t + 1) * sqrt (t + c^2))) * h (theta t))) by ring.
    apply (is_derive_opp (fun t => prim h (theta t))).
    apply (is_derive_comp (prim h) theta); [now apply prim_derive | now apply theta_derive]. }
  assert (Hf_cont : forall t, 0 < t -> continuous f t).
  { intros t Ht. apply (continuous_ext_loc (T := R_UniformSpace) (U := R_UniformSpace) f (fun t => h (theta t) * (s / (2 * (t + 1) * sqrt (t + c^2)))) t).
    - exists (mkposreal _ Ht). intros y Hy. symmetry. apply Hf.
      unfold ball in Hy; simpl in Hy; unfold AbsRing_ball, abs, minus, plus, opp in Hy; simpl in Hy.
      apply Rabs_def2 in Hy. lra.
    - apply (continuous_mult (K := R_AbsRing)).
      + apply continuous_comp; [|apply Hc]. apply (ex_derive_continuous (V := R_NormedModule)). eexists. now apply theta_derive.
      + apply (ex_derive_continuous (V := R_NormedModule)). auto_derive.
        assert (0 < sqrt (t + c * (c * 1))) by (apply sqrt_lt_R0; simpl in *; lra).
        repeat split; try (simpl in *; lra).
        apply Rgt_not_eq. repeat apply Rmult_lt_0_compat; lra. }
  assert (Pos : filter_prod (at_right 0) (Rbar_locally p_infty) (fun ab => 0 < fst ab /\ 0 < snd ab)).
  { apply (Filter_prod _ _ _ (fun x => 0 < x) (fun x => 0 < x)).
    - exists (mkposreal 1 Rlt_0_1). auto.
    - exists 0. auto.
    - auto. }
  assert (Der : forall t, 0 < t -> locally t (fun y => Derive D y = f y)).
  { intros t Ht. exists (mkposreal _ Ht). intros y Hy.
    unfold ball in Hy; simpl in Hy; unfold AbsRing_ball, abs, minus, plus, opp in Hy; simpl in Hy.
    apply Rabs_def2 in Hy. apply is_derive_unique, HD. lra. }
  apply (is_RInt_gen_ext (Derive D)).
  { eapply filter_imp; [|exact Pos]. intros [x y] [Hx Hy] z [Hz _]. simpl in *.
    apply is_derive_unique, HD. apply Rlt_trans with (2 := Hz). apply Rmin_glb_lt; assumption. }
  replace (prim h phi) with (0 - - prim h phi) by ring.
  apply (is_RInt_gen_Derive D).
  - eapply filter_imp; [|exact Pos]. intros [x y] [Hx Hy] z [Hz _]. simpl in *.
    eexists. apply HD. apply Rlt_le_trans with (2 := Hz). apply Rmin_glb_lt; assumption.
  - eapply filter_imp; [|exact Pos]. intros [x y] [Hx Hy] z [Hz _]. simpl in *.
    assert (0 < z) by (apply Rlt_le_trans with (2 := Hz); apply Rmin_glb_lt; assumption).
    apply (continuous_ext_loc (T := R_UniformSpace) (U := R_UniformSpace) _ f z); [|now apply Hf_cont].
    eapply filter_imp; [|apply (Der z H1)]. intros w Hw. now symmetry.
  - unfold D. apply (filterlim_comp _ _ _ (fun t => prim h (theta t)) Ropp _ (locally (prim h phi))).
    + apply (filterlim_comp _ _ _ theta (prim h) _ (locally phi)); [apply theta_lim_0|].
      apply (ex_derive_continuous (V := R_NormedModule)). eexists. now apply prim_derive.
    + apply (filterlim_opp (V := R_NormedModule)).
  - unfold D. replace 0 with (- prim h 0) by (rewrite prim_0; ring).
    apply (filterlim_comp _ _ _ (fun t => prim h (theta t)) Ropp _ (locally (prim h 0))).
    + apply (filterlim_comp _ _ _ theta (prim h) _ (locally 0)); [apply theta_lim_oo|].
      apply (ex_derive_continuous (V := R_NormedModule)). eexists. now apply prim_derive.
    + apply (filterlim_opp (V := R_NormedModule)).
Qed.
Lemma substitution_int f k : (forall t, 0 < t -> f t = k * (h (theta t) * (s / (2 * (t + 1) * sqrt (t + c^2))))) ->
  int_0_oo f = k * prim h phi.
Proof.
  intros Hf. unfold int_0_oo. apply is_RInt_gen_unique.
  pose proof (substitution _ (fun t _ => eq_refl)) as K.
  apply (is_RInt_gen_scal _ k) in K.
  eapply is_RInt_gen_ext; [|exact K].
  apply (Filter_prod _ _ _ (fun x => 0 < x) (fun x => 0 < x)).
  - exists (mkposreal 1 Rlt_0_1). auto.
  - exists 0. auto.
  - intros x y Hx Hy z [Hz _]. simpl in *. symmetry. apply Hf.
    apply Rlt_trans with (2 := Hz). apply Rmin_glb_lt; assumption.
Qed.
End Sub.

(** ** Carlson's forms of the first-quadrant Legendre integrals *)
Definition hJ (n m t : R) : R := sin t ^ 2 * hP n m t.
Lemma hJ_cont n m x : n < 1 -> m < 1 -> continuous (hJ n m) x.
Proof.
  intros Hn Hm. apply (continuous_mult (K := R_AbsRing)); [|now apply hP_cont].
  apply (ex_derive_continuous (V := R_NormedModule)). now auto_derive.
Qed.
Lemma prim_lin f g h k x : (forall t, continuous f t) -> (forall t, continuous g t) ->
  (forall t, continuous h t) -> (forall t, f t = g t + k * h t) -> prim f x = prim g x + k * prim h x.
Proof.
  intros Hf Hg Hh E.
  transitivity (prim g x + k * prim h x - (prim g 0 + k * prim h 0)).
  - symmetry. apply (derive_unique f Hf (fun y => prim g y + k * prim h y)).
    intros y. rewrite E. apply (is_derive_plus (V := R_NormedModule)); [now apply prim_derive|].
    apply (is_derive_scal (prim h)). now apply prim_derive.
  - rewrite !prim_0. ring.
Qed.
Lemma prim_hJ_Pi n m x : n < 1 -> m < 1 -> ellPi n x m = ellF x m + n * prim (hJ n m) x.
Proof.
  intros Hn Hm. rewrite ellPi_prim, ellF_prim. apply prim_lin; intros t.
  - now apply hP_cont. - now apply hF_cont. - now apply hJ_cont.
  - unfold hJ, hP, hF. pose proof (dl_pos n t Hn) as A. pose proof (sqrt_dl_pos m t Hm) as B.
    set (q := sqrt (dl m t)) in *. apply (Rmult_eq_reg_r (dl n t * q)).
    + transitivity 1; [field; lra|]. transitivity (dl n t + n * sin t ^ 2); [unfold dl; ring | field; lra].
    + apply Rgt_not_eq. now apply Rmult_lt_0_compat.
Qed.
Lemma prim_hJ_E m x : m < 1 -> ellE x m = ellF x m + (- m) * prim (hJ 0 m) x.
Proof.
  intros Hm. rewrite ellE_prim, ellF_prim. apply prim_lin; intros t.
  - now apply hE_cont. - now apply hF_cont. - apply hJ_cont; lra.
  - unfold hJ, hP, hF, hE. pose proof (sqrt_dl_pos m t Hm) as B.
    pose proof (pow2_sqrt (dl m t) (Rlt_le _ _ (dl_pos m t Hm))) as Q.
    replace (dl 0 t) with 1 by (unfold dl; ring).
    apply (Rmult_eq_reg_r (sqrt (dl m t))); [|lra].
    transitivity (1 - m * sin t ^ 2); [unfold dl in *; lra | field; lra].
Qed.

Section Legendre.
Context (phi : R) (Hphi : 0 < phi <= PI / 2).
Let s := sin phi.
Let c := cos phi.
Local Lemma sp : 0 < s. Proof. exact (s_pos phi Hphi). Qed.
Local Lemma sc : s^2 + c^2 = 1. Proof. exact (sc1 phi). Qed.
Local Lemma s2_le : s^2 <= 1. Proof. pose proof sc. pose proof (pow2_ge_0 c). lra. Qed.
Lemma dl_theta m t : 0 < t -> dl m (theta phi t) = (t + (1 - m * s^2)) / (t + 1).
Proof.
  intros Ht. unfold dl. rewrite (theta_sin2 phi Hphi) by lra. fold s. field. lra.
Qed.
Lemma arg_pos m : m < 1 -> 0 < 1 - m * s^2.
Proof. intros Hm. pose proof s2_le. pose proof sp. assert (0 < s^2) by (apply pow_lt; lra). nra. Qed.
Lemma sqrt3 x y z : 0 <= x -> 0 <= y -> 0 <= z -> sqrt (x * y * z) = sqrt x * sqrt y * sqrt z.
Proof. intros. rewrite !sqrt_mult; try reflexivity; try assumption. now apply Rmult_le_pos. Qed.
Lemma carlson_RF_legendre m : m < 1 -> s * carlson_RF (c^2) (1 - m * s^2) 1 = ellF phi m.
Proof.
  intros Hm. rewrite ellF_prim. unfold carlson_RF. pose proof sp as Hs.
  rewrite (substitution_int phi Hphi (hF m) (fun x => hF_cont m x Hm) _ (/ s)); [field; lra|].
  intros t Ht. unfold hF. rewrite dl_theta by assumption. fold s c.
  pose proof (arg_pos m Hm). pose proof (pow2_ge_0 c).
  rewrite sqrt3 by lra. rewrite sqrt_div by lra.
  assert (0 < sqrt (t + c^2)) by (apply sqrt_lt_R0; lra).
  assert (0 < sqrt (t + (1 - m * s^2))) by (apply sqrt_lt_R0; lra).
  assert (0 < sqrt (t + 1)) by (apply sqrt_lt_R0; lra).
  pose proof (pow2_sqrt (t + 1) ltac:(lra)) as Q.
  replace (2 * (t + 1) * sqrt (t + c^2)) with (2 * sqrt (t + 1) ^ 2 * sqrt (t + c^2)) by (rewrite Q; ring).
  field. repeat split; lra.
Qed.
Lemma carlson_RJ_prim n m : n < 1 -> m < 1 ->
  s^3 * carlson_RJ (c^2) (1 - m * s^2) 1 (1 - n * s^2) = 3 * prim (hJ n m) phi.
Proof.
  intros Hn Hm. unfold carlson_RJ. pose proof sp as Hs.
  rewrite (substitution_int phi Hphi (hJ n m) (fun x => hJ_cont n m x Hn Hm) _ (3 / s^3)); [field; lra|].
  intros t Ht. unfold hJ, hP. rewrite !dl_theta by assumption. rewrite (theta_sin2 phi Hphi) by lra. fold s c.
  pose proof (arg_pos m Hm). pose proof (arg_pos n Hn). pose proof (pow2_ge_0 c).
  rewrite sqrt3 by lra. rewrite sqrt_div by lra.
  assert (0 < sqrt (t + c^2)) by (apply sqrt_lt_R0; lra).
  assert (0 < sqrt (t + (1 - m * s^2))) by (apply sqrt_lt_R0; lra).
  assert (0 < sqrt (t + 1)) by (apply sqrt_lt_R0; lra).
  pose proof (pow2_sqrt (t + 1) ltac:(lra)) as Q.
  replace (2 * (t + 1) * sqrt (t + c^2)) with (2 * sqrt (t + 1) ^ 2 * sqrt (t + c^2)) by (rewrite Q; ring).
  set (A := t + (1 - n * s^2)) in *. assert (0 < A) by (unfold A; lra).
  field. repeat split; lra.
Qed.
Lemma carlson_RD_prim m : m < 1 ->
  s^3 * carlson_RD (c^2) (1 - m * s^2) 1 = 3 * prim (hJ 0 m) phi.
Proof.
  intros Hm. unfold carlson_RD. rewrite <- (carlson_RJ_prim 0 m) by lra.
  now replace (1 - 0 * s^2) with 1 by ring.
Qed.
End Legendre.

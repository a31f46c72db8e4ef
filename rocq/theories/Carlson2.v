(** * Carlson's integral of the third kind with a negative fourth argument (principal value),
    and Legendre's third integral with characteristic n > 1 (DLMF 19.7.8, 19.20.14) *)
From Coq Require Import Reals Lra Lia ZArith.
From Coquelicot Require Import Coquelicot.
From Verif Require Import SpecElliptic Elliptic Carlson.
Open Scope R_scope.

(** ** improper integrals from an antiderivative *)
Lemma is_RInt_gen_anti (D f : R -> R) (Fa Fb : (R -> Prop) -> Prop) {FFa : ProperFilter Fa} {FFb : ProperFilter Fb} (P : R -> Prop) la lb :
  open P -> (forall x, P x -> is_derive D x (f x)) -> (forall x, P x -> continuous f x) ->
  filter_prod Fa Fb (fun ab => forall x, Rmin (fst ab) (snd ab) <= x <= Rmax (fst ab) (snd ab) -> P x) ->
  filterlim D Fa (locally la) -> filterlim D Fb (locally lb) -> is_RInt_gen f Fa Fb (lb - la).
Proof.
  intros HO HD HC HP La Lb.
  apply (is_RInt_gen_ext (Derive D)).
  { eapply filter_imp; [|exact HP]. intros [x y] H z Hz. simpl in *. apply is_derive_unique, HD, H. lra. }
  apply (is_RInt_gen_Derive D); try assumption.
  - eapply filter_imp; [|exact HP]. intros [x y] H z Hz. simpl in *. eexists. apply HD, H, Hz.
  - eapply filter_imp; [|exact HP]. intros [x y] H z Hz. simpl in *.
    apply (continuous_ext_loc (T := R_UniformSpace) (U := R_UniformSpace) _ f z); [|now apply HC, H].
    eapply filter_imp; [|apply (HO z (H z Hz))]. intros w Hw. symmetry. apply is_derive_unique, HD, Hw.
Qed.

Lemma lim_eq (f : R -> R) (F : (R -> Prop) -> Prop) (l l' : R) : l = l' -> filterlim f F (locally l) -> filterlim f F (locally l').
Proof. now intros ->. Qed.
Lemma lim_plus (f g : R -> R) (F : (R -> Prop) -> Prop) {FF : Filter F} (l l' : R) :
  filterlim f F (locally l) -> filterlim g F (locally l') -> filterlim (fun x => f x + g x) F (locally (l + l')).
Proof.
  intros H1 H2. apply (filterlim_comp_2 (G := locally l) (H := locally l') f g Rplus H1 H2).
  exact (filterlim_plus (V := R_NormedModule) l l').
Qed.
Lemma lim_minus (f g : R -> R) (F : (R -> Prop) -> Prop) {FF : Filter F} (l l' : R) :
  filterlim f F (locally l) -> filterlim g F (locally l') -> filterlim (fun x => f x - g x) F (locally (l - l')).
Proof.
  intros H1 H2. apply (lim_plus f (fun x => - g x) F); [exact H1|].
  apply (filterlim_comp _ _ _ g Ropp _ (locally l')); [exact H2 | exact (filterlim_opp (V := R_NormedModule) l')].
Qed.
(** a simple zero: the logarithms of the two sides cancel *)
Lemma zero_ratio (g : R -> R) (s d : R) : g s = 0 -> is_derive g s d -> d <> 0 ->
  filterlim (fun eps => ln (g (s - eps) ^ 2) - ln (g (s + eps) ^ 2)) (at_right 0) (locally 0).
Proof.
  intros G0 HD Hd.
  assert (Q : forall sg, sg = 1 \/ sg = -1 -> filterlim (fun eps => (g (s + sg * eps) / eps) ^ 2) (at_right 0) (locally (d ^ 2))).
  { intros sg Hsg. replace (d^2) with ((sg * d)^2) by (destruct Hsg; subst; ring).
    apply (filterlim_comp _ _ _ (fun eps => g (s + sg * eps) / eps) (fun x => x ^ 2) _ (locally (sg * d))).
    2: { apply (ex_derive_continuous (V := R_NormedModule)). now auto_derive. }
    assert (D1 : is_derive (fun eps => g (s + sg * eps)) 0 (sg * d)).
    { apply (is_derive_comp g (fun eps => s + sg * eps)); [now replace (s + sg * 0) with s by ring|].
      auto_derive; [trivial|ring]. }
    apply is_derive_Reals in D1. unfold derivable_pt_lim in D1.
    intros U [e He]. destruct (D1 e (cond_pos e)) as [del Hdel].
    exists del. intros eps Heps Hpos. apply He. change (Rabs (g (s + sg * eps) / eps - sg * d) < e).
    specialize (Hdel eps ltac:(lra)).
    change (Rabs (eps - 0) < del) in Heps. rewrite Rminus_0_r in Heps.
    specialize (Hdel Heps). rewrite Rplus_0_l, Rmult_0_r, Rplus_0_r, G0, Rminus_0_r in Hdel. exact Hdel. }
  assert (D2 : 0 < d^2) by now apply pow2_gt_0.
  assert (L : forall sg, sg = 1 \/ sg = -1 -> filterlim (fun eps => ln ((g (s + sg * eps) / eps) ^ 2)) (at_right 0) (locally (ln (d ^ 2)))).
  { intros sg Hsg. apply (filterlim_comp _ _ _ _ ln _ (locally (d^2))); [now apply Q|].
    apply (ex_derive_continuous (V := R_NormedModule)). auto_derive. exact D2. }
  assert (N : forall sg, sg = 1 \/ sg = -1 -> at_right 0 (fun eps => 0 < (g (s + sg * eps) / eps) ^ 2)).
  { intros sg Hsg. apply (Q sg Hsg (fun z => 0 < z)). now apply open_gt. }
  apply (lim_eq _ _ (ln (d^2) - ln (d^2)) 0); [ring|].
  apply (filterlim_ext_loc (fun eps => ln ((g (s + -1 * eps) / eps) ^ 2) - ln ((g (s + 1 * eps) / eps) ^ 2))).
  - assert (Pe : at_right 0 (fun eps => 0 < eps)) by (exists (mkposreal 1 Rlt_0_1); auto).
    pose proof (filter_and _ _ (N 1 (or_introl eq_refl)) (filter_and _ _ (N (-1) (or_intror eq_refl)) Pe)) as F.
    eapply filter_imp; [|exact F]. intros eps (H1 & H2 & H3).
    replace (s - eps) with (s + -1 * eps) by ring. replace (s + eps) with (s + 1 * eps) by ring.
    set (x := g (s + 1 * eps)) in *. set (y := g (s + -1 * eps)) in *. clearbody x y.
    assert (K : forall z, 0 < (z / eps)^2 -> ln ((z / eps)^2) = ln (z^2) - ln (eps^2)).
    { intros z Hz. assert (0 < eps^2) by now apply pow_lt.
      assert (E : (z / eps)^2 = z^2 * / eps^2) by (field; lra). rewrite E in *.
      assert (0 < z^2). { replace (z^2) with (z^2 * / eps^2 * eps^2) by (field; lra). now apply Rmult_lt_0_compat. }
      rewrite ln_mult, ln_Rinv by (try apply Rinv_0_lt_compat; assumption). ring. }
    rewrite !K by assumption. ring.
  - apply (lim_minus _ _ (at_right 0)); apply L; [now right | now left].
Qed.

(** ** the antiderivative for n > 1 *)
Section Hyper.
Context (n m : R) (Hn : 1 < n) (Hm : m < 1).
Definition Ph : R := sqrt ((n - 1) * (1 - m / n)).
Lemma mn_lt : m / n < 1.
Proof. apply Rlt_div_l; lra. Qed.
Lemma Ph_sq : Ph ^ 2 = (n - 1) * (1 - m / n).
Proof. pose proof mn_lt. apply pow2_sqrt, Rmult_le_pos; lra. Qed.
Lemma Ph_pos : 0 < Ph.
Proof. pose proof mn_lt. apply sqrt_lt_R0, Rmult_lt_0_compat; lra. Qed.
Local Notation dn t := (sqrt (dl m t)).
Definition gpl (t : R) : R := dn t * cos t + Ph * sin t.
Definition gmi (t : R) : R := dn t * cos t - Ph * sin t.
Lemma dn2 t : dn t ^ 2 = 1 - m * sin t ^ 2.
Proof. unfold dl. apply pow2_sqrt, Rlt_le, (dl_pos m t Hm). Qed.
Lemma gprod t : gpl t * gmi t = (1 - n * sin t ^ 2) * (1 - m / n * sin t ^ 2).
Proof.
  unfold gpl, gmi. transitivity (dn t ^ 2 * cos t ^ 2 - Ph ^ 2 * sin t ^ 2); [ring|].
  rewrite dn2, Ph_sq. replace (cos t ^ 2) with (1 - sin t ^ 2) by (pose proof (sin2_cos2 t); unfold Rsqr in *; simpl; lra).
  field. lra.
Qed.
Lemma dlmn t : 0 < 1 - m / n * sin t ^ 2.
Proof. exact (dl_pos (m / n) t mn_lt). Qed.
Lemma g_nz t : n * sin t ^ 2 <> 1 -> gpl t <> 0 /\ gmi t <> 0.
Proof.
  intros H. pose proof (gprod t) as G. pose proof (dlmn t).
  assert (gpl t * gmi t <> 0) by (rewrite G; apply Rmult_integral_contrapositive_currified; lra).
  split; intros E; rewrite E in *; lra.
Qed.
Lemma dn_der t : is_derive (fun t => dn t) t (- m * sin t * cos t / dn t).
Proof.
  pose proof (dl_pos m t Hm) as P. pose proof (sqrt_dl_pos m t Hm) as P'. unfold dl in *. auto_derive.
  - simpl in *. lra.
  - replace (1 + - (m * (sin t * (sin t * 1)))) with (1 - m * sin t ^ 2) by ring. field. lra.
Qed.
Definition gpl' (t : R) : R := - m * sin t * cos t / dn t * cos t - dn t * sin t + Ph * cos t.
Definition gmi' (t : R) : R := - m * sin t * cos t / dn t * cos t - dn t * sin t - Ph * cos t.
Lemma trig_der (D0 : R -> R) t d k : is_derive D0 t d ->
  is_derive (fun t => D0 t * cos t + k * sin t) t (d * cos t - D0 t * sin t + k * cos t).
Proof.
  intros D. auto_derive; [repeat split; now exists d|].
  rewrite (is_derive_unique (fun x : R => D0 x) _ _ D). ring.
Qed.
Lemma gpl_der t : is_derive gpl t (gpl' t).
Proof. exact (trig_der _ t _ Ph (dn_der t)). Qed.
Lemma gmi_der t : is_derive gmi t (gmi' t).
Proof.
  pose proof (trig_der _ t _ (- Ph) (dn_der t)) as D. unfold gmi, gmi'.
  apply (is_derive_ext (fun t => dn t * cos t + - Ph * sin t)); [intros x; simpl; ring|].
  evar_last; [exact D | cbv beta; unfold Rdiv; ring].
Qed.
Lemma wronski t : gpl' t * gmi t - gmi' t * gpl t = 2 * Ph * (1 - m * sin t ^ 4) / dn t.
Proof.
  pose proof (sqrt_dl_pos m t Hm) as P. unfold gpl, gmi, gpl', gmi'.
  transitivity (2 * Ph * (dn t ^ 2 * (sin t ^ 2 + cos t ^ 2) + m * sin t ^ 2 * cos t ^ 2) / dn t); [field; lra|].
  rewrite dn2. replace (cos t ^ 2) with (1 - sin t ^ 2) by (pose proof (sin2_cos2 t); unfold Rsqr in *; simpl; lra).
  f_equal. ring.
Qed.
Lemma m4 t : 0 < 1 - m * sin t ^ 4.
Proof.
  pose proof (sin2_bound t). replace (sin t ^ 4) with (sin t ^ 2 * sin t ^ 2) by ring. set (w := sin t ^ 2) in *. clearbody w.
  assert (0 <= w * w <= 1) by (split; [apply Rmult_le_pos; lra | nra]). set (z := w * w) in *. clearbody z.
  pose proof (Rmult_le_pos z (1 - m) ltac:(lra) ltac:(lra)). destruct (Rlt_dec z 1); [lra|]. replace z with 1 by lra. lra.
Qed.
(** half the logarithm of ((dn cos + P sin)/(dn cos - P sin))^2, over 2P *)
Definition Lg (t : R) : R := / (4 * Ph) * (ln (gpl t ^ 2) - ln (gmi t ^ 2)).
Lemma Lg_der t : n * sin t ^ 2 <> 1 ->
  is_derive Lg t (hP n m t + hP (m / n) m t - hF m t).
Proof.
  intros H. destruct (g_nz t H) as [G1 G2]. pose proof (gpl_der t) as D1. pose proof (gmi_der t) as D2. pose proof Ph_pos as P.
  pose proof (sqrt_dl_pos m t Hm) as P'. pose proof (dlmn t) as P2. pose proof (wronski t) as W. pose proof (gprod t) as GP. pose proof (m4 t) as M4.
  unfold Lg. auto_derive.
  - repeat split; try (now eexists; eassumption).
    + rewrite Rmult_1_r. change (0 < Rsqr (gpl t)). now apply Rsqr_pos_lt.
    + rewrite Rmult_1_r. change (0 < Rsqr (gmi t)). now apply Rsqr_pos_lt.
  - rewrite (is_derive_unique (fun x : R => gpl x) _ _ D1), (is_derive_unique (fun x : R => gmi x) _ _ D2).
    transitivity ((gpl' t * gmi t - gmi' t * gpl t) / (2 * Ph * (gpl t * gmi t))); [field; repeat split; lra|].
    rewrite W, GP. unfold hP, hF. unfold dl at 2 4. change (dl m t) with (dl m t).
    set (d := dn t) in *. set (w := sin t ^ 2) in *. replace (sin t ^ 4) with (w^2) by (unfold w; ring).
    clearbody d w. assert (1 - n * w <> 0) by lra. field. repeat split; try lra.
    intros E. apply Rmult_lt_compat_r with (r := n) in P2; [|lra]. replace ((1 - m / n * w) * n) with (n - m * w) in P2 by (field; lra). lra.
Qed.
(** Legendre's integral of the third kind, characteristic n > 1, as a principal value *)
Definition ellPi_hyper (t : R) : R := ellF t m - ellPi (m / n) t m + Lg t.
Lemma ellPi_hyper_derive t : n * sin t ^ 2 <> 1 -> is_derive ellPi_hyper t (hP n m t).
Proof.
  intros H. unfold ellPi_hyper. evar_last.
  - apply (is_derive_plus (V := R_NormedModule)); [|now apply Lg_der].
    apply (is_derive_minus (V := R_NormedModule)); [now apply ellF_derive | apply ellPi_derive; [exact mn_lt | exact Hm]].
  - unfold plus, minus, opp; simpl. unfold plus, opp; simpl. ring.
Qed.
Lemma Lg_odd t : Lg (- t) = - Lg t.
Proof.
  unfold Lg. assert (E1 : gpl (- t) = gmi t) by (unfold gpl, gmi; rewrite dl_opp, sin_neg, cos_neg; ring).
  assert (E2 : gmi (- t) = gpl t) by (unfold gpl, gmi; rewrite dl_opp, sin_neg, cos_neg; ring). rewrite E1, E2. ring.
Qed.
Lemma Lg_per t : Lg (t + PI) = Lg t.
Proof.
  unfold Lg. assert (E1 : gpl (t + PI) = - gpl t) by (unfold gpl; rewrite dl_per, neg_sin, neg_cos; ring).
  assert (E2 : gmi (t + PI) = - gmi t) by (unfold gmi; rewrite dl_per, neg_sin, neg_cos; ring). rewrite E1, E2.
  replace ((- gpl t)^2) with (gpl t ^ 2) by ring. now replace ((- gmi t)^2) with (gmi t ^ 2) by ring.
Qed.
Lemma Lg_per_nat t k : Lg (t + INR k * PI) = Lg t.
Proof.
  induction k as [|k IH]; [now rewrite Rmult_0_l, Rplus_0_r|].
  rewrite S_INR. replace (t + (INR k + 1) * PI) with (t + INR k * PI + PI) by ring. now rewrite Lg_per.
Qed.
Lemma Lg_per_Z t k : Lg (t + IZR k * PI) = Lg t.
Proof.
  destruct (Z_le_gt_dec 0 k).
  - rewrite <- (Z2Nat.id k) by lia. rewrite <- INR_IZR_INZ. apply Lg_per_nat.
  - rewrite <- (Lg_per_nat (t + IZR k * PI) (Z.to_nat (- k))). f_equal. rewrite INR_IZR_INZ, Z2Nat.id by lia. rewrite opp_IZR. ring.
Qed.
Lemma Lg_0 : Lg 0 = 0.
Proof. pose proof (Lg_odd 0) as H. rewrite Ropp_0 in H. lra. Qed.
Lemma Lg_half : Lg (PI / 2) = 0.
Proof.
  pose proof (Lg_odd (PI / 2)) as H. pose proof (Lg_per (- (PI / 2))) as K.
  replace (- (PI / 2) + PI) with (PI / 2) in K by field. lra.
Qed.
(** across a pole the two one-sided values differ by o(1) *)
Lemma gmi_simple t : gmi t = 0 -> 0 < gpl t -> gmi' t <> 0.
Proof.
  intros G P E. pose proof (wronski t) as W. rewrite G, E in W. pose proof (m4 t). pose proof (sqrt_dl_pos m t Hm). pose proof Ph_pos.
  assert (0 < 2 * Ph * (1 - m * sin t ^ 4) / dn t).
  { apply Rdiv_lt_0_compat; [|assumption]. repeat apply Rmult_lt_0_compat; lra. }
  lra.
Qed.

(** ** Carlson's form *)
Context (phi : R) (Hphi : 0 < phi <= PI / 2).
Local Notation s := (sin phi).
Local Notation c := (cos phi).
Local Notation th := (theta phi).
Definition Gj (t : R) : R := / n * (Lg t - ellPi (m / n) t m).
Lemma Gj_der t : n * sin t ^ 2 <> 1 -> is_derive Gj t (hJ n m t).
Proof.
  intros H. unfold Gj. evar_last.
  - apply is_derive_scal. apply (is_derive_minus (V := R_NormedModule)); [now apply Lg_der | apply ellPi_derive; [exact mn_lt | exact Hm]].
  - unfold minus, plus, opp; simpl. unfold hJ, hP, hF. pose proof (sqrt_dl_pos m t Hm).
    assert (dl n t <> 0) by (unfold dl; lra). pose proof (dlmn t) as D. change (1 - m / n * sin t ^ 2) with (dl (m / n) t) in D.
    transitivity (/ n * (1 / dl n t - 1) / dn t); [field; repeat split; lra|]. unfold dl at 1. unfold dl in H1. unfold dl at 2. field. repeat split; try lra. 
Qed.
Definition fJ (t : R) : R := 3 / 2 / (sqrt ((t + c^2) * (t + (1 - m * s^2)) * (t + 1)) * (t + (1 - n * s^2))).
Lemma th_range t : 0 <= t -> 0 < th t <= PI / 2.
Proof.
  intros Ht. pose proof (s_pos phi Hphi) as S. fold s in S. unfold theta. pose proof (atan_bound (sqrt (t + c^2) / s)).
  assert (0 <= atan (sqrt (t + c^2) / s)).
  { rewrite <- atan_0. destruct (Rle_lt_or_eq_dec 0 (sqrt (t + c^2) / s)) as [L|L].
    - apply Rdiv_le_0_compat; [apply sqrt_pos | assumption].
    - left. now apply atan_increasing.
    - rewrite <- L. lra. }
  lra.
Qed.
Lemma fJ_val t : 0 < t -> t + (1 - n * s^2) <> 0 ->
  fJ t = 3 / s^3 * (hJ n m (th t) * (s / (2 * (t + 1) * sqrt (t + c^2)))).
Proof.
  intros Ht Hp. unfold fJ, hJ, hP. rewrite !(dl_theta phi Hphi) by assumption. rewrite (theta_sin2 phi Hphi) by lra.
  pose proof (s_pos phi Hphi) as Hs. fold s in Hs.
  pose proof (arg_pos phi Hphi m Hm) as A1. fold s in A1. pose proof (pow2_ge_0 c) as A2.
  rewrite sqrt3 by lra. rewrite sqrt_div by lra.
  assert (0 < sqrt (t + c^2)) by (apply sqrt_lt_R0; lra).
  assert (0 < sqrt (t + (1 - m * s^2))) by (apply sqrt_lt_R0; lra).
  assert (0 < sqrt (t + 1)) by (apply sqrt_lt_R0; lra).
  pose proof (pow2_sqrt (t + 1) ltac:(lra)) as Q.
  replace (2 * (t + 1) * sqrt (t + c^2)) with (2 * sqrt (t + 1) ^ 2 * sqrt (t + c^2)) by (rewrite Q; ring).
  set (A := t + (1 - n * s^2)) in *. clearbody A.
  field. repeat split; lra.
Qed.
Lemma pole_iff t : 0 < t -> n * sin (th t) ^ 2 = 1 <-> t + (1 - n * s^2) = 0.
Proof.
  intros Ht. rewrite (theta_sin2 phi Hphi) by lra. fold s.
  assert (E : t + (1 - n * s^2) = (1 - n * (s^2 / (t + 1))) * (t + 1)) by (field; lra). rewrite E. split; intros H.
  - rewrite H. ring.
  - apply Rmult_integral in H as [H|H]; lra.
Qed.
Definition DJ (t : R) : R := - (3 / s^3 * Gj (th t)).
Definition okt (t : R) : Prop := 0 < t /\ t <> n * s^2 - 1.
Lemma okt_open : open okt.
Proof. apply open_and; [apply open_gt | apply open_neq]. Qed.
Lemma DJ_der t : okt t -> is_derive DJ t (fJ t).
Proof.
  intros [Ht Hp]. assert (Hp' : t + (1 - n * s^2) <> 0) by lra. rewrite fJ_val by assumption. unfold DJ. evar_last.
  - apply (is_derive_opp (V := R_NormedModule)). apply is_derive_scal.
    apply (is_derive_comp Gj th); [apply Gj_der; now rewrite pole_iff | now apply (theta_derive phi Hphi)].
  - unfold opp, scal; simpl; unfold mult; simpl. ring.
Qed.
Lemma fJ_cont t : okt t -> continuous fJ t.
Proof.
  intros [Ht Hp]. pose proof (arg_pos phi Hphi m Hm) as A1. fold s in A1. pose proof (pow2_ge_0 c) as A2.
  apply (ex_derive_continuous (V := R_NormedModule)). unfold fJ. auto_derive.
  assert (P : 0 < (t + c * (c * 1)) * (t + (1 + - (m * (s * (s * 1))))) * (t + 1)).
  { simpl in *. repeat apply Rmult_lt_0_compat; lra. }
  repeat split; [exact P|]. apply Rmult_integral_contrapositive_currified; [apply Rgt_not_eq, sqrt_lt_R0, P | simpl in *; lra].
Qed.
Lemma DJ_lim_0 : n * s^2 <> 1 -> filterlim DJ (at_right 0) (locally (- (3 / s^3 * Gj phi))).
Proof.
  intros H. unfold DJ. apply (filterlim_comp _ _ _ th (fun x => - (3 / s^3 * Gj x)) _ (locally phi)); [apply (theta_lim_0 phi Hphi)|].
  apply (ex_derive_continuous (V := R_NormedModule) (fun x => - (3 / s^3 * Gj x)) phi). eexists. apply (is_derive_opp (V := R_NormedModule)). apply is_derive_scal. now apply Gj_der.
Qed.
Lemma Gj_0 : Gj 0 = 0. Proof. unfold Gj. rewrite Lg_0, ellPi_0. ring. Qed.
Lemma DJ_lim_oo : filterlim DJ (Rbar_locally p_infty) (locally 0).
Proof.
  apply (lim_eq _ _ (- (3 / s^3 * Gj 0)) 0); [rewrite Gj_0; ring|].
  unfold DJ. apply (filterlim_comp _ _ _ th (fun x => - (3 / s^3 * Gj x)) _ (locally 0)); [apply (theta_lim_oo phi Hphi)|].
  apply (ex_derive_continuous (V := R_NormedModule) (fun x => - (3 / s^3 * Gj x)) 0). eexists. apply (is_derive_opp (V := R_NormedModule)). apply is_derive_scal. apply Gj_der.
  rewrite sin_0. lra.
Qed.
Lemma RJ_hyper_regular : n * s^2 < 1 -> s^3 * carlson_RJ (c^2) (1 - m * s^2) 1 (1 - n * s^2) = 3 * Gj phi.
Proof.
  intros H. pose proof (s_pos phi Hphi) as Hs. fold s in Hs.
  assert (E : carlson_RJ (c^2) (1 - m * s^2) 1 (1 - n * s^2) = 3 / s^3 * Gj phi).
  { unfold carlson_RJ, int_0_oo. apply is_RInt_gen_unique.
    replace (3 / s^3 * Gj phi) with (0 - - (3 / s^3 * Gj phi)) by ring.
    apply (is_RInt_gen_anti DJ fJ (at_right 0) (Rbar_locally p_infty) okt); auto using okt_open, DJ_der, fJ_cont, DJ_lim_oo.
    - apply (Filter_prod _ _ _ (fun x => 0 < x) (fun x => 0 < x)).
      + exists (mkposreal 1 Rlt_0_1). auto.
      + exists 0. auto.
      + intros x y Hx Hy z [Hz _]. simpl in *. split; [|].
        * apply Rlt_le_trans with (2 := Hz). apply Rmin_glb_lt; assumption.
        * assert (0 < z) by (apply Rlt_le_trans with (2 := Hz); apply Rmin_glb_lt; assumption). lra.
    - apply DJ_lim_0. lra. }
  rewrite E. field. lra.
Qed.
Lemma at_point_lim (f : R -> R) x : filterlim f (at_point x) (locally (f x)).
Proof. intros P [d Hd]. apply Hd. apply ball_center. Qed.
Lemma cont_sym (f : R -> R) x : continuous f x -> filterlim (fun e => f (x - e) - f (x + e)) (at_right 0) (locally 0).
Proof.
  intros H. apply (lim_eq _ _ (f x - f x) 0); [ring|].
  assert (K : forall sg, filterlim (fun e => f (x + sg * e)) (at_right 0) (locally (f x))).
  { intros sg. apply (filterlim_filter_le_1 (F := locally 0)).
    { intros P [d Hd]. exists d. intros y Hy _. now apply Hd. }
    replace (f x) with (f (x + sg * 0)) by (f_equal; ring).
    apply (continuous_comp (fun e => x + sg * e) f).
    - apply (ex_derive_continuous (V := R_NormedModule)). now auto_derive.
    - cbv beta. assert (E : x + sg * 0 = x) by ring. rewrite E. exact H. }
  apply (lim_minus _ _ (at_right 0)).
  - apply (filterlim_ext (fun e => f (x + -1 * e))); [intros; f_equal; ring | apply K].
  - apply (filterlim_ext (fun e => f (x + 1 * e))); [intros; f_equal; ring | apply K].
Qed.
Lemma RJ_hyper_principal : 1 < n * s^2 -> carlson_RJ_principal (c^2) (1 - m * s^2) 1 (1 - n * s^2) (3 / s^3 * Gj phi).
Proof.
  intros H. pose proof (s_pos phi Hphi) as Hs. fold s in Hs. set (t0 := n * s^2 - 1). assert (T0 : 0 < t0) by (unfold t0; lra).
  unfold carlson_RJ_principal. replace (- (1 - n * s^2)) with t0 by (unfold t0; ring). fold fJ.
  exists (fun e => DJ (t0 - e) - - (3 / s^3 * Gj phi)), (fun e => 0 - DJ (t0 + e)). split.
  - exists (mkposreal _ T0). intros e He Pe. change (Rabs (e - 0) < t0) in He. rewrite Rminus_0_r, Rabs_pos_eq in He by lra. split.
    + apply (is_RInt_gen_anti DJ fJ (at_right 0) (at_point (t0 - e)) okt); auto using okt_open, DJ_der, fJ_cont, at_point_lim.
      * apply (Filter_prod _ _ _ (fun x => 0 < x < t0 - e) (fun x => x = t0 - e)).
        -- exists (mkposreal (t0 - e) ltac:(lra)). intros x Hx Px. change (Rabs (x - 0) < t0 - e) in Hx. rewrite Rminus_0_r, Rabs_pos_eq in Hx by lra. lra.
        -- reflexivity.
        -- intros x y Hx -> z Hz. simpl in *. rewrite Rmin_left, Rmax_right in Hz by lra. split; unfold t0 in *; lra.
      * apply DJ_lim_0. lra.
    + apply (is_RInt_gen_anti DJ fJ (at_point (t0 + e)) (Rbar_locally p_infty) okt); auto using okt_open, DJ_der, fJ_cont, at_point_lim, DJ_lim_oo.
      apply (Filter_prod _ _ _ (fun x => x = t0 + e) (fun x => t0 + e < x)).
      * reflexivity.
      * exists (t0 + e). auto.
      * intros x y -> Hy z Hz. simpl in *. rewrite Rmin_left, Rmax_right in Hz by lra. split; unfold t0 in *; lra.
  - assert (S0 : n * sin (th t0) ^ 2 = 1) by (apply pole_iff; [assumption | unfold t0; ring]).
    pose proof (th_range t0 (Rlt_le _ _ T0)) as TR. pose proof Ph_pos as PP.
    assert (SP : 0 < sin (th t0)) by (apply sin_gt_0; pose proof PI_RGT_0; lra).
    assert (CP : 0 <= cos (th t0)) by (apply cos_ge_0; pose proof PI_RGT_0; lra).
    assert (GP : 0 < gpl (th t0)).
    { unfold gpl. pose proof (sqrt_dl_pos m (th t0) Hm). apply Rplus_le_lt_0_compat; [apply Rmult_le_pos; lra | apply Rmult_lt_0_compat; lra]. }
    assert (GM : gmi (th t0) = 0).
    { pose proof (gprod (th t0)) as G. rewrite S0 in G. apply Rmult_eq_reg_l with (gpl (th t0)); [|lra]. rewrite G. ring. }
    pose proof (theta_derive phi Hphi t0 T0) as DT. pose proof (pow2_ge_0 c) as A2.
    assert (Z : filterlim (fun e => DJ (t0 - e) - DJ (t0 + e)) (at_right 0) (locally 0)).
    { set (f1 := fun t => - (3 / s^3) * (/ n * (/ (4 * Ph) * ln (gpl (th t) ^ 2) - ellPi (m / n) (th t) m))).
      set (k2 := 3 / s^3 * / n * / (4 * Ph)).
      apply (filterlim_ext (fun e => (f1 (t0 - e) - f1 (t0 + e)) + k2 * (ln (gmi (th (t0 - e)) ^ 2) - ln (gmi (th (t0 + e)) ^ 2)))).
      { intros e. unfold f1, k2, DJ, Gj, Lg. ring. }
      apply (lim_eq _ _ (0 + k2 * 0) 0); [ring|].
      apply (lim_plus _ _ (at_right 0)).
      - apply cont_sym. apply (ex_derive_continuous (V := R_NormedModule)). unfold f1.
        pose proof (gpl_der (th t0)) as D1. pose proof (ellPi_derive (m / n) m (th t0) mn_lt Hm) as D2.
        pose proof (is_derive_comp gpl th t0 _ _ D1 DT) as C1. pose proof (is_derive_comp (fun p => ellPi (m / n) p m) th t0 _ _ D2 DT) as C2.
        auto_derive. repeat split; try (now eexists; eassumption).
        rewrite Rmult_1_r. apply Rmult_lt_0_compat; assumption.
      - apply (filterlim_comp _ _ _ _ (fun x => k2 * x) _ (locally 0)).
        + apply (zero_ratio (fun t => gmi (th t)) t0 (- (s / (2 * (t0 + 1) * sqrt (t0 + c^2))) * gmi' (th t0))); [exact GM| |].
          * exact (is_derive_comp gmi th t0 _ _ (gmi_der _) DT).
          * apply Rmult_integral_contrapositive_currified; [|now apply gmi_simple].
            apply Ropp_neq_0_compat, Rgt_not_eq, Rdiv_lt_0_compat; [assumption|].
            assert (0 < sqrt (t0 + c^2)) by (apply sqrt_lt_R0; lra). repeat apply Rmult_lt_0_compat; lra.
        + apply (ex_derive_continuous (V := R_NormedModule) (fun x => k2 * x) 0). now auto_derive. }
    apply (filterlim_ext (fun e => 3 / s^3 * Gj phi + (DJ (t0 - e) - DJ (t0 + e)))); [intros e; ring|].
    apply (lim_eq _ _ (3 / s^3 * Gj phi + 0)); [ring|].
    apply (lim_plus _ _ (at_right 0)); [apply filterlim_const | exact Z].
Qed.
End Hyper.
(** the principal value is unique *)
Lemma principal_unique f s l l' : is_principal_value f s l -> is_principal_value f s l' -> l = l'.
Proof.
  intros (I & J & H & L) (I' & J' & H' & L').
  apply (filterlim_locally_unique (K := R_AbsRing) (V := R_NormedModule) (F := at_right 0) (fun e => I e + J e)); [exact L|].
  apply (filterlim_ext_loc (fun e => I' e + J' e)); [|exact L'].
  eapply filter_imp; [|exact (filter_and _ _ H H')]. intros e [[H1 H2] [H1' H2']].
  rewrite <- (is_RInt_gen_unique _ _ H1), <- (is_RInt_gen_unique _ _ H2), (is_RInt_gen_unique _ _ H1'), (is_RInt_gen_unique _ _ H2'). reflexivity.
Qed.

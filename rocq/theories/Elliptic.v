(** * Theory of the Legendre integrals and of Jacobi's amplitude *)
From Coq Require Import Reals Lra Lia ZArith.
From Coquelicot Require Import Coquelicot.
From Verif Require Import SpecElliptic.
Open Scope R_scope.

(** ** integrals of continuous even pi-periodic functions *)
Section Osc.
Context (h : R -> R) (Hc : forall x, continuous h x).
Definition prim (x : R) : R := RInt h 0 x.
Lemma prim_derive x : is_derive prim x (h x).
Proof.
  unfold prim. apply (is_derive_RInt h (fun x => RInt h 0 x) 0 x).
  - apply filter_forall. intros y. apply (RInt_correct h). apply (ex_RInt_continuous h). auto.
  - apply Hc.
Qed.
Lemma prim_0 : prim 0 = 0.
Proof. apply (RInt_point 0 h). Qed.
Lemma derive_unique G : (forall x, is_derive G x (h x)) -> forall x, G x - G 0 = prim x.
Proof.
  intros HG.
  assert (D : forall x, is_derive (fun x => G x - prim x) x 0).
  { intros x. replace 0 with (h x - h x) by ring. apply (is_derive_minus (V := R_NormedModule)); [apply HG | apply prim_derive]. }
  intros x. assert (K : G x - prim x = G 0 - prim 0).
  { destruct (Rtotal_order 0 x) as [K|[<- |K]]; [|reflexivity|].
    - symmetry. apply (eq_is_derive (fun x => G x - prim x) 0 x); auto.
    - apply (eq_is_derive (fun x => G x - prim x) x 0); auto. }
  rewrite prim_0 in K. lra.
Qed.
Context (Hev : forall x, h (- x) = h x) (Hper : forall x, h (x + PI) = h x).
Lemma prim_odd x : prim (- x) = - prim x.
Proof.
  assert (D : forall x, is_derive (fun x => - prim (- x)) x (h x)).
  { intros y. replace (h y) with (- (- 1 * h (- y))) by (rewrite Hev; ring).
    apply (is_derive_opp (fun x => prim (- x))). apply (is_derive_comp prim Ropp).
    - apply prim_derive.
    - auto_derive; [exact I | ring]. }
  pose proof (derive_unique _ D x) as K. cbv beta in K. rewrite Ropp_0, prim_0 in K. lra.
Qed.
Lemma prim_shift x : prim (x + PI) = prim x + prim PI.
Proof.
  assert (D : forall x, is_derive (fun x => prim (x + PI)) x (h x)).
  { intros y. replace (h y) with (1 * h (y + PI)) by (rewrite Hper; ring).
    apply (is_derive_comp prim (fun x => x + PI)).
    - apply prim_derive.
    - auto_derive; [exact I | ring]. }
  pose proof (derive_unique _ D x) as K. cbv beta in K. rewrite Rplus_0_l in K. lra.
Qed.
Lemma prim_reflect x : prim (PI - x) = prim PI - prim x.
Proof.
  replace (PI - x) with (- x + PI) by ring. rewrite prim_shift, prim_odd. ring.
Qed.
Lemma prim_PI : prim PI = 2 * prim (PI / 2).
Proof.
  pose proof (prim_reflect (PI / 2)) as K. replace (PI - PI / 2) with (PI / 2) in K by field. lra.
Qed.
Lemma prim_shift_Z x k : prim (x + IZR k * PI) = prim x + IZR k * prim PI.
Proof.
  assert (N : forall n x, prim (x + INR n * PI) = prim x + INR n * prim PI).
  { induction n as [|n IH]; intros y.
    - simpl. rewrite !Rmult_0_l, !Rplus_0_r. reflexivity.
    - rewrite S_INR. replace (y + (INR n + 1) * PI) with ((y + INR n * PI) + PI) by ring.
      rewrite prim_shift, IH. ring. }
  destruct (Z.le_gt_cases 0 k) as [K|K].
  - rewrite <- (Z2Nat.id k K), <- INR_IZR_INZ. apply N.
  - assert (E : IZR k = - INR (Z.to_nat (- k))).
    { rewrite INR_IZR_INZ, Z2Nat.id by lia. rewrite opp_IZR. ring. }
    rewrite E. pose proof (N (Z.to_nat (- k)) (x + - INR (Z.to_nat (- k)) * PI)) as M.
    replace (x + - INR (Z.to_nat (- k)) * PI + INR (Z.to_nat (- k)) * PI) with x in M by ring. lra.
Qed.
(** reduction to the first quadrant: phi = N pi/2 + delta *)
Lemma prim_even k delta : prim (IZR (2 * k) * (PI / 2) + delta) = IZR (2 * k) * prim (PI / 2) + prim delta.
Proof.
  rewrite mult_IZR. replace (2 * IZR k * (PI / 2) + delta) with (delta + IZR k * PI) by field.
  rewrite prim_shift_Z, prim_PI. ring.
Qed.
Lemma prim_odd_quadrant k delta :
  prim (IZR (2 * k + 1) * (PI / 2) + delta) = (IZR (2 * k + 1) + 1) * prim (PI / 2) - prim (PI / 2 - delta).
Proof.
  rewrite plus_IZR, mult_IZR.
  replace ((2 * IZR k + 1) * (PI / 2) + delta) with ((PI - (PI / 2 - delta)) + IZR k * PI) by field.
  rewrite prim_shift_Z, prim_reflect, prim_PI. ring.
Qed.
End Osc.

(** ** the three integrands *)
Definition dl (m t : R) : R := 1 - m * sin t ^ 2.
Lemma sin2_bound t : 0 <= sin t ^ 2 <= 1.
Proof. pose proof (SIN_bound t). nra. Qed.
Lemma dl_pos m t : m < 1 -> 0 < dl m t.
Proof. intros H. unfold dl. pose proof (sin2_bound t). destruct (Rle_dec 0 m); nra. Qed.
Lemma sqrt_dl_pos m t : m < 1 -> 0 < sqrt (dl m t).
Proof. intros. now apply sqrt_lt_R0, dl_pos. Qed.
Lemma dl_opp m t : dl m (- t) = dl m t.
Proof. unfold dl. rewrite sin_neg. ring. Qed.
Lemma dl_per m t : dl m (t + PI) = dl m t.
Proof. unfold dl. rewrite neg_sin. ring. Qed.

Definition hF (m t : R) : R := / sqrt (dl m t).
Definition hE (m t : R) : R := sqrt (dl m t).
Definition hP (n m t : R) : R := / (dl n t * sqrt (dl m t)).

Lemma dl_auto m x : 1 + - (m * (sin x * (sin x * 1))) = dl m x.
Proof. unfold dl. ring. Qed.
Lemma hF_cont m x : m < 1 -> continuous (hF m) x.
Proof.
  intros H. pose proof (dl_pos m x H). pose proof (sqrt_dl_pos m x H).
  apply (ex_derive_continuous (V := R_NormedModule)). unfold hF, dl. auto_derive. rewrite dl_auto.
  repeat split; lra.
Qed.
Lemma hE_cont m x : m < 1 -> continuous (hE m) x.
Proof.
  intros H. pose proof (dl_pos m x H).
  apply (ex_derive_continuous (V := R_NormedModule)). unfold hE, dl. auto_derive. rewrite dl_auto.
  repeat split; lra.
Qed.
Lemma hP_cont n m x : n < 1 -> m < 1 -> continuous (hP n m) x.
Proof.
  intros Hn H. pose proof (dl_pos m x H). pose proof (dl_pos n x Hn). pose proof (sqrt_dl_pos m x H).
  apply (ex_derive_continuous (V := R_NormedModule)). unfold hP, dl. auto_derive. rewrite !dl_auto.
  repeat split; try lra.
  apply Rgt_not_eq. apply Rmult_lt_0_compat; lra.
Qed.
Lemma hF_ev m x : hF m (- x) = hF m x. Proof. unfold hF. now rewrite dl_opp. Qed.
Lemma hE_ev m x : hE m (- x) = hE m x. Proof. unfold hE. now rewrite dl_opp. Qed.
Lemma hP_ev n m x : hP n m (- x) = hP n m x. Proof. unfold hP. now rewrite !dl_opp. Qed.
Lemma hF_per m x : hF m (x + PI) = hF m x. Proof. unfold hF. now rewrite dl_per. Qed.
Lemma hE_per m x : hE m (x + PI) = hE m x. Proof. unfold hE. now rewrite dl_per. Qed.
Lemma hP_per n m x : hP n m (x + PI) = hP n m x. Proof. unfold hP. now rewrite !dl_per. Qed.

Lemma ellF_prim m phi : ellF phi m = prim (hF m) phi. Proof. reflexivity. Qed.
Lemma ellE_prim m phi : ellE phi m = prim (hE m) phi. Proof. reflexivity. Qed.
Lemma ellPi_prim n m phi : ellPi n phi m = prim (hP n m) phi. Proof. reflexivity. Qed.

Lemma ellF_derive m phi : m < 1 -> is_derive (fun p => ellF p m) phi (hF m phi).
Proof. intros. apply (prim_derive (hF m)). intros; now apply hF_cont. Qed.
Lemma ellE_derive m phi : m < 1 -> is_derive (fun p => ellE p m) phi (hE m phi).
Proof. intros. apply (prim_derive (hE m)). intros; now apply hE_cont. Qed.
Lemma ellPi_derive n m phi : n < 1 -> m < 1 -> is_derive (fun p => ellPi n p m) phi (hP n m phi).
Proof. intros. apply (prim_derive (hP n m)). intros; now apply hP_cont. Qed.

(** ** the amplitude *)
Definition cF (m : R) : R := / sqrt (1 + Rabs m).
Lemma cF_pos m : 0 < cF m.
Proof. apply Rinv_0_lt_compat, sqrt_lt_R0. pose proof (Rabs_pos m). lra. Qed.
Lemma hF_lower m t : m < 1 -> cF m <= hF m t.
Proof.
  intros H. unfold cF, hF. apply Rinv_le_contravar; [now apply sqrt_dl_pos|].
  apply sqrt_le_1_alt. unfold dl. pose proof (sin2_bound t).
  assert (- m * sin t ^ 2 <= Rabs m).
  { destruct (Rle_dec 0 m); [rewrite Rabs_pos_eq by assumption; nra|].
    rewrite Rabs_left by lra. nra. } lra.
Qed.
Lemma hF_pos m t : m < 1 -> 0 < hF m t.
Proof. intros. apply Rlt_le_trans with (cF m); [apply cF_pos | now apply hF_lower]. Qed.

(* functions with derivative >= c > 0 *)
Section Increasing.
Context (F f : R -> R) (c : R) (HF : forall x, is_derive F x (f x)) (Hc : 0 < c) (Hf : forall x, c <= f x).
Lemma expand_le x y : x <= y -> c * (y - x) <= F y - F x.
Proof.
  intros H. destruct (Req_dec x y) as [->|Hne]; [lra|].
  destruct (MVT_gen F x y f) as [z [Hz E]].
  - intros; apply HF.
  - intros z _. apply continuity_pt_filterlim. apply (ex_derive_continuous (V := R_NormedModule)). eexists; apply HF.
  - rewrite E. apply Rmult_le_compat_r; [lra | apply Hf].
Qed.
Lemma expand_lt x y : x < y -> F x < F y.
Proof. intros H. pose proof (expand_le x y ltac:(lra)). assert (0 < c * (y - x)) by (apply Rmult_lt_0_compat; lra). lra. Qed.
Lemma expand_inj x y : F x = F y -> x = y.
Proof. intros H. destruct (Rtotal_order x y) as [K|[K|K]]; auto; apply expand_lt in K; lra. Qed.
Lemma expand_le_iff x y : x <= y <-> F x <= F y.
Proof.
  split; intros H.
  - destruct (Req_dec x y) as [->|]; [lra|]. left. apply expand_lt. lra.
  - destruct (Rle_dec x y); [assumption|]. pose proof (expand_lt y x ltac:(lra)). lra.
Qed.
Lemma expand_surj u : exists x, F x = u.
Proof.
  set (M := (Rabs (u - F 0) + 1) / c).
  assert (0 < M). { apply Rdiv_lt_0_compat; [pose proof (Rabs_pos (u - F 0)); lra | assumption]. }
  assert (CM : c * M = Rabs (u - F 0) + 1) by (unfold M; field; lra).
  destruct (IVT_gen F (-M) M u) as [x [_ Hx]].
  - intros x. apply continuity_pt_filterlim. apply (ex_derive_continuous (V := R_NormedModule)). eexists; apply HF.
  - pose proof (expand_le (-M) 0 ltac:(lra)). pose proof (expand_le 0 M ltac:(lra)).
    pose proof (Rle_abs (u - F 0)). pose proof (Rle_abs (-(u - F 0))). rewrite Rabs_Ropp in *.
    rewrite Rmin_left, Rmax_right by lra. lra.
  - eauto.
Qed.
Lemma inverse_lipschitz g : (forall u, F (g u) = u) -> forall u v, Rabs (g u - g v) <= Rabs (u - v) / c.
Proof.
  intros Hg u v. apply Rle_div_r; [assumption|].
  destruct (Rle_dec (g u) (g v)) as [K|K].
  - pose proof (expand_le _ _ K) as E. rewrite !Hg in E.
    rewrite (Rabs_left1 (g u - g v)) by lra. rewrite Rabs_left1; [lra|].
    assert (0 <= c * (g v - g u)) by (apply Rmult_le_pos; lra). lra.
  - pose proof (expand_le (g v) (g u) ltac:(lra)) as E. rewrite !Hg in E.
    rewrite (Rabs_pos_eq (g u - g v)) by lra. rewrite Rabs_pos_eq; [lra|].
    assert (0 <= c * (g u - g v)) by (apply Rmult_le_pos; lra). lra.
Qed.
Lemma inverse_derive g : (forall u, F (g u) = u) -> forall u, is_derive g u (/ f (g u)).
Proof.
  intros Hg u. apply is_derive_Reals. intros eps Heps.
  assert (Hfu : 0 < f (g u)) by (apply Rlt_le_trans with c; auto).
  (* |F(y)-F(x) - f(x)(y-x)| <= eta |y-x| near x = g u *)
  set (eta := eps * c * f (g u)).
  assert (Heta : 0 < eta) by (unfold eta; repeat apply Rmult_lt_0_compat; assumption).
  pose proof (proj1 (is_derive_Reals F (g u) (f (g u))) (HF (g u)) (eta / 2) ltac:(lra)) as [del Hdel].
  assert (Hd : 0 < del * c) by (apply Rmult_lt_0_compat; [apply cond_pos | assumption]).
  exists (mkposreal _ Hd). intros k Hk Hkd. simpl in Hkd.
  set (d := g (u + k) - g u).
  assert (Hd1 : Rabs d <= Rabs k / c).
  { unfold d. pose proof (inverse_lipschitz g Hg (u + k) u) as L. replace (u + k - u) with k in L by ring. exact L. }
  assert (Hd0 : d <> 0).
  { intros K. apply Hk. assert (g (u + k) = g u) by (unfold d in K; lra).
    pose proof (Hg (u + k)) as E1. rewrite H, Hg in E1. lra. }
  assert (Hd2 : Rabs d < del).
  { apply Rle_lt_trans with (1 := Hd1). apply Rlt_div_l; assumption. }
  specialize (Hdel d Hd0 Hd2).
  replace (g u + d) with (g (u + k)) in Hdel by (unfold d; ring). rewrite !Hg in Hdel.
  replace (u + k - u) with k in Hdel by ring.
  (* k/d within eta/2 of f; so d/k - 1/f = (f - k/d) d/(k f) *)
  fold d. replace (d / k - / f (g u)) with (- ((k / d - f (g u)) * (d / k) * / f (g u))) by (field; repeat split; lra).
  rewrite Rabs_Ropp, !Rabs_mult, (Rabs_pos_eq (/ f (g u))) by (left; now apply Rinv_0_lt_compat).
  assert (Hdk : Rabs (d / k) <= / c).
  { unfold Rdiv. rewrite Rabs_mult, Rabs_inv. apply (Rmult_le_reg_r (Rabs k)); [now apply Rabs_pos_lt|].
    rewrite Rmult_assoc, Rinv_l, Rmult_1_r by (now apply Rabs_no_R0). unfold Rdiv in Hd1. lra. }
  apply Rle_lt_trans with (eta / 2 * / c * / f (g u)).
  - apply Rmult_le_compat_r; [left; now apply Rinv_0_lt_compat|].
    apply Rmult_le_compat; try apply Rabs_pos; [lra | assumption].
  - unfold eta. replace (eps * c * f (g u) / 2 * / c * / f (g u)) with (eps / 2) by (field; lra). lra.
Qed.
End Increasing.

Lemma ellF_surj m u : m < 1 -> exists p, ellF p m = u.
Proof.
  intros H. apply (expand_surj (fun p => ellF p m) (hF m) (cF m)).
  - intros; now apply ellF_derive.
  - apply cF_pos.
  - intros; now apply hF_lower.
Qed.
Lemma ellF_inj m p q : m < 1 -> ellF p m = ellF q m -> p = q.
Proof.
  intros H. apply (expand_inj (fun p => ellF p m) (hF m) (cF m)).
  - intros; now apply ellF_derive.
  - apply cF_pos.
  - intros; now apply hF_lower.
Qed.
Lemma ellF_lt m p q : m < 1 -> p < q -> ellF p m < ellF q m.
Proof.
  intros H. apply (expand_lt (fun p => ellF p m) (hF m) (cF m)).
  - intros; now apply ellF_derive.
  - apply cF_pos.
  - intros; now apply hF_lower.
Qed.
Lemma ellF_0 m : ellF 0 m = 0. Proof. apply prim_0. Qed.
Lemma ellE_0 m : ellE 0 m = 0. Proof. apply prim_0. Qed.
Lemma ellPi_0 n m : ellPi n 0 m = 0. Proof. apply prim_0. Qed.
Lemma ellK_pos m : m < 1 -> 0 < ellK m.
Proof. intros. unfold ellK. rewrite <- (ellF_0 m). apply ellF_lt; [assumption|]. pose proof PI_RGT_0. lra. Qed.
Lemma ellF_shift m p k : m < 1 -> ellF (p + IZR k * PI) m = ellF p m + IZR k * (2 * ellK m).
Proof.
  intros. rewrite !ellF_prim. unfold ellK. rewrite ellF_prim, <- prim_PI.
  - apply prim_shift_Z.
    + intros; now apply hF_cont.
    + apply hF_per.
  - intros; now apply hF_cont.
  - apply hF_ev.
  - apply hF_per.
Qed.
Lemma ellE_shift m p k : m < 1 -> ellE (p + IZR k * PI) m = ellE p m + IZR k * (2 * ellE (PI / 2) m).
Proof.
  intros. rewrite !ellE_prim. rewrite <- prim_PI.
  - apply prim_shift_Z.
    + intros; now apply hE_cont.
    + apply hE_per.
  - intros; now apply hE_cont.
  - apply hE_ev.
  - apply hE_per.
Qed.
Lemma ellPi_shift n m p k : n < 1 -> m < 1 -> ellPi n (p + IZR k * PI) m = ellPi n p m + IZR k * (2 * ellPi n (PI / 2) m).
Proof.
  intros. rewrite !ellPi_prim. rewrite <- prim_PI.
  - apply prim_shift_Z.
    + intros; now apply hP_cont.
    + apply hP_per.
  - intros; now apply hP_cont.
  - apply hP_ev.
  - apply hP_per.
Qed.

(** * C112: Schwarzschild orbits: energy, angular momentum and periapsis advance are monotonic; closed orbits are unique *)
From Coq Require Import Reals Lra Lia ZArith String List.
From Coquelicot Require Import Coquelicot.
From Verif Require Import Num Outcome External Checked ExternalSpec Spec SpecElliptic Elliptic.
From Verif Require Import Model_Constants Model_Frequencies Model_Stable P_Validation Props_Validation P_Bounds P_Constants Props_Constants Props_Separatrix.
From Verif Require Import Props_Stability Props_Frequencies Props_Schwarzschild Props_Precession P_SepIncl Props_ResExist.
Open Scope R_scope.

(** ** elliptic integrals *)
Definition hh (u e t : R) : R := / sqrt (u - 4 * e * sin t ^2).
Lemma s2 t : 0 <= sin t ^2 <= 1.
Proof. pose proof (pow2_ge_0 (sin t)). pose proof (sin2_cos2 t) as W. unfold Rsqr in W. pose proof (pow2_ge_0 (cos t)). lra. Qed.
Lemma hh_pos u e t : 0 <= e -> 4 * e < u -> 0 < u - 4 * e * sin t ^2.
Proof. intros E U. pose proof (s2 t). nra. Qed.
Lemma hh_cont u e t : 0 <= e -> 4 * e < u -> continuous (hh u e) t.
Proof.
  intros E U. pose proof (hh_pos u e t E U). apply (ex_derive_continuous (V := R_NormedModule)). unfold hh.
  auto_derive. replace (u + - (4 * e * (sin t * (sin t * 1)))) with (u - 4 * e * sin t ^2) by ring.
  refine (conj _ (conj _ I)); [assumption | now apply Rgt_not_eq, sqrt_lt_R0].
Qed.
Lemma hh_int u e a b : 0 <= e -> 4 * e < u -> ex_RInt (hh u e) a b.
Proof. intros E U. apply (ex_RInt_continuous (V := R_CompleteNormedModule)). intros t _. apply hh_cont; assumption. Qed.
Lemma K_hh u e : 0 <= e -> 4 * e < u -> ellK (4 * e / u) = sqrt u * RInt (hh u e) 0 (PI / 2).
Proof.
  intros E U. pose proof (RInt_scal (V := R_CompleteNormedModule) (hh u e) 0 (PI / 2) (sqrt u) (hh_int u e 0 (PI / 2) E U)) as SC.
  refine (eq_trans _ SC). clear SC.
  unfold ellK, ellF. apply RInt_ext. intros t _. unfold hh, scal; simpl; unfold mult; simpl.
  pose proof (hh_pos u e t E U) as H. replace (1 - 4 * e / u * (sin t * (sin t * 1))) with ((u - 4 * e * sin t ^2) / u) by (field; lra).
  rewrite sqrt_div by lra. assert (0 < sqrt u) by (apply sqrt_lt_R0; lra). assert (0 < sqrt (u - 4 * e * sin t ^2)) by (apply sqrt_lt_R0; exact H).
  match goal with |- ?u = ?v => change (@eq R u v) end. simpl. change (sin t * (sin t * 1)) with (sin t ^2). field. split; lra.
Qed.
(** folding the quarter period in two *)
Definition gg (P e t : R) : R := / sqrt (P + 2 * e * cos (2 * t)) + / sqrt (P - 2 * e * cos (2 * t)).
Lemma hh_fold P e : 0 <= e -> 2 * e < P -> RInt (hh (P + 2 * e) e) 0 (PI / 2) = RInt (gg P e) 0 (PI / 4).
Proof.
  intros E U. assert (U' : 4 * e < P + 2 * e) by lra. pose proof PI_RGT_0 as PP.
  rewrite <- (RInt_Chasles (V := R_CompleteNormedModule) (hh (P + 2 * e) e) 0 (PI / 4) (PI / 2)) by (apply hh_int; assumption).
  assert (SW : RInt (hh (P + 2 * e) e) (PI / 4) (PI / 2) = RInt (fun t => hh (P + 2 * e) e (PI / 2 - t)) 0 (PI / 4)).
  { pose proof (RInt_comp_lin (hh (P + 2 * e) e) (-1) (PI / 2) 0 (PI / 4)) as C.
    replace (-1 * 0 + PI / 2) with (PI / 2) in C by ring. replace (-1 * (PI / 4) + PI / 2) with (PI / 4) in C by field.
    specialize (C (hh_int _ _ _ _ E U')).
    pose proof (opp_RInt_swap (V := R_CompleteNormedModule) (hh (P + 2 * e) e) (PI / 4) (PI / 2) (hh_int _ _ _ _ E U')) as OS.
    assert (GI : ex_RInt (fun t => hh (P + 2 * e) e (-1 * t + PI / 2)) 0 (PI / 4)).
    { apply (ex_RInt_continuous (V := R_CompleteNormedModule)). intros t _. apply (continuous_comp (fun t => -1 * t + PI / 2)); [|apply hh_cont; assumption].
      apply (ex_derive_continuous (V := R_NormedModule)). auto_derive. exact I. }
    pose proof (RInt_scal (V := R_CompleteNormedModule) (fun t => hh (P + 2 * e) e (-1 * t + PI / 2)) 0 (PI / 4) (-1) GI) as SC.
    rewrite (RInt_ext (fun t => hh (P + 2 * e) e (PI / 2 - t)) (fun t => hh (P + 2 * e) e (-1 * t + PI / 2))) by (intros t _; f_equal; ring).
    pose proof (eq_trans (eq_sym SC) C) as SC'. clear SC C. unfold opp in OS; simpl in OS. unfold scal in SC'; simpl in SC'; unfold mult in SC'; simpl in SC'.
    set (A := RInt (hh (P + 2 * e) e) (PI / 4) (PI / 2)) in *. set (B := RInt (hh (P + 2 * e) e) (PI / 2) (PI / 4)) in *.
    set (D := RInt (fun t => hh (P + 2 * e) e (-1 * t + PI / 2)) 0 (PI / 4)) in *. clearbody A B D. clear - OS SC'.
    change (@eq R (- A) B) in OS. change (@eq R (-1 * D) B) in SC'. change (@eq R A D). lra. }
  rewrite SW. rewrite <- (RInt_plus (V := R_CompleteNormedModule)); [|apply hh_int; assumption|].
  2:{ apply (ex_RInt_continuous (V := R_CompleteNormedModule)). intros t _. apply (continuous_comp (fun t => PI / 2 - t)); [|apply hh_cont; assumption].
      apply (ex_derive_continuous (V := R_NormedModule)). auto_derive. exact I. }
  apply RInt_ext. intros t _. unfold plus; simpl. unfold gg, hh. rewrite sin_shift.
  replace (P + 2 * e - 4 * e * sin t ^2) with (P + 2 * e * cos (2 * t)) by (rewrite cos_2a_sin; ring).
  replace (P + 2 * e - 4 * e * cos t ^2) with (P - 2 * e * cos (2 * t)) by (rewrite cos_2a_cos; ring). reflexivity.
Qed.
Lemma gg_cont P e t : 0 <= e -> 2 * e < P -> continuous (gg P e) t.
Proof.
  intros E U. pose proof (COS_bound (2 * t)) as (C1 & C2). apply (ex_derive_continuous (V := R_NormedModule)). unfold gg.
  assert (A : 0 < P + 2 * e * cos (2 * t)) by nra. assert (B : 0 < P - 2 * e * cos (2 * t)) by nra.
  auto_derive. change (P + - (2 * e * cos (2 * t))) with (P - 2 * e * cos (2 * t)).
  repeat split; try assumption; now apply Rgt_not_eq, sqrt_lt_R0.
Qed.
(** 1/sqrt(P+w) + 1/sqrt(P-w) grows with w *)
Lemma pair_sq P w : 0 <= w -> w < P -> (/ sqrt (P + w) + / sqrt (P - w)) ^2 = 2 * P / (P ^2 - w ^2) + 2 / sqrt (P ^2 - w ^2).
Proof.
  intros W WP. assert (S1 : 0 < sqrt (P + w)) by (apply sqrt_lt_R0; lra). assert (S2 : 0 < sqrt (P - w)) by (apply sqrt_lt_R0; lra).
  pose proof (sqrt_sqrt (P + w) ltac:(lra)) as Q1. pose proof (sqrt_sqrt (P - w) ltac:(lra)) as Q2.
  replace (P ^2 - w ^2) with ((P + w) * (P - w)) by ring. rewrite sqrt_mult by lra.
  set (s := sqrt (P + w)) in *. set (t := sqrt (P - w)) in *. clearbody s t. rewrite <- Q1, <- Q2.
  replace P with ((s * s + t * t) / 2) by lra. field. split; lra.
Qed.
Lemma pair_grows P w w' : 0 <= w -> w < w' -> w' < P -> / sqrt (P + w) + / sqrt (P - w) < / sqrt (P + w') + / sqrt (P - w').
Proof.
  intros W WW WP. assert (S1 : 0 < / sqrt (P + w')) by (apply Rinv_0_lt_compat, sqrt_lt_R0; lra). assert (S2 : 0 < / sqrt (P - w')) by (apply Rinv_0_lt_compat, sqrt_lt_R0; lra).
  apply Rnot_le_lt. intros C. assert (C2 : (/ sqrt (P + w') + / sqrt (P - w')) ^2 <= (/ sqrt (P + w) + / sqrt (P - w)) ^2) by (apply pow_incr; lra).
  rewrite !pair_sq in C2 by lra.
  assert (D : 0 < P ^2 - w' ^2) by nra. assert (D' : P ^2 - w' ^2 < P ^2 - w ^2) by nra.
  assert (G1 : / (P ^2 - w ^2) < / (P ^2 - w' ^2)) by (apply Rinv_lt_contravar; nra).
  assert (G2 : / sqrt (P ^2 - w ^2) < / sqrt (P ^2 - w' ^2)).
  { assert (0 < sqrt (P ^2 - w' ^2)) by (now apply sqrt_lt_R0). assert (sqrt (P ^2 - w' ^2) < sqrt (P ^2 - w ^2)) by (apply sqrt_lt_1; lra).
    apply Rinv_lt_contravar; nra. }
  unfold Rdiv in C2. nra.
Qed.

(** ** C112: how energy and angular momentum depend on size and shape *)
Section S.
Context {X : External R} (HX : special_spec X) (HR : root_spec X).
Lemma schw_accepted : forall p e x E L Q, constants_of_motion (Some 0) (Some p) (Some e) (Some x) = Ret (Some E, Some L, Some Q) ->
  0 <= e <= 1 /\ -1 <= x <= 1 /\ 6 + 2 * e < p.
Proof.
  intros p e x E L Q HC. assert (Ha : 0 <= 0) by lra. destruct (constants_inv _ _ _ _ _ _ _ Ha HC) as [HCK _].
  destruct (accepted_bounds HR 0 p e x Ha HCK) as (_ & He & Hx & Hr2 & HD & _ & HP). auto.
Qed.
Lemma schw_values : forall p e x E L Q, constants_of_motion (Some 0) (Some p) (Some e) (Some x) = Ret (Some E, Some L, Some Q) ->
  E = sqrt (((p - 2)^2 - 4 * e^2) / (p * (p - 3 - e^2))) /\ L = x * p / sqrt (p - 3 - e^2) /\ Q = (1 - x^2) * (p^2 / (p - 3 - e^2)).
Proof.
  intros p e x E L Q HC. destruct (schw_accepted _ _ _ _ _ _ HC) as (He & Hx & Hp).
  rewrite (C12_schwarzschild p e x Hp He Hx) in HC. apply Ret_inj in HC. repeat split; congruence.
Qed.
Lemma frac_lt a b c d : 0 < b -> 0 < d -> a * d < c * b -> a / b < c / d.
Proof. intros B D H. apply (Rmult_lt_reg_r (b * d)); [nra|]. replace (a / b * (b * d)) with (a * d) by (field; lra). replace (c / d * (b * d)) with (c * b) by (field; lra). exact H. Qed.
(** what the comparison of two orbits comes down to: E^2 and (L^2 + Q) *)
Lemma schw_compare p e x E L Q p' e' E' L' Q' :
  constants_of_motion (Some 0) (Some p) (Some e) (Some x) = Ret (Some E, Some L, Some Q) ->
  constants_of_motion (Some 0) (Some p') (Some e') (Some x) = Ret (Some E', Some L', Some Q') ->
  (((p - 2)^2 - 4 * e^2) * (p' * (p' - 3 - e'^2)) < ((p' - 2)^2 - 4 * e'^2) * (p * (p - 3 - e^2)) -> E < E') /\
  (p^2 * (p' - 3 - e'^2) < p'^2 * (p - 3 - e^2) -> (x <> 0 -> Rabs L < Rabs L') /\ (x^2 < 1 -> Q < Q')).
Proof.
  intros HC HC'. destruct (schw_accepted _ _ _ _ _ _ HC) as (He & Hx & Hp). destruct (schw_accepted _ _ _ _ _ _ HC') as (He' & _ & Hp').
  destruct (schw_values _ _ _ _ _ _ HC) as (-> & -> & ->). destruct (schw_values _ _ _ _ _ _ HC') as (-> & -> & ->).
  assert (Z : 0 < p - 3 - e^2) by (clear - He Hp; nra). assert (Z' : 0 < p' - 3 - e'^2) by (clear - He' Hp'; nra).
  assert (N : 0 <= (p - 2)^2 - 4 * e^2) by (clear - He Hp; nra).
  split.
  - intros H. apply sqrt_lt_1_alt. split; [apply Rdiv_le_0_compat; [exact N | apply Rmult_lt_0_compat; lra] |].
    apply frac_lt; [apply Rmult_lt_0_compat; lra | apply Rmult_lt_0_compat; lra | exact H].
  - intros H. pose proof (frac_lt _ _ _ _ Z Z' H) as F. split.
    + intros X0. assert (S1 : 0 < sqrt (p - 3 - e^2)) by now apply sqrt_lt_R0. assert (S2 : 0 < sqrt (p' - 3 - e'^2)) by now apply sqrt_lt_R0.
      unfold Rdiv. rewrite !Rmult_assoc, (Rabs_mult x), (Rabs_mult x). apply Rmult_lt_compat_l; [now apply Rabs_pos_lt|].
      assert (A1 : 0 < p * / sqrt (p - 3 - e^2)) by (apply Rmult_lt_0_compat; [lra | now apply Rinv_0_lt_compat]).
      assert (A2 : 0 < p' * / sqrt (p' - 3 - e'^2)) by (apply Rmult_lt_0_compat; [lra | now apply Rinv_0_lt_compat]).
      rewrite !Rabs_pos_eq by lra. apply Rnot_le_lt. intros C. apply (fun Q => pow_incr _ _ 2 (conj (Rlt_le _ _ A2) Q)) in C.
      rewrite !Rpow_mult_distr, !pow_inv, !pow2_sqrt in C by lra. unfold Rdiv in F. lra.
    + intros X1. apply Rmult_lt_compat_l; [lra | exact F].
Qed.


(** a wider orbit of the same shape has more energy (unless it is parabolic) and more angular momentum *)
Theorem C112_wider_orbits p p' e x E L Q E' L' Q' :
  constants_of_motion (Some 0) (Some p) (Some e) (Some x) = Ret (Some E, Some L, Some Q) ->
  constants_of_motion (Some 0) (Some p') (Some e) (Some x) = Ret (Some E', Some L', Some Q') -> p < p' ->
  (e < 1 -> E < E') /\ (x <> 0 -> Rabs L < Rabs L') /\ (x^2 < 1 -> Q < Q').
Proof.
  intros HC HC' P. destruct (schw_accepted _ _ _ _ _ _ HC) as (He & Hx & Hp).
  destruct (schw_compare _ _ _ _ _ _ _ _ _ _ _ HC HC') as (C1 & C2). split.
  - intros e1. apply C1. assert (D : 0 < (1 - e^2) * ((p' - p) * ((p - 4) * (p' - 4) - 4 * (1 - e^2)))).
    { apply Rmult_lt_0_compat; [clear - He e1; nra|]. apply Rmult_lt_0_compat; [lra|].
      assert (2 < p - 4) by lra. assert (2 < p' - 4) by lra. set (u := p - 4) in *. set (v := p' - 4) in *. pose proof (pow2_ge_0 e). nra. }
    apply Rminus_gt_0_lt. match goal with |- 0 < ?g => replace g with ((1 - e^2) * ((p' - p) * ((p - 4) * (p' - 4) - 4 * (1 - e^2)))) by ring end. exact D.
  - apply C2. apply Rminus_gt_0_lt.
    replace (p' ^ 2 * (p - 3 - e ^ 2) - p ^ 2 * (p' - 3 - e ^ 2)) with ((p' - p) * (p * p' - (3 + e^2) * (p + p'))) by ring.
    apply Rmult_lt_0_compat; [lra|]. pose proof (pow2_ge_0 e). assert (e^2 <= e) by (clear - He; nra).
    assert (0 < (p - 2 * (3 + e^2)) * p') by (apply Rmult_lt_0_compat; lra). assert (0 < (p' - 2 * (3 + e^2)) * p) by (apply Rmult_lt_0_compat; lra). lra.
Qed.
(** a more eccentric orbit with the same semi-latus rectum has more energy and more angular momentum *)
Theorem C112_more_eccentric_orbits p e e' x E L Q E' L' Q' :
  constants_of_motion (Some 0) (Some p) (Some e) (Some x) = Ret (Some E, Some L, Some Q) ->
  constants_of_motion (Some 0) (Some p) (Some e') (Some x) = Ret (Some E', Some L', Some Q') -> e < e' ->
  E < E' /\ (x <> 0 -> Rabs L < Rabs L') /\ (x^2 < 1 -> Q < Q').
Proof.
  intros HC HC' P. destruct (schw_accepted _ _ _ _ _ _ HC) as (He & Hx & Hp).
  destruct (schw_compare _ _ _ _ _ _ _ _ _ _ _ HC HC') as (C1 & C2). assert (S : 0 < e'^2 - e^2) by (clear - He P; nra). split.
  - apply C1. apply Rminus_gt_0_lt. match goal with |- 0 < ?g => replace g with (p * ((e'^2 - e^2) * (p - 4)^2)) by ring end.
    apply Rmult_lt_0_compat; [lra|]. apply Rmult_lt_0_compat; [exact S | apply pow_lt; lra].
  - apply C2. apply Rmult_lt_compat_l; [apply pow_lt; lra | lra].
Qed.

(** ** the periapsis advance *)
Definition mm (p e t : R) : R := / sqrt (1 - (6 - 2 * e * cos (2 * t)) / p).

Theorem C112_advance_integral p e x ur uth uph gam :
  mino_frequencies (Some 0) (Some p) (Some e) (Some x) = Ret (Some ur, Some uth, Some uph, Some gam) ->
  uth / ur = 2 / PI * RInt (fun chi => 1 / sqrt (1 - (6 - 2 * e * cos (2 * chi)) / p)) 0 (PI / 2).
Proof.
  intros HF. destruct (C70_schwarzschild_frequencies HX HR _ _ _ _ _ _ _ HF) as (He & Hp & Hm & Ut & _ & _ & Ur & _).
  pose proof PI_RGT_0 as PI0. set (u := p - 6 + 2 * e) in *. assert (U : 4 * e < u) by (unfold u; lra). assert (U0 : 0 < u) by lra.
  assert (E0 : 0 <= e) by lra.
  assert (Z : 0 < p - 3 - e^2) by (clear - He Hp; nra).
  rewrite (K_hh u e E0 U) in Ur.
  assert (IP : 0 < RInt (hh u e) 0 (PI / 2)).
  { apply RInt_gt_0; [lra | intros t _; unfold hh; apply Rinv_0_lt_compat, sqrt_lt_R0, hh_pos; assumption |].
    intros t _. apply hh_cont; assumption. }
  assert (MI : RInt (fun chi => 1 / sqrt (1 - (6 - 2 * e * cos (2 * chi)) / p)) 0 (PI / 2) = sqrt p * RInt (hh u e) 0 (PI / 2)).
  { pose proof (RInt_scal (V := R_CompleteNormedModule) (hh u e) 0 (PI / 2) (sqrt p) (hh_int u e 0 (PI / 2) E0 U)) as SC.
    refine (eq_trans _ SC). clear SC. apply RInt_ext. intros t _. unfold hh, scal; simpl; unfold mult; simpl.
    change (sin t * (sin t * 1)) with (sin t ^2). pose proof (hh_pos u e t E0 U) as H.
    replace (1 - (6 - 2 * e * cos (2 * t)) / p) with ((u - 4 * e * sin t ^2) / p) by (rewrite cos_2a_sin; unfold u; field; lra).
    rewrite sqrt_div by lra. assert (0 < sqrt p) by (apply sqrt_lt_R0; lra). assert (0 < sqrt (u - 4 * e * sin t ^2)) by (apply sqrt_lt_R0; exact H).
    match goal with |- ?u = ?v => change (@eq R u v) end. field. split; lra. }
  rewrite MI. rewrite Ur, Ut. rewrite sqrt_div, sqrt_mult by (first [lra | apply Rmult_le_pos; lra]).
  assert (S1 : 0 < sqrt p) by (apply sqrt_lt_R0; lra). assert (S2 : 0 < sqrt u) by (now apply sqrt_lt_R0). assert (S3 : 0 < sqrt (p - 3 - e^2)) by (now apply sqrt_lt_R0).
  rewrite <- (sqrt_sqrt p) at 1 by lra. field. repeat split; lra.
Qed.

(** the same integral folded onto (0, PI/4), where it visibly grows with the eccentricity *)
Lemma advance_folded p e x ur uth uph gam :
  mino_frequencies (Some 0) (Some p) (Some e) (Some x) = Ret (Some ur, Some uth, Some uph, Some gam) ->
  0 <= e /\ 6 + 2 * e < p /\ uth / ur = 2 / PI * (sqrt p * RInt (hh (p - 6 + 2 * e) e) 0 (PI / 2)) /\
  uth / ur = 2 / PI * (sqrt p * RInt (gg (p - 6) e) 0 (PI / 4)).
Proof.
  intros HF. destruct (C70_schwarzschild_frequencies HX HR _ _ _ _ _ _ _ HF) as (He & Hp & Hm & Ut & _ & _ & Ur & _).
  pose proof PI_RGT_0 as PI0. set (u := p - 6 + 2 * e) in *. assert (U : 4 * e < u) by (unfold u; lra). assert (U0 : 0 < u) by lra.
  assert (E0 : 0 <= e) by lra. assert (Z : 0 < p - 3 - e^2) by (clear - He Hp; nra).
  rewrite (K_hh u e E0 U) in Ur.
  assert (IP : 0 < RInt (hh u e) 0 (PI / 2)).
  { apply RInt_gt_0; [lra | intros t _; unfold hh; apply Rinv_0_lt_compat, sqrt_lt_R0, hh_pos; assumption |].
    intros t _. apply hh_cont; assumption. }
  assert (M : uth / ur = 2 / PI * (sqrt p * RInt (hh u e) 0 (PI / 2))).
  { rewrite Ur, Ut. rewrite sqrt_div, sqrt_mult by (first [lra | apply Rmult_le_pos; lra]).
    assert (S1 : 0 < sqrt p) by (apply sqrt_lt_R0; lra). assert (S2 : 0 < sqrt u) by (now apply sqrt_lt_R0). assert (S3 : 0 < sqrt (p - 3 - e^2)) by (now apply sqrt_lt_R0).
    pose proof (sqrt_sqrt p ltac:(lra)) as SP. set (I0 := RInt (hh u e) 0 (PI / 2)) in *. set (q := sqrt p) in *. set (z := sqrt (p - 3 - e^2)) in *. set (y := sqrt u) in *. clearbody q z y I0. rewrite <- SP. field. repeat split; lra. }
  refine (conj E0 (conj Hp (conj M _))). rewrite M. do 2 f_equal.
  replace u with (p - 6 + 2 * e) by reflexivity. apply hh_fold; lra.
Qed.

(** the further out, the less it precesses *)
Theorem C112_advance_shrinks_with_p p p' e x x' ur uth uph gam ur' uth' uph' gam' :
  mino_frequencies (Some 0) (Some p) (Some e) (Some x) = Ret (Some ur, Some uth, Some uph, Some gam) ->
  mino_frequencies (Some 0) (Some p') (Some e) (Some x') = Ret (Some ur', Some uth', Some uph', Some gam') ->
  p < p' -> uth' / ur' < uth / ur.
Proof.
  intros H H' P. destruct (advance_folded _ _ _ _ _ _ _ H) as (E0 & Hp & M & _). destruct (advance_folded _ _ _ _ _ _ _ H') as (_ & Hp' & M' & _).
  rewrite M, M'. pose proof PI_RGT_0 as PI0. apply Rmult_lt_compat_l; [apply Rdiv_lt_0_compat; lra|].
  assert (U : 4 * e < p - 6 + 2 * e) by lra. assert (U' : 4 * e < p' - 6 + 2 * e) by lra.
  pose proof (RInt_scal (V := R_CompleteNormedModule) (hh (p - 6 + 2 * e) e) 0 (PI / 2) (sqrt p) (hh_int _ e 0 (PI / 2) E0 U)) as SC.
  pose proof (RInt_scal (V := R_CompleteNormedModule) (hh (p' - 6 + 2 * e) e) 0 (PI / 2) (sqrt p') (hh_int _ e 0 (PI / 2) E0 U')) as SC'.
  unfold scal in SC, SC'; simpl in SC, SC'; unfold mult in SC, SC'; simpl in SC, SC'. rewrite <- SC, <- SC'.
  apply RInt_lt; [lra | intros t _; apply (continuous_mult (K := R_AbsRing) (fun _ => sqrt p) (hh (p - 6 + 2 * e) e)); [apply continuous_const | apply hh_cont; assumption]
    | intros t _; apply (continuous_mult (K := R_AbsRing) (fun _ => sqrt p') (hh (p' - 6 + 2 * e) e)); [apply continuous_const | apply hh_cont; assumption] |].
  intros t _. pose proof (s2 t) as S2. unfold hh.
  pose proof (hh_pos _ e t E0 U) as A. pose proof (hh_pos _ e t E0 U') as A'.
  assert (S : forall q v, 0 < q -> 0 < v -> sqrt q * / sqrt v = sqrt (q / v)) by (intros; rewrite sqrt_div by lra; reflexivity).
  rewrite !S by lra. apply sqrt_lt_1_alt. split; [apply Rlt_le, Rdiv_lt_0_compat; lra|].
  apply frac_lt; try lra. set (w := 4 * e * sin t ^2) in *. assert (0 <= w <= 4 * e). { unfold w. split; [apply Rmult_le_pos; lra|]. rewrite <- (Rmult_1_r (4 * e)) at 2. apply Rmult_le_compat_l; lra. }
  clearbody w.
  assert (0 < (p' - p) * (6 - 2 * e + w)). { apply Rmult_lt_0_compat; [lra|]. destruct (C70_schwarzschild_frequencies HX HR _ _ _ _ _ _ _ H) as (He & _). lra. }
  nra.
Qed.
(** the more eccentric, the more it precesses *)
Theorem C112_advance_grows_with_e p e e' x x' ur uth uph gam ur' uth' uph' gam' :
  mino_frequencies (Some 0) (Some p) (Some e) (Some x) = Ret (Some ur, Some uth, Some uph, Some gam) ->
  mino_frequencies (Some 0) (Some p) (Some e') (Some x') = Ret (Some ur', Some uth', Some uph', Some gam') ->
  e < e' -> uth / ur < uth' / ur'.
Proof.
  intros H H' P. destruct (advance_folded _ _ _ _ _ _ _ H) as (E0 & Hp & _ & M). destruct (advance_folded _ _ _ _ _ _ _ H') as (_ & Hp' & _ & M').
  rewrite M, M'. pose proof PI_RGT_0 as PI0. apply Rmult_lt_compat_l; [apply Rdiv_lt_0_compat; lra|].
  apply Rmult_lt_compat_l; [apply sqrt_lt_R0; lra|].
  apply RInt_lt; [lra | intros t _; apply gg_cont; lra | intros t _; apply gg_cont; lra |].
  intros t Ht. assert (C : 0 < cos (2 * t)) by (apply cos_gt_0; lra). pose proof (COS_bound (2 * t)) as (_ & C1).
  unfold gg. apply pair_grows; [apply Rmult_le_pos; lra | apply Rmult_lt_compat_r; lra | ].
  apply Rle_lt_trans with (2 * e' * 1); [apply Rmult_le_compat_l; lra | lra].
Qed.
(** the advance lies between that of the circular orbit with the same p and an elementary bound; for e = 0 both bounds agree *)
Theorem C112_advance_bounds p e x ur uth uph gam :
  mino_frequencies (Some 0) (Some p) (Some e) (Some x) = Ret (Some ur, Some uth, Some uph, Some gam) ->
  1 / sqrt (1 - 6 / p) <= uth / ur <= 1 / sqrt (1 - (6 + 2 * e) / p).
Proof.
  intros H. destruct (advance_folded _ _ _ _ _ _ _ H) as (E0 & Hp & M & M'). pose proof PI_RGT_0 as PI0.
  assert (e1 : e < 1) by (destruct (C70_schwarzschild_frequencies HX HR _ _ _ _ _ _ _ H) as (He & _); lra).
  assert (U : 4 * e < p - 6 + 2 * e) by lra. assert (SP : 0 < sqrt p) by (apply sqrt_lt_R0; lra).
  replace (1 - 6 / p) with ((p - 6) / p) by (field; lra). replace (1 - (6 + 2 * e) / p) with ((p - 6 - 2 * e) / p) by (field; lra).
  rewrite !sqrt_div by lra. assert (SA : 0 < sqrt (p - 6)) by (apply sqrt_lt_R0; lra). assert (SB : 0 < sqrt (p - 6 - 2 * e)) by (apply sqrt_lt_R0; lra).
  split.
  - rewrite M'. assert (B : (PI / 4 - 0) * (2 / sqrt (p - 6)) <= RInt (gg (p - 6) e) 0 (PI / 4)).
    { pose proof (RInt_const (V := R_CompleteNormedModule) 0 (PI / 4) (2 / sqrt (p - 6))) as RC. unfold scal in RC; simpl in RC; unfold mult in RC; simpl in RC. rewrite <- RC.
      apply RInt_le; [lra | apply ex_RInt_const | apply (ex_RInt_continuous (V := R_CompleteNormedModule)); intros t _; apply gg_cont; lra |].
      intros t Ht. assert (C : 0 < cos (2 * t)) by (apply cos_gt_0; lra). pose proof (COS_bound (2 * t)) as (_ & C1). unfold gg.
      assert (W0 : 0 <= 2 * e * cos (2 * t)) by (apply Rmult_le_pos; lra).
      assert (W1 : 2 * e * cos (2 * t) < p - 6) by (apply Rle_lt_trans with (2 * e * 1); [apply Rmult_le_compat_l; lra | lra]).
      replace (2 / sqrt (p - 6)) with (/ sqrt (p - 6 + 0) + / sqrt (p - 6 - 0)) by (rewrite Rplus_0_r, Rminus_0_r; field; lra).
      destruct W0 as [W0 | W0]; [apply Rlt_le, pair_grows; lra | rewrite <- W0; lra]. }
    apply Rle_trans with (2 / PI * (sqrt p * ((PI / 4 - 0) * (2 / sqrt (p - 6))))).
    + right. field. split; lra.
    + apply Rmult_le_compat_l; [apply Rlt_le, Rdiv_lt_0_compat; lra|]. apply Rmult_le_compat_l; lra.
  - rewrite M. assert (B : RInt (hh (p - 6 + 2 * e) e) 0 (PI / 2) <= (PI / 2 - 0) * (/ sqrt (p - 6 - 2 * e))).
    { pose proof (RInt_const (V := R_CompleteNormedModule) 0 (PI / 2) (/ sqrt (p - 6 - 2 * e))) as RC. unfold scal in RC; simpl in RC; unfold mult in RC; simpl in RC. rewrite <- RC.
      apply RInt_le; [lra | apply hh_int; assumption | apply ex_RInt_const |]. intros t _. unfold hh. pose proof (s2 t) as S2.
      apply Rinv_le_contravar; [exact SB|]. apply sqrt_le_1_alt. assert (4 * e * sin t ^2 <= 4 * e * 1) by (apply Rmult_le_compat_l; lra). lra. }
    apply Rle_trans with (2 / PI * (sqrt p * ((PI / 2 - 0) * (/ sqrt (p - 6 - 2 * e))))).
    + apply Rmult_le_compat_l; [apply Rlt_le, Rdiv_lt_0_compat; lra|]. apply Rmult_le_compat_l; lra.
    + right. field. split; lra.
Qed.
(** Einstein's formula: 6 pi / p of advance per orbit, up to a term of order 1/p^2 *)
Lemma lin_int p e c : 0 < p -> is_RInt (fun t : R => c - e * cos (2 * t) / p) 0 (PI / 2) (c * (PI / 2)).
Proof.
  intros P. pose proof (is_RInt_derive (V := R_CompleteNormedModule) (fun t : R => c * t - e * sin (2 * t) / (2 * p)) (fun t : R => c - e * cos (2 * t) / p) 0 (PI / 2)) as D.
  replace (c * (PI / 2)) with (minus (c * (PI / 2) - e * sin (2 * (PI / 2)) / (2 * p)) (c * 0 - e * sin (2 * 0) / (2 * p))).
  - apply D; intros t _.
    + auto_derive; [exact I|]. field. lra.
    + apply (ex_derive_continuous (V := R_NormedModule)). auto_derive. exact I.
  - unfold minus, plus, opp; simpl. replace (2 * (PI / 2)) with PI by field. replace (2 * 0) with 0 by ring. rewrite sin_PI, sin_0. field. lra.
Qed.
Theorem C112_einstein_precession p e x ur uth uph gam :
  mino_frequencies (Some 0) (Some p) (Some e) (Some x) = Ret (Some ur, Some uth, Some uph, Some gam) ->
  6 * PI / p <= 2 * PI * (uth / ur - 1) /\ (16 <= p -> 2 * PI * (uth / ur - 1) <= 6 * PI / p + 128 * PI / p^2).
Proof.
  intros H. pose proof (C112_advance_integral _ _ _ _ _ _ _ H) as M. pose proof PI_RGT_0 as PI0.
  destruct (advance_folded _ _ _ _ _ _ _ H) as (E0 & Hp & _ & _).
  assert (e1 : e < 1) by (destruct (C70_schwarzschild_frequencies HX HR _ _ _ _ _ _ _ H) as (He & _); lra).
  assert (P0 : 0 < p) by lra. set (f := fun t : R => 1 / sqrt (1 - (6 - 2 * e * cos (2 * t)) / p)) in *.
  assert (Y : forall t, 0 < (6 - 2 * e * cos (2 * t)) / p < 1 /\ (6 - 2 * e * cos (2 * t)) / p <= 8 / p).
  { intros t. pose proof (COS_bound (2 * t)) as (C1 & C2). assert (B1 : 4 < 6 - 2 * e * cos (2 * t)) by nra. assert (B2 : 6 - 2 * e * cos (2 * t) <= 6 + 2 * e) by nra.
    repeat split; [apply Rdiv_lt_0_compat; lra | | ].
    - apply (Rmult_lt_reg_r p); [lra|]. unfold Rdiv. rewrite Rmult_assoc, Rinv_l, Rmult_1_r, Rmult_1_l by lra. lra.
    - apply Rmult_le_compat_r; [apply Rlt_le, Rinv_0_lt_compat; lra | lra]. }
  assert (FI : ex_RInt f 0 (PI / 2)).
  { apply (ex_RInt_continuous (V := R_CompleteNormedModule)). intros t _. apply (ex_derive_continuous (V := R_NormedModule)). unfold f. destruct (Y t) as ((Y0 & Y1) & _).
    auto_derive. match goal with |- context [sqrt ?u] => replace u with (1 - (6 - 2 * e * cos (2 * t)) / p) by (unfold Rdiv; ring) end.
    repeat split; try lra. apply Rgt_not_eq, sqrt_lt_R0; lra. }
  assert (S : forall t, 1 + (6 - 2 * e * cos (2 * t)) / p / 2 <= f t /\ ((6 - 2 * e * cos (2 * t)) / p <= 1 / 2 -> f t <= 1 + (6 - 2 * e * cos (2 * t)) / p / 2 + ((6 - 2 * e * cos (2 * t)) / p) ^2)).
  { intros t. unfold f. destruct (Y t) as ((Y0 & Y1) & _). set (y := (6 - 2 * e * cos (2 * t)) / p) in *. clearbody y. clear - Y0 Y1.
    assert (S0 : 0 < sqrt (1 - y)) by (apply sqrt_lt_R0; lra). pose proof (sqrt_sqrt (1 - y) ltac:(lra)) as SS. set (q := sqrt (1 - y)) in *. clearbody q. split.
    - apply (Rmult_le_reg_r q); [exact S0|]. replace (1 / q * q) with 1 by (field; lra). replace y with (1 - q * q) by lra. assert (0 <= (q - 1)^2 * (q + 2)) by (apply Rmult_le_pos; [apply pow2_ge_0 | lra]). lra.
    - intros Yh. apply (Rmult_le_reg_r q); [exact S0|]. replace (1 / q * q) with 1 by (field; lra).
      assert (G : 0 <= y^2 * (5 / 4 * (1 - y) - y^3)). { apply Rmult_le_pos; [apply pow2_ge_0|]. assert (y^2 <= 1/4) by nra. assert (y^3 <= 1/8) by nra. lra. }
      apply Rnot_lt_le. intros C. set (b := 1 + y / 2 + y^2) in *. assert (B : 0 < b) by (unfold b; pose proof (pow2_ge_0 y); lra).
      assert (BQ : 0 < b * q) by (now apply Rmult_lt_0_compat).
      assert (H : (b * q) * (b * q) < 1). { clear - BQ C. set (c := b * q) in *. clearbody c. nra. } replace ((b * q) * (b * q)) with (b * b * (1 - y)) in H by (rewrite <- SS; ring).
      replace (b * b * (1 - y)) with (1 + y^2 * (5 / 4 * (1 - y) - y^3)) in H by (unfold b; field). lra. }
  split.
  - assert (B : (1 + 3 / p) * (PI / 2) <= RInt f 0 (PI / 2)).
    { rewrite <- (is_RInt_unique _ _ _ _ (lin_int p e (1 + 3 / p) P0)). apply RInt_le; [lra | eexists; apply lin_int; exact P0 | exact FI |].
      intros t _. destruct (S t) as (S1 & _). replace (1 + 3 / p - e * cos (2 * t) / p) with (1 + (6 - 2 * e * cos (2 * t)) / p / 2) by (field; lra). exact S1. }
    rewrite M. apply Rle_trans with (2 * PI * (2 / PI * ((1 + 3 / p) * (PI / 2)) - 1)); [right; field; split; lra|].
    apply Rmult_le_compat_l; [lra|]. apply Rplus_le_compat_r. apply Rmult_le_compat_l; [apply Rlt_le, Rdiv_lt_0_compat; lra | exact B].
  - intros P16. assert (B : RInt f 0 (PI / 2) <= (1 + 3 / p + 64 / p^2) * (PI / 2)).
    { rewrite <- (is_RInt_unique _ _ _ _ (lin_int p e (1 + 3 / p + 64 / p^2) P0)). apply RInt_le; [lra | exact FI | eexists; apply lin_int; exact P0 |].
      intros t _. destruct (S t) as (_ & S2). destruct (Y t) as ((Y0 & _) & Y8).
      assert (Y2 : 8 / p <= 1 / 2). { apply (Rmult_le_reg_r p); [lra|]. replace (8 / p * p) with 8 by (field; lra). lra. }
      specialize (S2 (Rle_trans _ _ _ Y8 Y2)). set (y := (6 - 2 * e * cos (2 * t)) / p) in *.
      assert (QQ : y^2 <= (8 / p)^2) by (apply pow_incr; lra).
      replace (1 + 3 / p + 64 / p ^ 2 - e * cos (2 * t) / p) with (1 + y / 2 + (8 / p)^2) by (unfold y; field; lra). lra. }
    rewrite M. apply Rle_trans with (2 * PI * (2 / PI * ((1 + 3 / p + 64 / p^2) * (PI / 2)) - 1)); [|right; field; split; lra].
    apply Rmult_le_compat_l; [lra|]. apply Rplus_le_compat_r. apply Rmult_le_compat_l; [apply Rlt_le, Rdiv_lt_0_compat; lra | exact B].
Qed.
(** so the closed orbit of a given shape with a given periapsis advance is unique (C111 shows that it exists) *)
Theorem C112_closed_orbit_unique p p' e x x' ur uth uph gam ur' uth' uph' gam' :
  mino_frequencies (Some 0) (Some p) (Some e) (Some x) = Ret (Some ur, Some uth, Some uph, Some gam) ->
  mino_frequencies (Some 0) (Some p') (Some e) (Some x') = Ret (Some ur', Some uth', Some uph', Some gam') ->
  uth / ur = uth' / ur' -> p = p'.
Proof.
  intros H H' Eq. destruct (Rtotal_order p p') as [C | [C | C]]; [|exact C|].
  - pose proof (C112_advance_shrinks_with_p _ _ _ _ _ _ _ _ _ _ _ _ _ H H' C). lra.
  - pose proof (C112_advance_shrinks_with_p _ _ _ _ _ _ _ _ _ _ _ _ _ H' H C). lra.
Qed.
Lemma C112_premises :
  (exists E L Q E' L' Q', constants_of_motion (Some 0) (Some 10) (Some (1/3)) (Some (1/2)) = Ret (Some E, Some L, Some Q) /\
     constants_of_motion (Some 0) (Some 12) (Some (1/3)) (Some (1/2)) = Ret (Some E', Some L', Some Q')) /\
  (forall p e, 6 + 2 * e < p -> 0 <= e < 1 ->
     exists ur uth uph gam, mino_frequencies (Some 0) (Some p) (Some e) (Some (1/2)) = Ret (Some ur, Some uth, Some uph, Some gam)) /\
  (6 + 2 * (1/3) < 10 /\ 6 + 2 * (1/2) < 10 /\ 6 + 2 * (1/3) < 20).
Proof.
  split; [|split].
  - do 6 eexists. split; apply C12_schwarzschild; lra.
  - intros p e Hp He. pose proof (proj1 (C18_schwarzschild_separatrix e (1/2) 0 ltac:(lra) ltac:(lra))) as Hs.
    apply (freq_defined HX HR 0 e (1/2) (6 + 2 * e) ltac:(lra) He ltac:(lra) ltac:(lra) (or_introl eq_refl) Hs p Hp).
  - lra.
Qed.
End S.

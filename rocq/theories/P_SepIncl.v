(** * Monotonicity of the separatrix function in the inclination (auxiliary for C106) *)
From Coq Require Import Reals Lra Lia.
From Coquelicot Require Import Coquelicot.
From Verif Require Import P_Stability.
Open Scope R_scope.

Definition eta (c t : R) : R := (1 + t) * (c^2 + t) / dd c t.
Definition yy (c q t : R) : R := - eta c t + sqrt (eta c t ^2 + (q - 1) * ((1 + t) / (1 - t)) * eta c t).

Lemma eta_pos c t : dom c t -> 0 < eta c t.
Proof.
  intros H. pose proof (dom_dd c t H) as D. destruct H as (C & T & _). unfold eta. apply Rdiv_lt_0_compat; [|exact D].
  apply Rmult_lt_0_compat; nra.
Qed.
Section Y.
Context (c q t : R) (H : dom c t) (Hq : 1 < q).
Lemma tau_pos : 0 < (1 + t) / (1 - t).
Proof. destruct H as (_ & T & _). apply Rdiv_lt_0_compat; lra. Qed.
Lemma radicand_pos : eta c t ^2 < eta c t ^2 + (q - 1) * ((1 + t) / (1 - t)) * eta c t.
Proof. pose proof tau_pos. pose proof (eta_pos c t H) as e0. assert (0 < (q - 1) * ((1 + t) / (1 - t)) * eta c t) by (apply Rmult_lt_0_compat; [apply Rmult_lt_0_compat; lra | exact e0]). lra. Qed.
Lemma yy_pos : 0 < yy c q t.
Proof.
  unfold yy. pose proof radicand_pos as RP. pose proof (eta_pos c t H) as e0. assert (eta c t < sqrt (eta c t ^2 + (q - 1) * ((1 + t) / (1 - t)) * eta c t)); [|lra].
  rewrite <- (sqrt_pow2 (eta c t)) at 1 by lra. apply sqrt_lt_1_alt. split; [apply pow2_ge_0 | exact RP].
Qed.
Lemma yy_eq : yy c q t ^2 + 2 * eta c t * yy c q t = (q - 1) * ((1 + t) / (1 - t)) * eta c t.
Proof.
  unfold yy. pose proof radicand_pos as RP. pose proof (pow2_ge_0 (eta c t)).
  set (Z := eta c t ^2 + (q - 1) * ((1 + t) / (1 - t)) * eta c t) in *. assert (S : sqrt Z ^2 = Z) by (apply pow2_sqrt; lra).
  replace ((- eta c t + sqrt Z)^2 + 2 * eta c t * (- eta c t + sqrt Z)) with (sqrt Z ^2 - eta c t ^2) by ring. rewrite S. unfold Z. ring.
Qed.
End Y.

(** [bc] in terms of [yy] *)
Lemma bc_yy c k q : 1 < q -> dom c (k / q^2) ->
  bc c k q = sqrt q * sqrt (1 - k / q^2) * (1 - yy c q (k / q^2)).
Proof.
  intros Hq H. unfold bc, UU, VV. cbv zeta. set (t := k / q^2) in *.
  pose proof (dom_dd c t H) as D. pose proof (eta_pos c t H) as E0. pose proof (radicand_pos c q t H Hq) as RP. destruct H as (C & T & _).
  assert (U : 4 * (c + 1) ^ 2 * (c - t) ^ 2 * (1 - t) * q / dd c t ^ 2 = q * (1 - t) * (1 + eta c t)^2).
  { unfold eta. replace (1 + (1 + t) * (c ^ 2 + t) / dd c t) with (2 * (c + 1) * (c - t) / dd c t); [field; lra|].
    unfold dd in *. field. lra. }
  assert (V : (1 + t) ^ 2 * (c ^ 2 + t) * q * ((q - 1) * dd c t + (1 - t) * (c ^ 2 + t)) / dd c t ^ 2
    = q * (1 - t) * (eta c t ^2 + (q - 1) * ((1 + t) / (1 - t)) * eta c t)).
  { unfold eta. field. split; lra. }
  rewrite U, V. pose proof (pow2_ge_0 (eta c t)).
  rewrite (sqrt_mult (q * (1 - t))), (sqrt_mult (q * (1 - t))), (sqrt_mult q), sqrt_pow2; try lra; try (apply Rmult_le_pos; lra); try apply pow2_ge_0.
  unfold yy. ring.
Qed.

(** derivative of [yy] in t, times 2 (1 - t) *)
Definition lam (c t : R) : R := (1 - t) * (1 / (1 + t) + 1 / (c^2 + t) + (c^2 + 2 * c + 3 + 2 * t) / dd c t).
Lemma eta_derive c t : dom c t -> is_derive (eta c) t (eta c t * (lam c t / (1 - t))).
Proof.
  intros H. pose proof (dom_dd c t H) as D. destruct H as (C & T & _). unfold eta, lam. unfold dd in *. auto_derive; [lra|]. field. repeat split; nra.
Qed.
Definition ypr (c q t : R) : R :=
  yy c q t * ((yy c q t + 2 * eta c t) * (2 / (1 + t)) + yy c q t * lam c t) / (2 * (yy c q t + eta c t) * (1 - t)).
Lemma yy_derive c q t : 1 < q -> dom c t -> is_derive (yy c q) t (ypr c q t).
Proof.
  intros Hq H. pose proof (eta_derive c t H) as ED. pose proof (radicand_pos c q t H Hq) as RP. pose proof (eta_pos c t H) as E0.
  pose proof (yy_pos c q t H Hq) as Y0. pose proof (yy_eq c q t H Hq) as YE. destruct H as (C & T & _). pose proof (pow2_ge_0 (eta c t)).
  assert (SZ : sqrt (eta c t ^2 + (q - 1) * ((1 + t) / (1 - t)) * eta c t) = yy c q t + eta c t) by (unfold yy; ring).
  assert (QE : q = 1 + (1 - t) / (1 + t) * ((yy c q t ^2 + 2 * eta c t * yy c q t) / eta c t)).
  { rewrite YE. field. repeat split; lra. }
  set (y := yy c q t) in *.
  assert (D1 : is_derive (yy c q) t (- (eta c t * (lam c t / (1 - t))) +
     (2 * eta c t * (eta c t * (lam c t / (1 - t))) + (q - 1) * (2 / (1 - t)^2 * eta c t + (1 + t) / (1 - t) * (eta c t * (lam c t / (1 - t))))) / (2 * (y + eta c t)))).
  { unfold yy. auto_derive.
    - repeat split; try (exists (eta c t * (lam c t / (1 - t))); exact ED); try lra.
      replace (eta c t * (eta c t * 1) + (q - 1) * ((1 + t) * / (1 + - t)) * eta c t) with (eta c t ^2 + (q - 1) * ((1 + t) / (1 - t)) * eta c t) by (unfold Rdiv, Rminus; ring). lra.
    - rewrite (is_derive_unique (fun x : R => eta c x) _ _ ED). 
      replace (eta c t * (eta c t * 1) + (q - 1) * ((1 + t) * / (1 + - t)) * eta c t) with (eta c t ^2 + (q - 1) * ((1 + t) / (1 - t)) * eta c t) by (unfold Rdiv, Rminus; ring).
      rewrite SZ. field. repeat split; lra. }
  replace (ypr c q t) with (- (eta c t * (lam c t / (1 - t))) +
     (2 * eta c t * (eta c t * (lam c t / (1 - t))) + (q - 1) * (2 / (1 - t)^2 * eta c t + (1 + t) / (1 - t) * (eta c t * (lam c t / (1 - t))))) / (2 * (y + eta c t))); [exact D1|].
  unfold ypr. fold y. rewrite QE at 1. clearbody y. field. repeat split; lra.
Qed.

(** the key inequality *)
Lemma lam_bound c t : dom c t -> 0 <= lam c t <= (3 - t) / (1 + t) * (1 + eta c t).
Proof.
  intros H. pose proof (dom_dd c t H) as D. destruct H as (C & T & _).
  assert (A1 : 1 <= c^2) by nra.
  assert (LE : lam c t = (1 - t) / (1 + t) + 1 + (1 - t) / (c^2 + t) + (3 - t) * (1 + t) / dd c t).
  { unfold lam. replace (c^2 + 2 * c + 3 + 2 * t) with ((dd c t + (3 - t) * (1 + t)) / (1 - t)) by (unfold dd; field; lra). field. repeat split; lra. }
  assert (P : forall u v, 0 <= u -> 0 < v -> 0 <= u / v) by (intros; apply Rmult_le_pos; [lra | apply Rlt_le, Rinv_0_lt_compat; lra]).
  pose proof (P (1 - t) (1 + t) ltac:(lra) ltac:(lra)). pose proof (P (1 - t) (c^2 + t) ltac:(lra) ltac:(lra)).
  pose proof (P ((3 - t) * (1 + t)) (dd c t) ltac:(apply Rmult_le_pos; lra) D).
  split; [lra|]. rewrite LE.
  assert (I : (3 - t) / (1 + t) * (1 + eta c t) - ((1 - t) / (1 + t) + 1 + (1 - t) / (c^2 + t) + (3 - t) * (1 + t) / dd c t)
    = (3 - t) * (c^2 - 1) / dd c t + (1 - t) * (c^2 - 1) / ((1 + t) * (c^2 + t))).
  { unfold eta. field. repeat split; lra. }
  pose proof (P ((3 - t) * (c^2 - 1)) (dd c t) ltac:(apply Rmult_le_pos; lra) D).
  pose proof (P ((1 - t) * (c^2 - 1)) ((1 + t) * (c^2 + t)) ltac:(apply Rmult_le_pos; lra) ltac:(apply Rmult_lt_0_compat; lra)). lra.
Qed.

Lemma ypr_pos c q t : 1 < q -> dom c t -> 0 < ypr c q t.
Proof.
  intros Hq H. pose proof (yy_pos c q t H Hq) as Y0. pose proof (eta_pos c t H) as E0. destruct (lam_bound c t H) as (L0 & _). destruct H as (C & T & _).
  unfold ypr. apply Rdiv_lt_0_compat; [|apply Rmult_lt_0_compat; lra]. apply Rmult_lt_0_compat; [exact Y0|].
  assert (0 < 2 / (1 + t)) by (apply Rdiv_lt_0_compat; lra). assert (0 < (yy c q t + 2 * eta c t) * (2 / (1 + t))) by (apply Rmult_lt_0_compat; lra).
  assert (0 <= yy c q t * lam c t) by (apply Rmult_le_pos; lra). lra.
Qed.

(** a^2/q at the separatrix as a function of t, where b >= 0 *)
Definition GG (c q t : R) : R := (1 - t) * (1 - yy c q t)^2 + t * q.
Lemma GG_derive c q t : 1 < q -> dom c t ->
  is_derive (GG c q) t (- (1 - yy c q t)^2 - 2 * (1 - t) * (1 - yy c q t) * ypr c q t + q).
Proof.
  intros Hq H. pose proof (yy_derive c q t Hq H) as D. unfold GG. auto_derive.
  - repeat split. exists (ypr c q t). exact D.
  - rewrite (is_derive_unique (fun x : R => yy c q x) _ _ D). ring.
Qed.
Lemma GG_slope c q t : 1 < q -> dom c t -> yy c q t <= 1 ->
  0 < - (1 - yy c q t)^2 - 2 * (1 - t) * (1 - yy c q t) * ypr c q t + q.
Proof.
  intros Hq H Y1. pose proof (yy_pos c q t H Hq) as Y0. pose proof (eta_pos c t H) as E0. destruct (lam_bound c t H) as (L0 & L1).
  pose proof (yy_eq c q t H Hq) as YE. destruct H as (C & T & _).
  assert (QE : q = 1 + (1 - t) / (1 + t) * ((yy c q t ^2 + 2 * eta c t * yy c q t) / eta c t)).
  { rewrite YE. field. repeat split; lra. }
  unfold ypr. set (y := yy c q t) in *. set (h := eta c t) in *. set (l := lam c t) in *. set (m := (1 - t) / (1 + t)) in *.
  assert (M0 : 0 < m) by (apply Rdiv_lt_0_compat; lra).
  assert (M1 : 2 / (1 + t) = 1 + m) by (unfold m; field; lra).
  assert (M2 : (3 - t) / (1 + t) = 1 + 2 * m) by (unfold m; field; lra).
  rewrite M1. rewrite M2 in L1. 
  replace (- (1 - y)^2 - 2 * (1 - t) * (1 - y) * (y * ((y + 2 * h) * (1 + m) + y * l) / (2 * (y + h) * (1 - t))) + q)
    with (y^2 / (h * (y + h)) * ((1 + 2 * m) * h * (y + h) + m * (y + h) - h * (1 - y) * (l - 1 - m)))
    by (rewrite QE at 1; clearbody y h l m; field; repeat split; lra).
  apply Rmult_lt_0_compat; [apply Rdiv_lt_0_compat; [apply pow_lt; lra | apply Rmult_lt_0_compat; lra]|].
  assert (A : h * (1 - y) * (l - 1 - m) <= h * (1 - y) * ((1 + 2 * m) * h + m)).
  { apply Rmult_le_compat_l; [apply Rmult_le_pos; lra | lra]. }
  assert (B : 0 < ((1 + 2 * m) * h + m)) by nra.
  assert (Cc : h * (1 - y) < y + h) by nra.
  assert (h * (1 - y) * ((1 + 2 * m) * h + m) < (y + h) * ((1 + 2 * m) * h + m)) by (apply Rmult_lt_compat_r; lra). lra.
Qed.

(** a function with positive derivative on an interval increases *)
Lemma incr (f f' : R -> R) u v : u < v -> (forall w, u <= w <= v -> is_derive f w (f' w)) -> (forall w, u <= w <= v -> 0 < f' w) -> f u < f v.
Proof.
  intros Huv D P. destruct (MVT_gen f u v f') as (z & Z1 & Z).
  - intros w Hw. rewrite Rmin_left, Rmax_right in Hw by lra. apply D; lra.
  - intros w Hw. rewrite Rmin_left, Rmax_right in Hw by lra. apply continuity_pt_filterlim. apply (ex_derive_continuous (V := R_NormedModule) f w). eexists; apply D; lra.
  - rewrite Rmin_left, Rmax_right in Z1 by lra. assert (0 < f' z * (v - u)) by (apply Rmult_lt_0_compat; [apply P; lra | lra]). lra.
Qed.

Lemma yy_incr c q u v : 1 < q -> 0 <= u < v -> dom c v -> yy c q u < yy c q v.
Proof.
  intros Hq Hu H. apply (incr (yy c q) (ypr c q)); [lra | |]; intros w Hw.
  - apply yy_derive; [exact Hq | apply (dom_down c v); [exact H | lra]].
  - apply ypr_pos; [exact Hq | apply (dom_down c v); [exact H | lra]].
Qed.
Lemma GG_incr c q u v : 1 < q -> 0 <= u < v -> dom c v -> yy c q v <= 1 -> GG c q u < GG c q v.
Proof.
  intros Hq Hu H Y. apply (incr (GG c q) (fun t => - (1 - yy c q t)^2 - 2 * (1 - t) * (1 - yy c q t) * ypr c q t + q)); [lra | |]; intros w Hw;
    assert (DW : dom c w) by (apply (dom_down c v); [exact H | lra]).
  - apply GG_derive; assumption.
  - apply GG_slope; [assumption | assumption |]. destruct (Req_dec w v) as [-> |N]; [exact Y|].
    pose proof (yy_incr c q w v Hq ltac:(lra) H). lra.
Qed.

(** ** in terms of [bc]: at fixed q, [bc] decreases with k, and where it is nonnegative [bc^2 + k] increases *)
Lemma bc_decreases_k c k k' q : 1 < q -> 0 <= k < k' -> dom c (k' / q^2) -> bc c k' q < bc c k q.
Proof.
  intros Hq Hk H. assert (Q2 : 0 < q^2) by (apply pow_lt; lra).
  set (u := k / q^2). set (v := k' / q^2) in *.
  assert (UV : 0 <= u < v).
  { unfold u, v. split; [apply Rmult_le_pos; [lra | apply Rlt_le, Rinv_0_lt_compat; lra] | apply Rmult_lt_compat_r; [apply Rinv_0_lt_compat; lra | lra]]. }
  rewrite !bc_yy; [|assumption|apply (dom_down c v); [exact H | fold u; lra]|assumption|exact H]. fold u v.
  assert (V1 : v < 1) by (destruct H as (_ & T & _); lra).
  rewrite !Rmult_assoc. apply Rmult_lt_compat_l; [apply sqrt_lt_R0; lra|].
  (* s (1 - y) decreases *)
  pose proof (incr (fun t => - (sqrt (1 - t) * (1 - yy c q t))) (fun t => (1 - yy c q t) / (2 * sqrt (1 - t)) + sqrt (1 - t) * ypr c q t) u v ltac:(lra)) as I.
  cbv beta in I. assert (- (sqrt (1 - u) * (1 - yy c q u)) < - (sqrt (1 - v) * (1 - yy c q v))); [|lra]. apply I; clear I; intros w Hw;
    assert (DW : dom c w) by (apply (dom_down c v); [exact H | lra]).
  - pose proof (yy_derive c q w Hq DW) as D. assert (0 < sqrt (1 - w)) by (apply sqrt_lt_R0; lra). auto_derive.
    + repeat split; [lra | exists (ypr c q w); exact D].
    + rewrite (is_derive_unique (fun x : R => yy c q x) _ _ D). change (1 + - w) with (1 - w). field. lra.
  - assert (S0 : 0 < sqrt (1 - w)) by (apply sqrt_lt_R0; lra). assert (S2 : sqrt (1 - w) * sqrt (1 - w) = 1 - w) by (apply sqrt_sqrt; lra).
    pose proof (ypr_pos c q w Hq DW) as YP. pose proof (yy_pos c q w DW Hq) as Y0. pose proof (eta_pos c w DW) as E0. destruct (lam_bound c w DW) as (L0 & _).
    replace ((1 - yy c q w) / (2 * sqrt (1 - w)) + sqrt (1 - w) * ypr c q w) with ((1 - yy c q w + 2 * (1 - w) * ypr c q w) / (2 * sqrt (1 - w))) by (transitivity ((1 - yy c q w + 2 * (sqrt (1 - w) * sqrt (1 - w)) * ypr c q w) / (2 * sqrt (1 - w))); [rewrite S2; reflexivity | field; lra]).
    apply Rdiv_lt_0_compat; [|lra].
    unfold ypr. set (y := yy c q w) in *. set (h := eta c w) in *. set (l := lam c w) in *.
    replace (1 - y + 2 * (1 - w) * (y * ((y + 2 * h) * (2 / (1 + w)) + y * l) / (2 * (y + h) * (1 - w))))
      with (1 + y * ((y + 2 * h) * (2 / (1 + w)) + y * l - (y + h)) / (y + h)) by (field; repeat split; lra).
    assert (W1 : 0 < 1 + w) by lra. assert (1 < 2 / (1 + w)) by (apply (proj1 (Rlt_div_r _ _ _ W1)); destruct DW as (_ & TW & _); lra).
    assert (0 <= y * ((y + 2 * h) * (2 / (1 + w)) + y * l - (y + h)) / (y + h)); [|lra].
    apply Rmult_le_pos; [|apply Rlt_le, Rinv_0_lt_compat; lra]. apply Rmult_le_pos; [lra|].
    assert (0 <= y * l) by (apply Rmult_le_pos; lra). assert (y + 2 * h <= (y + 2 * h) * (2 / (1 + w))) by nra. lra.
Qed.
Lemma spin_increases_k c k k' q : 1 < q -> 0 <= k < k' -> dom c (k' / q^2) -> 0 <= bc c k' q ->
  bc c k q ^2 + k < bc c k' q ^2 + k'.
Proof.
  intros Hq Hk H B. assert (Q2 : 0 < q^2) by (apply pow_lt; lra).
  set (u := k / q^2). set (v := k' / q^2) in *.
  assert (UV : 0 <= u < v).
  { unfold u, v. split; [apply Rmult_le_pos; [lra | apply Rlt_le, Rinv_0_lt_compat; lra] | apply Rmult_lt_compat_r; [apply Rinv_0_lt_compat; lra | lra]]. }
  assert (V1 : v < 1) by (destruct H as (_ & T & _); lra).
  rewrite bc_yy in B by assumption. fold v in B.
  assert (SP : 0 < sqrt q * sqrt (1 - v)) by (apply Rmult_lt_0_compat; apply sqrt_lt_R0; lra).
  assert (Y1 : yy c q v <= 1). { apply Rnot_lt_le. intros N. assert (sqrt q * sqrt (1 - v) * (1 - yy c q v) < 0) by nra. lra. }
  pose proof (GG_incr c q u v Hq UV H Y1) as G. unfold GG in G.
  rewrite !bc_yy; [|assumption|exact H|assumption|apply (dom_down c v); [exact H | fold u; lra]]. fold u v.
  assert (K1 : k = q * (u * q)) by (unfold u; field; lra). assert (K2 : k' = q * (v * q)) by (unfold v; field; lra).
  assert (SQ : sqrt q ^2 = q) by (apply pow2_sqrt; lra). assert (SU : sqrt (1 - u) ^2 = 1 - u) by (apply pow2_sqrt; lra). assert (SV : sqrt (1 - v) ^2 = 1 - v) by (apply pow2_sqrt; lra).
  replace ((sqrt q * sqrt (1 - u) * (1 - yy c q u))^2 + k) with (q * ((1 - u) * (1 - yy c q u)^2 + u * q)) by (rewrite !Rpow_mult_distr, SQ, SU, K1 at 1; ring).
  replace ((sqrt q * sqrt (1 - v) * (1 - yy c q v))^2 + k') with (q * ((1 - v) * (1 - yy c q v)^2 + v * q)) by (rewrite !Rpow_mult_distr, SQ, SV, K2 at 1; ring).
  apply Rmult_lt_compat_l; lra.
Qed.

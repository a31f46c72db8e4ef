(** * Monotonicity of the separatrix function in the eccentricity at fixed p (auxiliary for C107) *)
From Coq Require Import Reals Lra Lia.
From Coquelicot Require Import Coquelicot.
From Verif Require Import P_Stability P_SepIncl P_SepEccPoly.
Open Scope R_scope.

Definition K0 (c t : R) : R := 2 * (c - 1) * vg c t / ((1 - t) * dd c t).
Definition K1 (c t : R) : R := NN c t / ((1 - t^2) * (c^2 + t) * dd c t).
Lemma vg_dd_facts c t : dom c t -> 0 < dd c t /\ 0 < vg c t /\ 0 < c^2 + t /\ t < 1/3.
Proof.
  intros H. pose proof (dom_dd c t H). pose proof (dom_third c t H). destruct H as (C & T & G). repeat split; try assumption. nra.
Qed.

(** a^2 - 1 in terms of y *)
Definition qy (c t y : R) : R := 1 + (1 - t) / (1 + t) * (y^2 / eta c t + 2 * y).
Lemma spin_y c t y : dom c t ->
  t * qy c t y ^2 + qy c t y * (1 - t) * (1 - y)^2 - 1
  = y^2 * ((1 - t) / (1 + t)) * ((1 - t) / eta c t) *
    (- K0 c t + (2 * eta c t - 2 * ((1 - t) / (1 + t))) * y + (1 + t / eta c t / (1 + t)) * y^2).
Proof.
  intros H. destruct (vg_dd_facts c t H) as (D & G & S & T3). destruct H as (C & T & _).
  unfold qy, K0, eta. unfold vg. assert (N1 : 1 + t <> 0) by lra. assert (N2 : 1 - t <> 0) by lra. assert (N3 : dd c t <> 0) by lra. assert (N4 : c^2 + t <> 0) by lra.
  unfold dd in *. field. repeat split; assumption.
Qed.

Lemma slope_pos c t y : dom c t -> 0 < y -> t * qy c t y ^2 + qy c t y * (1 - t) * (1 - y)^2 < 1 -> 0 < K0 c t + K1 c t * y.
Proof.
  intros H Y A. pose proof (spin_y c t y H) as SY. pose proof (QQ_nonneg c t H) as Q0. pose proof (QQ_eq c t) as QE. pose proof (eta_pos c t H) as E0.
  destruct (vg_dd_facts c t H) as (D & G & S & T3). destruct H as (C & T & _).
  assert (T1 : 0 < 1 - t) by lra. assert (T2 : 0 < 1 + t) by lra. assert (TT : 0 < 1 - t^2) by nra.
  assert (F : - K0 c t + (2 * eta c t - 2 * ((1 - t) / (1 + t))) * y + (1 + t / eta c t / (1 + t)) * y^2 < 0).
  { apply Rnot_le_lt. intros L. assert (0 <= y^2 * ((1 - t) / (1 + t)) * ((1 - t) / eta c t) *
    (- K0 c t + (2 * eta c t - 2 * ((1 - t) / (1 + t))) * y + (1 + t / eta c t / (1 + t)) * y^2)); [|lra].
    apply Rmult_le_pos; [|exact L]. apply Rlt_le. apply Rmult_lt_0_compat; [apply Rmult_lt_0_compat; [apply pow_lt; lra|]|]; apply Rdiv_lt_0_compat; lra. }
  assert (DEN : 0 < (1 - t^2) * (c^2 + t) * dd c t) by (apply Rmult_lt_0_compat; [apply Rmult_lt_0_compat|]; lra).
  assert (K00 : 0 <= K0 c t).
  { unfold K0. apply Rmult_le_pos; [apply Rmult_le_pos; lra | apply Rlt_le, Rinv_0_lt_compat, Rmult_lt_0_compat; lra]. }
  assert (PP : 0 <= K0 c t * (1 + t / eta c t / (1 + t)) - (2 * eta c t - 2 * ((1 - t) / (1 + t))) * K1 c t - K1 c t ^2).
  { replace (K0 c t * (1 + t / eta c t / (1 + t)) - (2 * eta c t - 2 * ((1 - t) / (1 + t))) * K1 c t - K1 c t ^2)
      with ((1 - t) * (c + 1) * QQ c t / ((1 - t^2) * (c^2 + t) * dd c t)^2).
    - apply Rmult_le_pos; [apply Rmult_le_pos; [apply Rmult_le_pos; lra | exact Q0] | apply Rlt_le, Rinv_0_lt_compat, pow_lt; exact DEN].
    - rewrite <- QE. unfold K0, K1, eta. generalize (NN c t) (vg c t) . intros N V. assert (dd c t <> 0) by lra. generalize dependent (dd c t). intros DD **.
      field. repeat split; try lra; try nra. }
  set (C' := 1 + t / eta c t / (1 + t)) in *. set (B := 2 * eta c t - 2 * ((1 - t) / (1 + t))) in *.
  assert (CP : 0 < C').
  { unfold C'. assert (0 <= t / eta c t / (1 + t)); [|lra]. apply Rmult_le_pos; [apply Rmult_le_pos; [lra | apply Rlt_le, Rinv_0_lt_compat; lra] | apply Rlt_le, Rinv_0_lt_compat; lra]. }
  destruct (Rlt_le_dec 0 (K1 c t)) as [KP|KN].
  { assert (0 < K1 c t * y) by (apply Rmult_lt_0_compat; lra). lra. }
  assert (C1 : 1 < c).
  { destruct (Rle_lt_or_eq_dec 1 c C) as [L|EQ]; [exact L | exfalso]. subst c.
    assert (0 < K1 1 t); [|lra]. unfold K1. apply Rdiv_lt_0_compat; [|exact DEN].
    replace (NN 1 t) with (2 * (1 - t^2) * vg 1 t) by (unfold NN, vg; ring). apply Rmult_lt_0_compat; lra. }
  assert (KP : 0 < K0 c t).
  { unfold K0. apply Rdiv_lt_0_compat; [apply Rmult_lt_0_compat; lra | apply Rmult_lt_0_compat; lra]. }
  apply Rnot_le_lt. intros L. clearbody C' B. set (N := - K1 c t) in *. set (K := K0 c t) in *.
  replace (K1 c t) with (- N) in * by (unfold N; ring). clearbody N K. clear - F PP CP KP KN L Y.
  assert (N0 : 0 < N) by nra.
  (* y N >= K; B + C' y < K / y <= N *)
  assert (B1 : B + C' * y < N). { apply Rnot_le_lt. intros M. assert (N * y <= (B + C' * y) * y) by (apply Rmult_le_compat_r; lra). nra. }
  assert (B2 : N * B + C' * K >= N * N) by nra.
  assert (N * (B + C' * y) < N * N) by (apply Rmult_lt_compat_l; lra). nra.
Qed.

(** ** the derivative at fixed p *)
Section Slope.
Context (p k : R) (Hp : 0 < p).
Definition qf (c : R) : R := p * (c + 1) / (2 * c).
Definition tf (c : R) : R := k / qf c ^2.
Lemma qf_derive c : 1 <= c -> is_derive qf c (- qf c / (c * (c + 1))).
Proof. intros C. unfold qf. auto_derive; [lra|]. field. lra. Qed.
Lemma tf_derive c : 1 <= c -> is_derive tf c (2 * tf c / (c * (c + 1))).
Proof.
  intros C. pose proof (qf_derive c C) as Q. assert (0 < qf c) by (unfold qf; apply Rdiv_lt_0_compat; [apply Rmult_lt_0_compat|]; lra).
  unfold tf. auto_derive.
  - split; [eexists; exact Q |]. split; [|exact I]. nra.
  - rewrite (is_derive_unique (fun x : R => qf x) _ _ Q). field. lra.
Qed.
Definition ED (c t : R) : R := (1 + t) * (2 * c * dd c t - (c^2 + t) * (2 * (c + 1) * (1 - t))) / dd c t ^2 + eta c t * (lam c t / (1 - t)) * (2 * t / (c * (c + 1))).
Definition ef (c : R) : R := eta c (tf c).
Lemma ef_derive c : 1 <= c -> dom c (tf c) -> is_derive ef c (ED c (tf c)).
Proof.
  intros C H. pose proof (tf_derive c C) as T. destruct (vg_dd_facts c _ H) as (D & G & S & T3). destruct H as (_ & T0 & _).
  unfold ef, eta, dd. auto_derive.
  - repeat split; try (eexists; exact T). unfold dd in D. lra.
  - rewrite (is_derive_unique (fun x : R => tf x) _ _ T). unfold ED, lam, eta. generalize dependent (tf c). intros t T **. unfold dd in *. field. repeat split; lra.
Qed.
Definition yf (c : R) : R := yy c (qf c) (tf c).
Definition YD (c t q y : R) : R :=
  - ED c t + (2 * eta c t * ED c t - q / (c * (c + 1)) * ((1 + t) / (1 - t)) * eta c t
    + (q - 1) * (2 / (1 - t)^2 * (2 * t / (c * (c + 1))) * eta c t + (1 + t) / (1 - t) * ED c t)) / (2 * (y + eta c t)).
Lemma yf_derive c : 1 <= c -> 1 < qf c -> dom c (tf c) -> is_derive yf c (YD c (tf c) (qf c) (yf c)).
Proof.
  intros C Hq H. pose proof (ef_derive c C H) as E. pose proof (tf_derive c C) as T. pose proof (qf_derive c C) as Q.
  pose proof (radicand_pos c (qf c) (tf c) H Hq) as RP. pose proof (eta_pos c _ H) as E0. pose proof (pow2_ge_0 (eta c (tf c))) as E2.
  pose proof (yy_pos c (qf c) (tf c) H Hq) as Y0.
  assert (SZ : sqrt (ef c ^2 + (qf c - 1) * ((1 + tf c) / (1 - tf c)) * ef c) = yf c + eta c (tf c)) by (unfold yf, yy, ef; ring).
  destruct H as (_ & T0 & _).
  apply (is_derive_ext (fun c => - ef c + sqrt (ef c ^2 + (qf c - 1) * ((1 + tf c) / (1 - tf c)) * ef c))); [reflexivity|].
  auto_derive.
  - repeat split; try (eexists; eassumption); try lra.
    replace (ef c * (ef c * 1) + (qf c + - (1)) * ((1 + tf c) * / (1 + - tf c)) * ef c) with (ef c ^2 + (qf c - 1) * ((1 + tf c) / (1 - tf c)) * ef c) by (unfold Rdiv, Rminus; ring). unfold ef. lra.
  - rewrite (is_derive_unique (fun x : R => tf x) _ _ T), (is_derive_unique (fun x : R => ef x) _ _ E), (is_derive_unique (fun x : R => qf x) _ _ Q).
    replace (ef c * (ef c * 1) + (qf c + - (1)) * ((1 + tf c) * / (1 + - tf c)) * ef c) with (ef c ^2 + (qf c - 1) * ((1 + tf c) / (1 - tf c)) * ef c) by (unfold Rdiv, Rminus; ring).
    rewrite SZ. unfold YD. change (yf c) with (yy c (qf c) (tf c)) in *. change (ef c) with (eta c (tf c)) in *.
    generalize dependent (yy c (qf c) (tf c)). generalize dependent (ED c (tf c)). generalize dependent (eta c (tf c)). generalize dependent (tf c). generalize dependent (qf c).
    intros. field. repeat split; try lra.
Qed.
Lemma slope_identity c t y : dom c t -> 0 < y ->
  - ((1 + t) / (1 - t)) / (2 * (c * (c + 1))) * (1 - y) - YD c t (qy c t y) y = y * (K0 c t + K1 c t * y) / (2 * (y + eta c t) * (c * (c + 1))).
Proof.
  intros H Y. pose proof (eta_pos c t H) as E0. destruct (vg_dd_facts c t H) as (D & G & S & T3). destruct H as (C & T & _).
  assert (NZ : 0 < y * dd c t + (1 + t) * (c^2 + t)). { assert (0 < y * dd c t) by (apply Rmult_lt_0_compat; lra). assert (0 < (1 + t) * (c^2 + t)) by (apply Rmult_lt_0_compat; lra). lra. }
  unfold YD, qy, K0, K1, ED, lam, eta, NN, vg. unfold dd in *. field. repeat split; try lra; try nra.
Qed.
End Slope.

Lemma slope_derive p k c : 0 < p -> 0 <= k -> 1 <= c -> 1 < qf p c -> dom c (tf p k c) -> k + bc c k (qf p c) ^2 < 1 ->
  exists l, is_derive (fun c => sqrt (qf p c) * sqrt (1 - tf p k c) * (1 - yf p k c)) c l /\ 0 < l.
Proof.
  intros Hp Hk C Hq H A. rewrite bc_yy in A by assumption. change (k / qf p c ^2) with (tf p k c) in A. change (yy c (qf p c) (tf p k c)) with (yf p k c) in A.
  pose proof (yf_derive p k Hp c C Hq H) as Y. pose proof (tf_derive p k Hp c C) as T. pose proof (qf_derive p c C) as Q.
  pose proof (yy_pos c (qf p c) (tf p k c) H Hq) as Y0. change (yy c (qf p c) (tf p k c)) with (yf p k c) in Y0.
  pose proof (yy_eq c (qf p c) (tf p k c) H Hq) as YE. change (yy c (qf p c) (tf p k c)) with (yf p k c) in YE.
  pose proof (eta_pos c _ H) as E0. destruct (vg_dd_facts c _ H) as (D & G & S & T3). assert (T0 : 0 <= tf p k c < 1) by (destruct H; lra).
  assert (QE : qf p c = qy c (tf p k c) (yf p k c)).
  { unfold qy. replace ((1 - tf p k c) / (1 + tf p k c) * (yf p k c ^ 2 / eta c (tf p k c) + 2 * yf p k c)) with ((1 - tf p k c) / (1 + tf p k c) * ((yf p k c ^ 2 + 2 * eta c (tf p k c) * yf p k c) / eta c (tf p k c))) by (field; lra).
    rewrite YE. field. lra. }
  assert (S1 : 0 < sqrt (qf p c)) by (apply sqrt_lt_R0; lra). assert (S2 : 0 < sqrt (1 - tf p k c)) by (apply sqrt_lt_R0; lra).
  assert (SS1 : sqrt (qf p c) * sqrt (qf p c) = qf p c) by (apply sqrt_sqrt; lra). assert (SS2 : sqrt (1 - tf p k c) * sqrt (1 - tf p k c) = 1 - tf p k c) by (apply sqrt_sqrt; lra).
  assert (KE : k = tf p k c * qf p c ^2) by (unfold tf; field; lra).
  assert (A' : tf p k c * qy c (tf p k c) (yf p k c) ^2 + qy c (tf p k c) (yf p k c) * (1 - tf p k c) * (1 - yf p k c)^2 < 1).
  { rewrite <- QE. rewrite KE in A at 1.
    replace ((sqrt (qf p c) * sqrt (1 - tf p k c) * (1 - yf p k c))^2) with ((sqrt (qf p c) * sqrt (qf p c)) * (sqrt (1 - tf p k c) * sqrt (1 - tf p k c)) * (1 - yf p k c)^2) in A by ring.
    rewrite SS1, SS2 in A. exact A. }
  pose proof (slope_pos c _ _ H Y0 A') as SP. pose proof (slope_identity c _ _ H Y0) as SI. rewrite <- QE in SI.
  exists (sqrt (qf p c) * sqrt (1 - tf p k c) * (- ((1 + tf p k c) / (1 - tf p k c)) / (2 * (c * (c + 1))) * (1 - yf p k c) - YD c (tf p k c) (qf p c) (yf p k c))). split.
  - auto_derive.
    + repeat split; try (eexists; eassumption); lra.
    + rewrite (is_derive_unique (fun x : R => tf p k x) _ _ T), (is_derive_unique (fun x : R => qf p x) _ _ Q), (is_derive_unique (fun x : R => yf p k x) _ _ Y).
      change (1 + - tf p k c) with (1 - tf p k c).
      set (yd := YD c (tf p k c) (qf p c) (yf p k c)). set (s1 := sqrt (qf p c)) in *. set (s2 := sqrt (1 - tf p k c)) in *. clearbody yd s1 s2.
      clear - C T0 S1 SS1 S2 SS2 Hq. set (t := tf p k c) in *. set (y := yf p k c) in *. clearbody y. rewrite <- SS1. assert (TE : t = 1 - s2 * s2) by lra. clearbody t. rewrite TE. field. repeat split; nra.
  - rewrite SI. apply Rmult_lt_0_compat; [apply Rmult_lt_0_compat; assumption|]. apply Rdiv_lt_0_compat; [apply Rmult_lt_0_compat; lra | apply Rmult_lt_0_compat; [lra | apply Rmult_lt_0_compat; lra]].
Qed.

Lemma derive_local (f : R -> R) x l : is_derive f x l -> 0 < l ->
  exists d, 0 < d /\ forall z, Rabs (z - x) < d -> (x < z -> f x < f z) /\ (z < x -> f z < f x).
Proof.
  intros D L. apply is_derive_Reals in D. destruct (D l L) as (d & P). exists d. split; [apply cond_pos|]. intros z Hz.
  assert (N : z <> x -> 0 < (f z - f x) / (z - x)).
  { intros NE. specialize (P (z - x) ltac:(lra) Hz). replace (x + (z - x)) with z in P by ring. apply Rabs_def2 in P. lra. }
  split; intros O; (specialize (N ltac:(lra))).
  - assert (f z - f x = (f z - f x) / (z - x) * (z - x)) by (field; lra). assert (0 < (f z - f x) / (z - x) * (z - x)) by (apply Rmult_lt_0_compat; lra). lra.
  - assert (f x - f z = (f z - f x) / (z - x) * (x - z)) by (field; lra). assert (0 < (f z - f x) / (z - x) * (x - z)) by (apply Rmult_lt_0_compat; lra). lra.
Qed.

(** the separatrix moves outwards when c grows, locally *)
Lemma sep_local p k c b : 0 < p -> 0 <= k -> 1 <= c -> 1 < qf p c -> dom c (tf p k c) -> bc c k (qf p c) = b -> k + b^2 < 1 ->
  exists d, 0 < d /\ forall c' q', 1 <= c' -> Rabs (c' - c) < d -> 1 < q' -> dom c' (k / q'^2) -> bc c' k q' = b ->
    (c < c' -> p < 2 * c' * q' / (c' + 1)) /\ (c' < c -> 2 * c' * q' / (c' + 1) < p).
Proof.
  intros Hp Hk C Hq H B A. rewrite <- B in A. destruct (slope_derive p k c Hp Hk C Hq H A) as (l & L & L0). destruct (derive_local _ _ _ L L0) as (d1 & D1 & F1). clear L L0 A.
  rewrite bc_yy in B by assumption. change (k / qf p c ^2) with (tf p k c) in B. change (yy c (qf p c) (tf p k c)) with (yf p k c) in B.
  assert (CV : continuous (fun c => vg c (tf p k c)) c).
  { apply (ex_derive_continuous (V := R_NormedModule)). pose proof (tf_derive p k Hp c C) as T. unfold vg. auto_derive. repeat split; eexists; exact T. }
  assert (V0 : 0 < vg c (tf p k c)) by (destruct H as (_ & _ & V); exact V).
  destruct (CV (fun v => 0 < v)) as (d2 & F2). { apply (open_gt 0). exact V0. }
  exists (Rmin d1 d2). split; [apply Rmin_glb_lt; [exact D1 | apply cond_pos]|].
  intros c' q' C' Hd Q' H' B'. assert (Z1 : Rabs (c' - c) < d1) by (eapply Rlt_le_trans; [exact Hd | apply Rmin_l]). assert (Z2 : Rabs (c' - c) < d2) by (eapply Rlt_le_trans; [exact Hd | apply Rmin_r]).
  specialize (F2 c' Z2). cbv beta in F2. destruct (F1 c' Z1) as (G1 & G2). clear F1 CV Hd Z1 Z2. rewrite B in G1, G2.
  assert (PQ : p = 2 * c' * qf p c' / (c' + 1)) by (unfold qf; field; lra).
  assert (MON : forall u v, u <= v -> 2 * c' * u / (c' + 1) <= 2 * c' * v / (c' + 1)).
  { intros u v UV. apply Rmult_le_compat_r; [apply Rlt_le, Rinv_0_lt_compat; lra|]. apply Rmult_le_compat_l; lra. }
  assert (INV : forall u v, 2 * c' * u / (c' + 1) <= 2 * c' * v / (c' + 1) -> u <= v).
  { intros u v UV. apply Rmult_le_reg_l with (2 * c' / (c' + 1)); [apply Rdiv_lt_0_compat; lra|]. unfold Rdiv in *. lra. }
  split; intros O.
  - specialize (G1 O). apply Rnot_le_lt. intros N. rewrite PQ in N. apply INV in N.
    assert (Q1 : 1 < qf p c') by lra.
    assert (DT : dom c' (tf p k c')). { apply (dom_down c' (k / q'^2)); [exact H'|]. apply t_down; lra. }
    assert (E : bc c' k (qf p c') = sqrt (qf p c') * sqrt (1 - tf p k c') * (1 - yf p k c')) by (rewrite bc_yy by assumption; reflexivity).
    destruct N as [N|N]; [pose proof (bc_decreases c' k q' (qf p c') Hk (conj Q' N) H'); lra | rewrite N in B'; lra].
  - specialize (G2 O). apply Rnot_le_lt. intros N. rewrite PQ in N at 1. apply INV in N.
    assert (QQ : qf p c < qf p c'). { unfold qf. replace (p * (c + 1) / (2 * c)) with (p / 2 + p / 2 * / c) by (field; lra). replace (p * (c' + 1) / (2 * c')) with (p / 2 + p / 2 * / c') by (field; lra).
      apply Rplus_lt_compat_l, Rmult_lt_compat_l; [lra|]. apply Rinv_lt_contravar; [apply Rmult_lt_0_compat; lra | exact O]. }
    assert (Q1 : 1 < qf p c') by lra.
    assert (TD : 0 <= tf p k c' <= tf p k c) by (apply t_down; lra).
    assert (DT : dom c' (tf p k c')). { destruct H as (_ & T & _). refine (conj C' (conj _ F2)). lra. }
    assert (E : bc c' k (qf p c') = sqrt (qf p c') * sqrt (1 - tf p k c') * (1 - yf p k c')) by (rewrite bc_yy; [reflexivity | lra | exact DT]).
    destruct N as [N|N]; [pose proof (bc_decreases c' k (qf p c') q' Hk (conj Q1 N) DT); lra | rewrite <- N in B'; lra].
Qed.

(** local growth on both sides everywhere on an interval gives global growth *)
Lemma local_global (f : R -> R) u v : u < v ->
  (forall x, u <= x <= v -> exists d, 0 < d /\ forall z, u <= z <= v -> Rabs (z - x) < d -> (x < z -> f x < f z) /\ (z < x -> f z < f x)) -> f u < f v.
Proof.
  intros UV L. set (E := fun x => u <= x <= v /\ forall z, u < z <= x -> f u < f z).
  assert (EU : E u) by (split; [lra | intros z Z; lra]).
  destruct (completeness E) as (m & M1 & M2); [exists v; intros x ((_ & X) & _); exact X | exists u; exact EU|].
  assert (UM : u <= m) by (apply M1; exact EU). assert (MV : m <= v) by (apply M2; intros x ((_ & X) & _); exact X).
  destruct (L m (conj UM MV)) as (d & D & F).
  assert (NEAR : exists x, E x /\ m - d < x).
  { destruct (Classical_Prop.classic (exists x, E x /\ m - d < x)) as [Y|N]; [exact Y | exfalso]. assert (m <= m - d); [|lra]. apply M2. intros x X. apply Rnot_lt_le. intros Q. apply N. exists x. split; assumption. }
  destruct NEAR as (x & (X1 & X2) & X3). assert (XM : x <= m) by (apply M1; split; assumption).
  assert (BELOW : forall z, u < z < m -> f u < f z).
  { intros z Z. destruct (Rle_dec z x) as [ZX|ZX]; [apply X2; lra|].
    destruct (Classical_Prop.classic (exists w, E w /\ z < w)) as [(w & (W1 & W2) & W3)|N]; [apply W2; lra | exfalso]. assert (m <= z); [|lra]. apply M2. intros w W. apply Rnot_lt_le. intros Q. apply N. exists w. split; assumption. }
  assert (ATM : u < m -> f u < f m).
  { intros O. set (z := Rmax ((u + m) / 2) (m - d / 2)). assert (u < z < m) by (unfold z; split; [apply Rlt_le_trans with ((u + m) / 2); [lra | apply Rmax_l] | apply Rmax_lub_lt; lra]).
    assert (Rabs (z - m) < d). { apply Rabs_def1; [lra|]. assert (m - d / 2 <= z) by apply Rmax_r. lra. }
    pose proof (BELOW z ltac:(lra)). pose proof (proj2 (F z ltac:(lra) H0) ltac:(lra)). lra. }
  destruct MV as [MV|MV]; [exfalso | subst m; apply ATM; exact UV].
  set (w := Rmin v (m + d / 2)). assert (W : m < w <= v) by (unfold w; split; [apply Rmin_glb_lt; lra | apply Rmin_l]).
  assert (W2 : w <= m + d / 2) by apply Rmin_r.
  assert (w <= m); [|lra]. apply M1. split; [lra|]. intros z Z. destruct (Rlt_le_dec z m) as [O|O]; [apply BELOW; lra|].
  destruct O as [O|O]; [|subst z; apply ATM; lra].
  pose proof (proj1 (F z ltac:(lra) ltac:(apply Rabs_def1; lra)) O). destruct UM as [UM|UM]; [pose proof (ATM UM); lra | rewrite UM; assumption].
Qed.

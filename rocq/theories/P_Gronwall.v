(** * Continuous dependence for second-order equations with a cubic force *)
From Coq Require Import Reals Lra Lia.
From Coquelicot Require Import Coquelicot.
Open Scope R_scope.

(** uniform convergence on bounded intervals of time *)
Definition converges (fn : nat -> R -> R) (f : R -> R) : Prop :=
  forall T eps : R, 0 < eps -> exists N : nat, forall n, (N <= n)%nat -> forall l, Rabs l <= T -> Rabs (fn n l - f l) < eps.
Definition bounded (f : R -> R) : Prop := exists B : R, forall l, Rabs (f l) <= B.

Lemma eventually_small (u : nat -> R) (v eps : R) : is_lim_seq u v -> 0 < eps -> exists N : nat, forall n, (N <= n)%nat -> Rabs (u n - v) < eps.
Proof.
  intros H He. destruct (proj2 (is_lim_seq_spec _ _) H (mkposreal eps He)) as [N K]. exists N. intros n Hn. exact (K n Hn).
Qed.
Lemma converges_const (u : nat -> R) (v : R) : is_lim_seq u v -> converges (fun n _ => u n) (fun _ => v).
Proof. intros H T eps He. destruct (eventually_small u v eps H He) as [N K]. exists N. intros n Hn l _. now apply K. Qed.
Lemma converges_at fn f (ln : nat -> R) (l : R) : converges fn f -> continuous f l -> is_lim_seq ln l -> is_lim_seq (fun n => fn n (ln n)) (f l).
Proof.
  intros C Hc Hl. refine (proj1 (is_lim_seq_spec _ _) _). unfold is_lim_seq'. intros [eps He]. cbn [pos].
  destruct (C (Rabs l + 1) (eps / 2) ltac:(lra)) as [N1 K1]. destruct (eventually_small ln l 1 Hl ltac:(lra)) as [N2 K2].
  assert (L2 : is_lim_seq (fun n => f (ln n)) (f l)).
  { intros P HP. unfold filtermap. apply (Hl (fun z => P (f z))). apply (Hc P HP). }
  destruct (eventually_small _ _ (eps / 2) L2 ltac:(lra)) as [N3 K3].
  exists (N1 + N2 + N3)%nat. intros n Hn. specialize (K2 n ltac:(lia)). specialize (K3 n ltac:(lia)). cbv beta in K3.
  assert (Rabs (ln n) <= Rabs l + 1). { replace (ln n) with (l + (ln n - l)) by ring. pose proof (Rabs_triang l (ln n - l)). lra. }
  specialize (K1 n ltac:(lia) (ln n) H). replace (fn n (ln n) - f l) with ((fn n (ln n) - f (ln n)) + (f (ln n) - f l)) by ring.
  pose proof (Rabs_triang (fn n (ln n) - f (ln n)) (f (ln n) - f l)). lra.
Qed.
Lemma bounded_const v : bounded (fun _ => v).
Proof. exists (Rabs v). intros _. lra. Qed.
Lemma bounded_plus f g : bounded f -> bounded g -> bounded (fun l => f l + g l).
Proof. intros [B K] [C H]. exists (B + C). intros l. pose proof (Rabs_triang (f l) (g l)). specialize (K l). specialize (H l). lra. Qed.
Lemma bounded_mult f g : bounded f -> bounded g -> bounded (fun l => f l * g l).
Proof. intros [B K] [C H]. exists (B * C). intros l. rewrite Rabs_mult. apply Rmult_le_compat; auto using Rabs_pos. Qed.
Lemma converges_plus fn f gn g : converges fn f -> converges gn g -> converges (fun n l => fn n l + gn n l) (fun l => f l + g l).
Proof.
  intros H K T eps He. destruct (H T (eps/2) ltac:(lra)) as [N1 K1]. destruct (K T (eps/2) ltac:(lra)) as [N2 K2].
  exists (N1 + N2)%nat. intros n Hn l Hl. specialize (K1 n ltac:(lia) l Hl). specialize (K2 n ltac:(lia) l Hl).
  replace (fn n l + gn n l - (f l + g l)) with ((fn n l - f l) + (gn n l - g l)) by ring. pose proof (Rabs_triang (fn n l - f l) (gn n l - g l)). lra.
Qed.
Lemma converges_mult fn f gn g : bounded f -> bounded g -> converges fn f -> converges gn g -> converges (fun n l => fn n l * gn n l) (fun l => f l * g l).
Proof.
  intros [B HB] [C HC] H K T eps He.
  assert (B0 : 0 <= B) by (pose proof (HB 0); pose proof (Rabs_pos (f 0)); lra). assert (C0 : 0 <= C) by (pose proof (HC 0); pose proof (Rabs_pos (g 0)); lra).
  set (d := Rmin 1 (eps / (B + C + 2))). assert (D0 : 0 < d) by (apply Rmin_glb_lt; [lra | apply Rdiv_lt_0_compat; lra]).
  assert (D1 : d <= 1) by apply Rmin_l. assert (D2 : d * (B + C + 2) <= eps).
  { assert (d <= eps / (B + C + 2)) by apply Rmin_r. apply Rle_div_r in H0; lra. }
  destruct (H T d D0) as [N1 K1]. destruct (K T d D0) as [N2 K2].
  exists (N1 + N2)%nat. intros n Hn l Hl. specialize (K1 n ltac:(lia) l Hl). specialize (K2 n ltac:(lia) l Hl). specialize (HB l). specialize (HC l).
  replace (fn n l * gn n l - f l * g l) with ((fn n l - f l) * (gn n l - g l) + ((fn n l - f l) * g l + f l * (gn n l - g l))) by ring.
  set (u := fn n l - f l) in *. set (v := gn n l - g l) in *.
  pose proof (Rabs_triang (u * v) (u * g l + f l * v)). pose proof (Rabs_triang (u * g l) (f l * v)). rewrite !Rabs_mult in *.
  pose proof (Rabs_pos u). pose proof (Rabs_pos v). pose proof (Rabs_pos (f l)). pose proof (Rabs_pos (g l)).
  assert (Rabs u * Rabs v <= d * 1) by (apply Rmult_le_compat; lra).
  assert (Rabs u * Rabs (g l) <= d * C) by (apply Rmult_le_compat; lra).
  assert (Rabs (f l) * Rabs v <= B * d) by (apply Rmult_le_compat; lra).
  nra.
Qed.
Lemma bounded_inv f c : 0 < c -> (forall l, c <= f l) -> bounded (fun l => / f l).
Proof.
  intros Hc H. exists (/ c). intros l. specialize (H l). rewrite Rabs_pos_eq by (left; apply Rinv_0_lt_compat; lra). now apply Rinv_le_contravar.
Qed.
Lemma converges_inv fn f c : 0 < c -> (forall l, c <= f l) -> converges fn f -> converges (fun n l => / fn n l) (fun l => / f l).
Proof.
  intros Hc H K T eps He. set (d := Rmin (c / 2) (eps * c^2 / 4)).
  assert (C2 : 0 < c^2) by (apply pow_lt; lra). assert (D0 : 0 < d) by (apply Rmin_glb_lt; nra).
  destruct (K T d D0) as [N K1]. exists N. intros n Hn l Hl. specialize (K1 n Hn l Hl). specialize (H l).
  assert (d <= c / 2) by apply Rmin_l. assert (D2 : d <= eps * c^2 / 4) by apply Rmin_r.
  assert (F2 : c / 2 < fn n l) by (apply Rabs_def2 in K1; lra).
  replace (/ fn n l - / f l) with (- (fn n l - f l) * / (fn n l * f l)) by (field; lra).
  rewrite Rabs_mult, Rabs_Ropp. assert (PP : c^2 / 2 <= fn n l * f l) by nra.
  rewrite (Rabs_pos_eq (/ _)) by (left; apply Rinv_0_lt_compat; nra).
  apply (Rmult_lt_reg_r (fn n l * f l)); [nra|]. rewrite Rmult_assoc, Rinv_l, Rmult_1_r by nra.
  assert (eps * (c^2/2) <= eps * (fn n l * f l)) by (apply Rmult_le_compat_l; lra). nra.
Qed.
Lemma converges_ext fn f gn g : (forall n l, fn n l = gn n l) -> (forall l, f l = g l) -> converges fn f -> converges gn g.
Proof. intros H K C T eps He. destruct (C T eps He) as [N S]. exists N. intros n Hn l Hl. rewrite <- H, <- K. now apply S. Qed.
Lemma bounded_ext f g : (forall l, f l = g l) -> bounded f -> bounded g.
Proof. intros H [B K]. exists B. intros l. rewrite <- H. apply K. Qed.

(** mean value inequality *)
Lemma increment_bound (f f' : R -> R) (T M : R) : 0 <= T -> (forall l, is_derive f l (f' l)) -> (forall l, Rabs l <= T -> Rabs (f' l) <= M) ->
  forall l, Rabs l <= T -> Rabs (f l - f 0) <= M * T.
Proof.
  intros HT D H l Hl. destruct (MVT_gen f 0 l f') as (c & [C1 C2] & ->).
  - intros u _. apply D.
  - intros u _. apply continuity_pt_filterlim. apply (ex_derive_continuous (V := R_NormedModule)). exists (f' u). apply D.
  - rewrite Rminus_0_r, Rabs_mult. apply Rmult_le_compat; try apply Rabs_pos; [|exact Hl]. apply H.
    apply Rabs_le_between in Hl. apply Rabs_le_between. unfold Rmin, Rmax in *. destruct (Rle_dec 0 l); lra.
Qed.
(** the primitive of a convergent sequence with convergent initial values converges *)
Lemma converges_primitive (fn gn : nat -> R -> R) (f g : R -> R) :
  (forall n l, is_derive (fn n) l (gn n l)) -> (forall l, is_derive f l (g l)) ->
  converges gn g -> is_lim_seq (fun n => fn n 0) (f 0) -> converges fn f.
Proof.
  intros Dn D C I T eps He. set (S := Rmax T 0 + 1). assert (S0 : 0 < S) by (unfold S; pose proof (Rmax_r T 0); lra).
  assert (E1 : 0 < eps / (2 * S)) by (apply Rdiv_lt_0_compat; lra).
  destruct (C S (eps / (2 * S)) E1) as [N1 K1]. destruct (eventually_small _ _ (eps / 2) I ltac:(lra)) as [N2 K2].
  exists (N1 + N2)%nat. intros n Hn l Hl. specialize (K1 n ltac:(lia)). specialize (K2 n ltac:(lia)). cbv beta in K2.
  assert (Hl' : Rabs l <= S) by (unfold S; pose proof (Rmax_l T 0); lra).
  pose proof (increment_bound (fun l => fn n l - f l) (fun l => gn n l - g l) S (eps / (2 * S)) ltac:(lra)) as MV. cbv beta in MV.
  assert (B : Rabs (fn n l - f l - (fn n 0 - f 0)) <= eps / (2 * S) * S).
  { apply MV; [|intros u Hu; left; now apply K1|exact Hl']. intros u. exact (is_derive_minus (fn n) f u _ _ (Dn n u) (D u)). }
  replace (eps / (2 * S) * S) with (eps / 2) in B by (field; lra).
  replace (fn n l - f l) with ((fn n l - f l - (fn n 0 - f 0)) + (fn n 0 - f 0)) by ring.
  pose proof (Rabs_triang (fn n l - f l - (fn n 0 - f 0)) (fn n 0 - f 0)). lra.
Qed.

(** ** Gronwall *)
Lemma gronwall (W W' : R -> R) (C d : R) : 0 <= C -> 0 <= d -> (forall l, is_derive W l (W' l)) -> (forall l, 0 <= l -> W' l <= C * W l + d) ->
  forall l, 0 <= l -> W l <= (W 0 + d * l) * exp (C * l).
Proof.
  intros HC Hd D H l Hl. set (g := fun l => exp (- C * l) * W l - d * l).
  assert (G : g l <= g 0).
  { destruct (Req_dec l 0) as [->|N]; [lra|].
    destruct (MVT_gen g 0 l (fun u => exp (- C * u) * (W' u - C * W u) - d)) as (c & [C1 C2] & E).
    - intros u _. unfold g. auto_derive; [now exists (W' u)|]. rewrite (is_derive_unique (fun x : R => W x) _ _ (D u)). ring.
    - intros u _. apply continuity_pt_filterlim. apply (ex_derive_continuous (V := R_NormedModule)). unfold g. auto_derive. now exists (W' u).
    - rewrite Rmin_left, Rmax_right in * by lra. specialize (H c C1).
      assert (0 < exp (- C * c) <= 1). { split; [apply exp_pos|]. rewrite <- exp_0. destruct (Req_dec (- C * c) 0) as [->|]; [lra|]. left. apply exp_increasing. nra. }
      assert (exp (- C * c) * (W' c - C * W c) <= d). { apply Rle_trans with (exp (- C * c) * d); [apply Rmult_le_compat_l; lra | nra]. }
      rewrite Rminus_0_r in E. assert ((exp (- C * c) * (W' c - C * W c) - d) * l <= 0) by nra. lra. }
  unfold g in G. rewrite !Rmult_0_r, exp_0, Rmult_1_l, Rminus_0_r in G.
  assert (EE : exp (- C * l) * exp (C * l) = 1) by (rewrite <- exp_plus; replace (- C * l + C * l) with 0 by ring; apply exp_0).
  pose proof (exp_pos (C * l)). replace (W l) with ((exp (- C * l) * W l) * exp (C * l)).
  - apply Rmult_le_compat_r; lra.
  - transitivity (W l * (exp (- C * l) * exp (C * l))); [ring | rewrite EE; ring].
Qed.

Definition cubic (c0 c1 c2 c3 y : R) : R := c0 + c1 * y + c2 * y^2 + c3 * y^3.
Lemma cubic_lipschitz c0 c1 c2 c3 B y z : Rabs y <= B -> Rabs z <= B ->
  Rabs (cubic c0 c1 c2 c3 y - cubic c0 c1 c2 c3 z) <= (Rabs c1 + Rabs c2 * (2 * B) + Rabs c3 * (3 * B^2)) * Rabs (y - z).
Proof.
  intros Hy Hz. unfold cubic.
  replace (c0 + c1 * y + c2 * y^2 + c3 * y^3 - (c0 + c1 * z + c2 * z^2 + c3 * z^3)) with ((c1 + c2 * (y + z) + c3 * (y^2 + y * z + z^2)) * (y - z)) by ring.
  rewrite Rabs_mult. apply Rmult_le_compat_r; [apply Rabs_pos|].
  pose proof (Rabs_triang (c1 + c2 * (y + z)) (c3 * (y^2 + y * z + z^2))). pose proof (Rabs_triang c1 (c2 * (y + z))). rewrite !Rabs_mult in *.
  assert (Rabs (y + z) <= 2 * B) by (pose proof (Rabs_triang y z); lra).
  assert (Rabs (y^2 + y * z + z^2) <= 3 * B^2).
  { pose proof (Rabs_triang (y^2 + y * z) (z^2)). pose proof (Rabs_triang (y^2) (y * z)). rewrite Rabs_mult, <- !RPow_abs in *.
    pose proof (Rabs_pos y). pose proof (Rabs_pos z). nra. }
  assert (Rabs c2 * Rabs (y + z) <= Rabs c2 * (2 * B)) by (apply Rmult_le_compat_l; [apply Rabs_pos | assumption]).
  assert (Rabs c3 * Rabs (y^2 + y * z + z^2) <= Rabs c3 * (3 * B^2)) by (apply Rmult_le_compat_l; [apply Rabs_pos | assumption]).
  lra.
Qed.
Lemma cubic_close c0 c1 c2 c3 b0 b1 b2 b3 B y : Rabs y <= B -> Rabs (cubic c0 c1 c2 c3 y - cubic b0 b1 b2 b3 y) <=
  Rabs (c0 - b0) + Rabs (c1 - b1) * B + Rabs (c2 - b2) * B^2 + Rabs (c3 - b3) * B^3.
Proof.
  intros Hy. unfold cubic. pose proof (Rabs_pos y) as Y.
  replace (c0 + c1 * y + c2 * y^2 + c3 * y^3 - (b0 + b1 * y + b2 * y^2 + b3 * y^3)) with ((c0 - b0) + (c1 - b1) * y + (c2 - b2) * y^2 + (c3 - b3) * y^3) by ring.
  set (d0 := c0 - b0). set (d1 := c1 - b1). set (d2 := c2 - b2). set (d3 := c3 - b3).
  pose proof (Rabs_triang (d0 + d1 * y + d2 * y^2) (d3 * y^3)). pose proof (Rabs_triang (d0 + d1 * y) (d2 * y^2)). pose proof (Rabs_triang d0 (d1 * y)).
  rewrite !Rabs_mult in *. rewrite <- !RPow_abs in *.
  assert (Rabs y ^2 <= B^2) by (apply pow_incr; lra). assert (Rabs y ^3 <= B^3) by (apply pow_incr; lra).
  assert (Rabs d1 * Rabs y <= Rabs d1 * B) by (apply Rmult_le_compat_l; [apply Rabs_pos | assumption]).
  assert (Rabs d2 * Rabs y ^2 <= Rabs d2 * B^2) by (apply Rmult_le_compat_l; [apply Rabs_pos | assumption]).
  assert (Rabs d3 * Rabs y ^3 <= Rabs d3 * B^3) by (apply Rmult_le_compat_l; [apply Rabs_pos | assumption]).
  lra.
Qed.

Section Flow.
Context (c0n c1n c2n c3n : nat -> R) (c0 c1 c2 c3 B : R).
Context (L0 : is_lim_seq c0n c0) (L1 : is_lim_seq c1n c1) (L2 : is_lim_seq c2n c2) (L3 : is_lim_seq c3n c3).
Notation K := (Rabs c1 + Rabs c2 * (2 * B) + Rabs c3 * (3 * B^2)).

Lemma force_defect : 0 <= B -> exists d : nat -> R, is_lim_seq d 0 /\ (forall n, 0 <= d n) /\ forall n y z, Rabs y <= B -> Rabs z <= B ->
  Rabs (cubic (c0n n) (c1n n) (c2n n) (c3n n) y - cubic c0 c1 c2 c3 z) <= d n + K * Rabs (y - z).
Proof.
  intros HB. exists (fun n => Rabs (c0n n - c0) + Rabs (c1n n - c1) * B + Rabs (c2n n - c2) * B^2 + Rabs (c3n n - c3) * B^3). split; [|split].
  - assert (Z : forall (u : nat -> R) (v k : R), is_lim_seq u v -> is_lim_seq (fun n => Rabs (u n - v) * k) 0).
    { intros u v k H. replace (Finite 0) with (Finite (Rabs (v - v) * k)) by (rewrite Rminus_eq_0, Rabs_R0, Rmult_0_l; reflexivity).
      apply is_lim_seq_mult'; [|apply is_lim_seq_const]. apply (is_lim_seq_abs _ (v - v)). apply is_lim_seq_minus'; [exact H | apply is_lim_seq_const]. }
    replace (Finite 0) with (Finite (0 + 0 + 0 + 0)) by (f_equal; ring).
    apply is_lim_seq_plus'; [apply is_lim_seq_plus'; [apply is_lim_seq_plus'|]|]; [|apply Z; assumption..].
    apply (is_lim_seq_ext (fun n => Rabs (c0n n - c0) * 1)); [intros n; ring | now apply Z].
  - intros n. assert (0 <= B^2 /\ 0 <= B^3) as [B2 B3] by (split; apply pow_le; lra). pose proof (Rabs_pos (c0n n - c0)).
    pose proof (Rmult_le_pos _ _ (Rabs_pos (c1n n - c1)) HB). pose proof (Rmult_le_pos _ _ (Rabs_pos (c2n n - c2)) B2). pose proof (Rmult_le_pos _ _ (Rabs_pos (c3n n - c3)) B3). lra.
  - intros n y z Hy Hz. pose proof (cubic_close (c0n n) (c1n n) (c2n n) (c3n n) c0 c1 c2 c3 B y Hy). pose proof (cubic_lipschitz c0 c1 c2 c3 B y z Hy Hz).
    replace (cubic (c0n n) (c1n n) (c2n n) (c3n n) y - cubic c0 c1 c2 c3 z) with ((cubic (c0n n) (c1n n) (c2n n) (c3n n) y - cubic c0 c1 c2 c3 y) + (cubic c0 c1 c2 c3 y - cubic c0 c1 c2 c3 z)) by ring.
    pose proof (Rabs_triang (cubic (c0n n) (c1n n) (c2n n) (c3n n) y - cubic c0 c1 c2 c3 y) (cubic c0 c1 c2 c3 y - cubic c0 c1 c2 c3 z)). lra.
Qed.

Lemma forward (yn vn : nat -> R -> R) (y v : R -> R) : 0 <= B ->
  (forall n l, is_derive (yn n) l (vn n l)) -> (forall n l, is_derive (vn n) l (cubic (c0n n) (c1n n) (c2n n) (c3n n) (yn n l))) ->
  (forall l, is_derive y l (v l)) -> (forall l, is_derive v l (cubic c0 c1 c2 c3 (y l))) ->
  (forall n l, Rabs (yn n l) <= B) -> (forall l, Rabs (y l) <= B) ->
  is_lim_seq (fun n => yn n 0) (y 0) -> is_lim_seq (fun n => vn n 0) (v 0) ->
  forall T eps, 0 < eps -> exists N : nat, forall n, (N <= n)%nat -> forall l, 0 <= l <= T -> Rabs (yn n l - y l) < eps /\ Rabs (vn n l - v l) < eps.
Proof.
  intros HB Dy Dv D1 D2 Bn B0 I1 I2 T eps He. destruct (force_defect HB) as (d & Ld & d0 & HD).
  assert (K0 : 0 <= K).
  { pose proof (Rabs_pos c1). pose proof (Rmult_le_pos _ _ (Rabs_pos c2) HB). assert (0 <= B^2) by (apply pow_le; lra). pose proof (Rmult_le_pos _ _ (Rabs_pos c3) H1). lra. }
  set (C := 2 + K). set (W0 := fun n => (yn n 0 - y 0)^2 + (vn n 0 - v 0)^2 + d n ^2 * Rmax T 0).
  assert (LW : is_lim_seq (fun n => W0 n * exp (C * Rmax T 0)) 0).
  { replace (Finite 0) with (Finite (((y 0 - y 0)^2 + (v 0 - v 0)^2 + 0 ^2 * Rmax T 0) * exp (C * Rmax T 0))) by (f_equal; ring).
    apply is_lim_seq_mult'; [|apply is_lim_seq_const]. unfold W0. cbn [pow].
    repeat first [apply is_lim_seq_plus' | apply is_lim_seq_mult' | apply is_lim_seq_minus' | apply is_lim_seq_const | assumption]. }
  destruct (eventually_small _ _ (eps^2) LW ltac:(apply pow_lt; lra)) as [N KN].
  exists N. intros n Hn l Hl. specialize (KN n Hn). cbv beta in KN. rewrite Rminus_0_r in KN.
  set (W := fun l => (yn n l - y l)^2 + (vn n l - v l)^2).
  assert (G : W l <= (W 0 + d n ^2 * l) * exp (C * l)).
  { apply (gronwall W (fun l => 2 * (yn n l - y l) * (vn n l - v l) + 2 * (vn n l - v l) * (cubic (c0n n) (c1n n) (c2n n) (c3n n) (yn n l) - cubic c0 c1 c2 c3 (y l)))); [unfold C; lra | apply pow2_ge_0 | | |lra].
    - intros u. unfold W. auto_derive.
      + refine (conj _ (conj _ (conj _ (conj _ I)))); [exists (vn n u); apply Dy | exists (v u); apply D1 | eexists; apply Dv | eexists; apply D2].
      + rewrite (is_derive_unique (fun x : R => yn n x) _ _ (Dy n u)), (is_derive_unique (fun x : R => y x) _ _ (D1 u)), (is_derive_unique (fun x : R => vn n x) _ _ (Dv n u)), (is_derive_unique (fun x : R => v x) _ _ (D2 u)). ring.
    - intros u _. unfold W, C. specialize (HD n (yn n u) (y u) (Bn n u) (B0 u)).
      set (f := cubic (c0n n) (c1n n) (c2n n) (c3n n) (yn n u) - cubic c0 c1 c2 c3 (y u)) in *. set (s := yn n u - y u) in *. set (w := vn n u - v u) in *.
      assert (2 * w * f <= 2 * (Rabs w * (d n + K * Rabs s))).
      { apply Rle_trans with (2 * (Rabs w * Rabs f)).
        - rewrite <- Rabs_mult. pose proof (Rle_abs (w * f)). lra.
        - apply Rmult_le_compat_l; [lra|]. apply Rmult_le_compat_l; [apply Rabs_pos | exact HD]. }
      pose proof (pow2_abs w) as W2. pose proof (pow2_abs s) as S2. pose proof (pow2_ge_0 (Rabs w - d n)). pose proof (pow2_ge_0 (Rabs w - Rabs s)). pose proof (pow2_ge_0 (s - w)).
      assert (K * (2 * (Rabs w * Rabs s)) <= K * (s^2 + w^2)) by (apply Rmult_le_compat_l; [exact K0 | nra]).
      nra. }
  assert (G2 : W l < eps^2).
  { apply Rle_lt_trans with (W0 n * exp (C * Rmax T 0)); [|apply Rabs_def2 in KN; lra].
    apply Rle_trans with (1 := G). pose proof (Rmax_l T 0). apply Rmult_le_compat.
    - unfold W. pose proof (pow2_ge_0 (yn n 0 - y 0)). pose proof (pow2_ge_0 (vn n 0 - v 0)). pose proof (Rmult_le_pos _ _ (pow2_ge_0 (d n)) (proj1 Hl)). lra.
    - left. apply exp_pos.
    - unfold W, W0. pose proof (Rmult_le_compat_l (d n ^2) l (Rmax T 0) (pow2_ge_0 _) ltac:(lra)). lra.
    - assert (C * l <= C * Rmax T 0) by (apply Rmult_le_compat_l; [unfold C; lra | lra]). destruct (Req_dec (C * l) (C * Rmax T 0)) as [->|]; [lra|]. left. apply exp_increasing. lra. }
  unfold W in G2. pose proof (pow2_ge_0 (yn n l - y l)). pose proof (pow2_ge_0 (vn n l - v l)).
  split; apply Rnot_le_lt; intros Z; apply (pow_incr _ _ 2) in Z || idtac.
  - assert (eps^2 <= Rabs (yn n l - y l)^2) by (apply pow_incr; lra). rewrite pow2_abs in *. lra.
  - assert (eps^2 <= Rabs (vn n l - v l)^2) by (apply pow_incr; lra). rewrite pow2_abs in *. lra.
Qed.

Theorem cubic_flow (yn vn : nat -> R -> R) (y v : R -> R) :
  (forall n l, is_derive (yn n) l (vn n l)) -> (forall n l, is_derive (vn n) l (cubic (c0n n) (c1n n) (c2n n) (c3n n) (yn n l))) ->
  (forall l, is_derive y l (v l)) -> (forall l, is_derive v l (cubic c0 c1 c2 c3 (y l))) ->
  (forall n l, Rabs (yn n l) <= B) -> (forall l, Rabs (y l) <= B) ->
  is_lim_seq (fun n => yn n 0) (y 0) -> is_lim_seq (fun n => vn n 0) (v 0) -> converges yn y /\ converges vn v.
Proof.
  intros Dy Dv D1 D2 Bn B0 I1 I2.
  assert (HB : 0 <= B) by (pose proof (B0 0); pose proof (Rabs_pos (y 0)); lra).
  pose proof (forward yn vn y v HB Dy Dv D1 D2 Bn B0 I1 I2) as FW.
  assert (BW : forall T eps, 0 < eps -> exists N : nat, forall n, (N <= n)%nat -> forall l, 0 <= l <= T -> Rabs (yn n (- l) - y (- l)) < eps /\ Rabs (- vn n (- l) - - v (- l)) < eps).
  { assert (R1 : forall f d l, is_derive f (- l) d -> is_derive (fun l : R => f (- l)) l (- d)).
    { intros f d l H. replace (- d) with ((- 1) * d) by ring. apply (is_derive_comp f (fun l => - l)); [exact H|]. auto_derive; [trivial | ring]. }
    assert (R2 : forall f d l, is_derive f (- l) d -> is_derive (fun l : R => - f (- l)) l d).
    { intros f d l H. replace d with (- - d) by ring. apply (is_derive_opp (fun l => f (- l))). now apply R1. }
    apply (forward (fun n l => yn n (- l)) (fun n l => - vn n (- l)) (fun l => y (- l)) (fun l => - v (- l)) HB).
    - intros n l. apply R1, Dy.
    - intros n l. apply R2, Dv.
    - intros l. apply R1, D1.
    - intros l. apply R2, D2.
    - intros n l. apply Bn.
    - intros l. apply B0.
    - rewrite Ropp_0. exact I1.
    - rewrite Ropp_0. apply (is_lim_seq_opp (fun n => vn n 0) (v 0)), I2. }
  split; intros T eps He; destruct (FW T eps He) as [N1 K1]; destruct (BW T eps He) as [N2 K2]; exists (N1 + N2)%nat; intros n Hn l Hl; apply Rabs_le_between in Hl; destruct (Rle_dec 0 l) as [P|P].
  - apply (K1 n ltac:(lia) l). lra.
  - destruct (K2 n ltac:(lia) (- l) ltac:(lra)) as [Z _]. now rewrite Ropp_involutive in Z.
  - apply (K1 n ltac:(lia) l). lra.
  - destruct (K2 n ltac:(lia) (- l) ltac:(lra)) as [_ Z]. rewrite Ropp_involutive in Z.
    replace (vn n l - v l) with (- (- vn n l - - v l)) by ring. now rewrite Rabs_Ropp.
Qed.
End Flow.

(** * Approach of a geodesic to the outer horizon: finite Mino time, infinite coordinate time *)
From Coq Require Import Reals Lra Lia ZArith.
From Coquelicot Require Import Coquelicot.
From Verif Require Import Spec P_Traj Props_Future.
Open Scope R_scope.

(** first zero of a continuous function *)
Lemma first_crossing (f : R -> R) l0 l1 : (forall l, continuous f l) -> l0 < l1 -> 0 < f l0 -> f l1 <= 0 ->
  exists lH, l0 < lH <= l1 /\ f lH = 0 /\ forall l, l0 <= l < lH -> 0 < f l.
Proof.
  intros C L P N.
  set (S := fun x => l0 <= x <= l1 /\ forall l, l0 <= l <= x -> 0 < f l).
  destruct (completeness S) as [lH [UB LB]].
  - exists l1. intros x [K _]. lra.
  - exists l0. split; [lra|]. intros l Hl. replace l with l0 by lra. exact P.
  - assert (B0 : l0 <= lH). { apply UB. split; [lra|]. intros l Hl. replace l with l0 by lra. exact P. }
    assert (B1 : lH <= l1). { apply LB. intros x [K _]. lra. }
    assert (BEF : forall l, l0 <= l < lH -> 0 < f l).
    { intros l Hl. apply Rnot_le_lt. intros K. assert (lH <= l); [|lra]. apply LB. intros x [Hx Fx]. apply Rnot_lt_le. intros G. specialize (Fx l ltac:(lra)). lra. }
    assert (Z1 : ~ 0 < f lH).
    { intros K. destruct (C lH (fun y => 0 < y) (open_gt 0 (f lH) K)) as [d Hd]. destruct d as [d D]. cbn [pos] in Hd.
      assert (L1 : lH < l1). { destruct (Req_dec lH l1) as [Z|Z]; [rewrite Z in K; lra | lra]. }
      set (m := Rmin (d / 2) (l1 - lH)). assert (M : 0 < m /\ m <= d / 2 /\ m <= l1 - lH) by (unfold m; split; [apply Rmin_pos; lra | split; [apply Rmin_l | apply Rmin_r]]).
      assert (lH + m <= lH); [|lra]. apply UB. split; [lra|]. intros l Hl. destruct (Rlt_dec l lH) as [K1|K1]; [apply BEF; lra|].
      apply Hd. unfold ball; simpl; unfold AbsRing_ball, abs, minus, plus, opp; simpl. apply Rabs_def1; lra. }
    assert (Z2 : ~ f lH < 0).
    { intros K. destruct (C lH (fun y => y < 0) (open_lt 0 (f lH) K)) as [d Hd]. destruct d as [d D]. cbn [pos] in Hd.
      assert (L1 : l0 < lH). { destruct (Req_dec lH l0) as [Z|Z]; [rewrite Z in K; lra | lra]. }
      set (m := Rmin (d / 2) (lH - l0)). assert (M : 0 < m /\ m <= d / 2 /\ m <= lH - l0) by (unfold m; split; [apply Rmin_pos; lra | split; [apply Rmin_l | apply Rmin_r]]).
      pose proof (BEF (lH - m) ltac:(lra)) as G. assert (f (lH - m) < 0); [|lra]. apply Hd. unfold ball; simpl; unfold AbsRing_ball, abs, minus, plus, opp; simpl. apply Rabs_def1; lra. }
    assert (Z : f lH = 0) by lra. exists lH. split; [|split; [exact Z | exact BEF]]. split; [|exact B1]. destruct (Req_dec lH l0) as [G|G]; [rewrite G in Z; lra | lra].
Qed.

Lemma dt_reverse a E L r th : dt_dlambda a (- E) (- L) r th = - dt_dlambda a E L r th.
Proof. unfold dt_dlambda, Rdiv. ring. Qed.

Section H.
Context (a E L Q : R) (t r th : R -> R) (l0 lH : R).
Context (Ha : a^2 < 1) (HQ : 0 <= Q) (HL : l0 < lH).
Context (Dr : forall l, exists d, is_derive r l d /\ d^2 = radial_potential a E L Q (r l)).
Context (Hth : forall l, 0 < sin (th l) /\ 0 <= polar_potential a E L Q (th l)).
Context (Dt : forall l, l0 <= l < lH -> is_derive t l (dt_dlambda a E L (r l) (th l))).
Context (Out : forall l, l0 <= l < lH -> rp a < r l) (At : r lH = rp a) (HN : 2 * E * rp a <> a * L).
Context (H0 : 0 < dt_dlambda a E L (r l0) (th l0)).
Let P (x : R) : R := E * (x^2 + a^2) - a * L.
Lemma hz_rp : 0 < sqrt (1 - a^2) /\ 1 < rp a /\ rp a + rm a = 2 /\ rp a * rm a = a^2 /\ 0 <= rm a < 1.
Proof.
  assert (S : 0 < 1 - a^2) by lra. pose proof (sqrt_lt_R0 _ S) as S1. pose proof (pow2_sqrt _ (Rlt_le _ _ S)) as S2. pose proof (pow2_ge_0 a).
  unfold rp, rm. repeat split; try lra; nra.
Qed.
Lemma hz_Delta x : Delta a x = (x - rp a) * (x - rm a).
Proof. destruct hz_rp as (_ & _ & S1 & S2 & _). unfold Delta. rewrite <- S2. replace (rm a) with (2 - rp a) by lra. ring. Qed.
Lemma hz_Dpos x : rp a < x -> 0 < Delta a x.
Proof. intros K. destruct hz_rp as (_ & S0 & S1 & S2 & S3). rewrite hz_Delta. apply Rmult_lt_0_compat; lra. Qed.
Lemma hz_r_cont l : continuous r l.
Proof. destruct (Dr l) as (d & D & _). apply (ex_derive_continuous (V := R_NormedModule)). now exists d. Qed.
Lemma hz_P_cont l : continuous (fun l => P (r l)) l.
Proof. destruct (Dr l) as (d & D & _). apply (ex_derive_continuous (V := R_NormedModule)). unfold P. auto_derive. exists d; exact D. Qed.
Lemma hz_P_nz l : l0 <= l < lH -> P (r l) <> 0.
Proof.
  intros Hl Z. destruct (Dr l) as (d & _ & D). pose proof (Out l Hl) as O. pose proof (hz_Dpos _ O) as DP. destruct hz_rp as (_ & S0 & _).
  unfold radial_potential in D. fold (P (r l)) in D. rewrite Z in D. pose proof (pow2_ge_0 d). pose proof (pow2_ge_0 (L - a * E)).
  assert (0 < Delta a (r l) * (r l ^2 + (L - a * E)^2 + Q)); [|lra]. apply Rmult_lt_0_compat; [exact DP|]. assert (0 < r l ^2) by (apply pow_lt; lra). lra.
Qed.
Lemma hz_P0 : 0 < P (r l0).
Proof.
  destruct (Rtotal_order (P (r l0)) 0) as [K|[K|K]]; [|exfalso; apply (hz_P_nz l0); [lra|exact K]|exact K].
  exfalso. pose proof (Out l0 ltac:(lra)) as O. destruct hz_rp as (_ & S0 & _).
  assert (T : r l0 ^2 <= dt_dlambda a (- E) (- L) (r l0) (th l0)).
  { apply (dt_lower a (- E) (- L) Q); [now apply hz_Dpos | lra | apply Hth | exact HQ | | |].
    - unfold P in K. lra.
    - destruct (Dr l0) as (d & _ & D). replace (radial_potential a (- E) (- L) Q (r l0)) with (radial_potential a E L Q (r l0)) by (unfold radial_potential; ring). rewrite <- D. apply pow2_ge_0.
    - replace (polar_potential a (- E) (- L) Q (th l0)) with (polar_potential a E L Q (th l0)); [apply Hth|]. unfold polar_potential. replace ((- L)^2) with (L^2) by ring. replace ((- E)^2) with (E^2) by ring. reflexivity. }
  rewrite dt_reverse in T. pose proof (pow2_ge_0 (r l0)). lra.
Qed.
Lemma hz_P_pos l : l0 <= l <= lH -> 0 < P (r l).
Proof.
  intros Hl. apply Rnot_le_lt. intros K. destruct Hl as [H1 H2]. destruct H1 as [H1|H1]; [|rewrite <- H1 in K; pose proof hz_P0; lra].
  destruct (first_crossing (fun l => P (r l)) l0 l hz_P_cont H1 hz_P0 K) as (x & X1 & X2 & _).
  destruct (Rlt_dec x lH) as [G|G]; [apply (hz_P_nz x ltac:(lra) X2)|].
  replace x with lH in X2 by lra. rewrite At in X2. unfold P in X2. destruct hz_rp as (_ & _ & S1 & S2 & _).
  apply HN. assert (V : rp a ^2 + a^2 = 2 * rp a) by (rewrite <- S2; replace (rm a) with (2 - rp a) by lra; ring). rewrite V in X2. lra.
Qed.
Lemma hz_dt l : l0 <= l < lH -> 0 < dt_dlambda a E L (r l) (th l).
Proof.
  intros Hl. pose proof (Out l Hl) as O. destruct hz_rp as (_ & S0 & _).
  assert (T : r l ^2 <= dt_dlambda a E L (r l) (th l)).
  { apply (dt_lower a E L Q); [now apply hz_Dpos | lra | apply Hth | exact HQ | apply hz_P_pos; lra | | apply Hth].
    destruct (Dr l) as (d & _ & D). rewrite <- D. apply pow2_ge_0. }
  assert (0 < r l ^2) by (apply pow_lt; lra). lra.
Qed.
Lemma hz_increasing l m : l0 <= l -> l < m -> m < lH -> t l < t m.
Proof.
  intros H1 H2 H3. destruct (MVT_gen t l m (fun x => dt_dlambda a E L (r x) (th x))) as (z & Z1 & Z2).
  - intros x Hx. rewrite Rmin_left, Rmax_right in Hx by lra. apply Dt. lra.
  - intros x Hx. rewrite Rmin_left, Rmax_right in Hx by lra. apply continuity_pt_filterlim. apply (ex_derive_continuous (V := R_NormedModule) t x). eexists. apply Dt. lra.
  - rewrite Rmin_left, Rmax_right in Z1 by lra. pose proof (hz_dt z ltac:(lra)). assert (0 < dt_dlambda a E L (r z) (th z) * (m - l)) by (apply Rmult_lt_0_compat; lra). lra.
Qed.
Lemma hz_diverges : filterlim t (at_left lH) (Rbar_locally p_infty).
Proof.
  destruct hz_rp as (_ & S0 & S1 & S2 & S3). assert (V : rp a ^2 + a^2 = 2 * rp a) by (rewrite <- S2; replace (rm a) with (2 - rp a) by lra; ring).
  set (F := fun l => (r l ^2 + a^2) * P (r l)). set (c := F lH / 2).
  assert (PH : 0 < P (r lH)) by (apply hz_P_pos; lra).
  assert (c0 : 0 < c). { unfold c, F. apply Rmult_lt_0_compat; [|lra]. apply Rmult_lt_0_compat; [rewrite At, V; lra | exact PH]. }
  assert (CF : continuous F lH). { destruct (Dr lH) as (d & D & _). apply (ex_derive_continuous (V := R_NormedModule)). unfold F, P. auto_derive. repeat split; exists d; exact D. }
  set (M2 := radial_potential a E L Q (r lH) + 1).
  assert (CR : continuous (fun l => radial_potential a E L Q (r l)) lH). { destruct (Dr lH) as (d & D & _). apply (ex_derive_continuous (V := R_NormedModule)). unfold radial_potential, Delta. auto_derive. repeat split; exists d; exact D. }
  destruct (CF (fun y => c < y)) as [d1 N1]. { apply open_gt. unfold c. unfold c in c0. lra. }
  destruct (CR (fun y => y < M2)) as [d2 N2]. { apply open_lt. unfold M2. lra. }
  destruct (hz_r_cont lH (fun y => y < rp a + 1)) as [d3 N3]. { apply open_lt. rewrite At. lra. }
  assert (M0 : 1 <= M2). { unfold M2. destruct (Dr lH) as (d & _ & D). rewrite <- D. pose proof (pow2_ge_0 d). lra. }
  assert (MM : exists M, 0 < M /\ M2 <= M^2) by (exists M2; split; nra). destruct MM as (M & MP & MM).
  destruct d1 as [d1 D1], d2 as [d2 D2], d3 as [d3 D3]. cbn [pos] in *.
  set (w := Rmin (Rmin (d1 / 2) (d2 / 2)) (Rmin (d3 / 2) (lH - l0))).
  assert (W : 0 < w /\ w <= d1 / 2 /\ w <= d2 / 2 /\ w <= d3 / 2 /\ w <= lH - l0).
  { unfold w. split; [repeat apply Rmin_pos; lra|]. split; [eapply Rle_trans; [apply Rmin_l|apply Rmin_l]|]. split; [eapply Rle_trans; [apply Rmin_l|apply Rmin_r]|].
    split; [eapply Rle_trans; [apply Rmin_r|apply Rmin_l] | eapply Rle_trans; [apply Rmin_r|apply Rmin_r]]. }
  clearbody w. set (l1 := lH - w).
  assert (BB : forall d l, l1 <= l <= lH -> w <= d / 2 -> 0 < d -> ball lH d l).
  { intros d l Hl Hw Hd. unfold ball; simpl; unfold AbsRing_ball, abs, minus, plus, opp; simpl. unfold l1 in Hl. apply Rabs_def1; lra. }
  assert (R1 : forall l, l1 <= l < lH -> r l - rp a <= M * (lH - l)).
  { intros l Hl. destruct (MVT_gen r l lH (fun x => Derive r x)) as (z & Z1 & Z2).
    - intros x _. destruct (Dr x) as (d & D & _). apply Derive_correct. now exists d.
    - intros x _. apply continuity_pt_filterlim. apply hz_r_cont.
    - rewrite Rmin_left, Rmax_right in Z1 by lra. destruct (Dr z) as (d & D & D'). rewrite (is_derive_unique r z d D) in Z2. rewrite At in Z2.
      assert (K : radial_potential a E L Q (r z) < M2) by (apply N2, BB; lra).
      assert (- d <= M) by nra. assert (- d * (lH - l) <= M * (lH - l)) by (apply Rmult_le_compat_r; lra). lra. }
  set (C := Rabs (a * L) + a^2 * Rabs E). assert (C0 : 0 <= C). { unfold C. pose proof (Rabs_pos (a * L)). pose proof (Rabs_pos E). pose proof (pow2_ge_0 a). assert (0 <= a^2 * Rabs E) by (apply Rmult_le_pos; lra). lra. }
  set (k := c / (3 * M)). assert (k0 : 0 < k) by (unfold k; apply Rdiv_lt_0_compat; lra).
  assert (LOW : forall l, l1 <= l < lH -> k / (lH - l) - C <= dt_dlambda a E L (r l) (th l)).
  { intros l Hl. unfold dt_dlambda. assert (Hl' : l0 <= l < lH) by (unfold l1 in Hl; lra). pose proof (Out l Hl') as O. pose proof (hz_Dpos _ O) as DP.
    assert (K1 : c < F l) by (apply N1, BB; lra). assert (K3 : r l < rp a + 1) by (apply N3, BB; lra).
    assert (DU : Delta a (r l) <= 3 * M * (lH - l)).
    { rewrite hz_Delta. pose proof (R1 l Hl). assert ((r l - rp a) * (r l - rm a) <= M * (lH - l) * 3); [|lra]. apply Rmult_le_compat; lra. }
    assert (T1 : k / (lH - l) <= (r l ^2 + a^2) / Delta a (r l) * (E * (r l ^2 + a^2) - a * L)).
    { replace ((r l ^2 + a^2) / Delta a (r l) * (E * (r l ^2 + a^2) - a * L)) with (F l / Delta a (r l)) by (unfold F, P; field; lra).
      replace (k / (lH - l)) with (c * / (3 * M * (lH - l))) by (unfold k; field; lra). unfold Rdiv. apply Rmult_le_compat; [lra | left; apply Rinv_0_lt_compat; nra | lra | apply Rinv_le_contravar; lra]. }
    assert (T2 : - C <= a * (L - a * E * sin (th l) ^2)).
    { unfold C. replace (a * (L - a * E * sin (th l) ^2)) with (a * L - a^2 * (E * sin (th l) ^2)) by ring.
      assert (SS : 0 <= sin (th l) ^2 <= 1). { split; [apply pow2_ge_0|]. pose proof (SIN_bound (th l)). nra. }
      assert (E * sin (th l)^2 <= Rabs E). { pose proof (Rle_abs E). pose proof (Rabs_pos E). assert (E * sin (th l)^2 <= Rabs E * sin (th l) ^2) by (apply Rmult_le_compat_r; lra). nra. }
      assert (a^2 * (E * sin (th l)^2) <= a^2 * Rabs E) by (apply Rmult_le_compat_l; [apply pow2_ge_0 | lra]). pose proof (Rle_abs (- (a * L))). rewrite Rabs_Ropp in H2. lra. }
    lra. }
  assert (G : forall l, l1 <= l < lH -> t l1 + k * ln (lH - l1) - C * (lH - l1) - k * ln (lH - l) <= t l).
  { intros l Hl. destruct (Req_dec l l1) as [->|NL]; [assert (0 <= C * (lH - l1)) by (apply Rmult_le_pos; lra); lra|].
    set (g := fun x => t x + k * ln (lH - x) + C * x). set (g' := fun x => dt_dlambda a E L (r x) (th x) - k / (lH - x) + C).
    assert (DG : forall x, l1 <= x < lH -> is_derive g x (g' x)).
    { intros x Hx. pose proof (Dt x ltac:(unfold l1 in Hx; lra)) as D. unfold g, g'. auto_derive; [repeat split; [eexists; exact D | lra]|]. match goal with |- context [Derive ?f x] => change (Derive f x) with (Derive t x) end. rewrite (is_derive_unique t x _ D). field. lra. }
    destruct (MVT_gen g l1 l g') as (z & Z1 & Z2).
    - intros x Hx. rewrite Rmin_left, Rmax_right in Hx by lra. apply DG. lra.
    - intros x Hx. rewrite Rmin_left, Rmax_right in Hx by lra. apply continuity_pt_filterlim. apply (ex_derive_continuous (V := R_NormedModule) g x). eexists. apply DG. lra.
    - rewrite Rmin_left, Rmax_right in Z1 by lra. pose proof (LOW z ltac:(lra)) as K. assert (0 <= g' z * (l - l1)) by (apply Rmult_le_pos; [unfold g'; lra | lra]). unfold g in Z2.
      assert (C * l <= C * lH) by (apply Rmult_le_compat_l; lra). lra. }
  intros Sx [B HB].
  set (y := (t l1 + k * ln (lH - l1) - C * (lH - l1) - B) / k).
  assert (EP : 0 < Rmin w (exp (y - 1))) by (apply Rmin_pos; [lra | apply exp_pos]).
  exists (mkposreal _ EP). intros l Bl Ll. cbn [pos] in Bl.
  assert (BL : lH - l < Rmin w (exp (y - 1))). { unfold ball in Bl; simpl in Bl; unfold AbsRing_ball, abs, minus, plus, opp in Bl; simpl in Bl. apply Rabs_def2 in Bl. lra. }
  pose proof (Rmin_l w (exp (y - 1))). pose proof (Rmin_r w (exp (y - 1))).
  apply HB. pose proof (G l ltac:(unfold l1; lra)) as K.
  assert (LN : ln (lH - l) < y - 1). { rewrite <- (ln_exp (y - 1)). apply ln_increasing; lra. }
  assert (k * ln (lH - l) < k * y). { apply Rmult_lt_compat_l; lra. }
  assert (k * y = t l1 + k * ln (lH - l1) - C * (lH - l1) - B) by (unfold y; field; lra). lra.
Qed.
End H.

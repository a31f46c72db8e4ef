(** * Irrational rotations are dense (used by C96) *)
From Coq Require Import Reals Lra Lia ZArith Classical ClassicalEpsilon.
From Coquelicot Require Import Coquelicot.
Open Scope R_scope.

(** no non-trivial integer relation *)
Definition incommensurable (u v : R) : Prop := forall j k : Z, IZR j * u = IZR k * v -> j = 0%Z /\ k = 0%Z.

Lemma zfloor (y g : R) : 0 < g -> exists j : Z, IZR j * g <= y < IZR j * g + g.
Proof.
  intros Hg. exists (up (y / g) - 1)%Z. rewrite minus_IZR. destruct (archimed (y / g)) as (A1 & A2).
  assert (Y : y = y / g * g) by (field; lra). set (q := y / g) in *. clearbody q. rewrite Y. nra.
Qed.

Section K.
Context (P Q : R) (HP : 0 < P) (HQ : 0 < Q) (HI : incommensurable P Q).
Definition G (g : R) : Prop := exists n k : Z, g = IZR n * P + IZR k * Q.
Lemma G_sub u v : G u -> G v -> G (u - v).
Proof. intros (n & k & ->) (n' & k' & ->). exists (n - n')%Z, (k - k')%Z. rewrite !minus_IZR. ring. Qed.
Lemma G_scale j u : G u -> G (IZR j * u).
Proof. intros (n & k & ->). exists (j * n)%Z, (j * k)%Z. rewrite !mult_IZR. ring. Qed.
Lemma G_P : G P. Proof. exists 1%Z, 0%Z. ring. Qed.
Lemma G_Q : G Q. Proof. exists 0%Z, 1%Z. ring. Qed.

(** arbitrarily small positive combinations *)
Lemma G_small del : 0 < del -> exists g, G g /\ 0 < g < del.
Proof.
  intros Hd. apply NNPP. intros N.
  assert (LB : forall g, G g -> 0 < g -> del <= g). { intros g Gg H. apply Rnot_lt_le. intros K. apply N. now exists g. }
  destruct (completeness (fun y => exists g, G g /\ 0 < g /\ y = - g)) as (m & M1 & M2).
  { exists 0. intros y (g & _ & H & ->). lra. }
  { exists (- P). exists P. split; [apply G_P | split; [exact HP | reflexivity]]. }
  (* the greatest lower bound -m is attained *)
  assert (MP : del <= - m). { assert (m <= - del); [|lra]. apply M2. intros y (g & Gg & H & ->). specialize (LB g Gg H). lra. }
  assert (GL : forall g, G g -> 0 < g -> - m <= g). { intros g Gg H. assert (- g <= m); [|lra]. apply M1. now exists g. }
  assert (AP : forall c, - m < c -> exists g, G g /\ 0 < g /\ g < c).
  { intros c Hc. apply NNPP. intros K. assert (m <= - c); [|lra]. apply M2. intros y (g & Gg & H & ->).
    assert (c <= g); [|lra]. apply Rnot_lt_le. intros K'. apply K. now exists g. }
  assert (Gm : G (- m)).
  { destruct (AP (- m + - m) ltac:(lra)) as (g & Gg & Hg & Lg). pose proof (GL g Gg Hg) as B.
    destruct (Req_dec g (- m)) as [->|Ne]; [exact Gg|]. exfalso.
    destruct (AP g ltac:(lra)) as (g' & Gg' & Hg' & Lg'). pose proof (GL g' Gg' Hg').
    pose proof (GL (g - g') (G_sub _ _ Gg Gg') ltac:(lra)). lra. }
  assert (ML : forall g, G g -> exists j, g = IZR j * - m).
  { intros g Gg. destruct (zfloor g (- m) ltac:(lra)) as (j & J1 & J2). exists j.
    destruct (Req_dec g (IZR j * - m)) as [E|Ne]; [exact E|]. exfalso.
    pose proof (GL (g - IZR j * - m) (G_sub _ _ Gg (G_scale j _ Gm)) ltac:(lra)). lra. }
  destruct (ML P G_P) as (i & Hi). destruct (ML Q G_Q) as (j & Hj).
  destruct (HI j i) as (J0 & I0). { rewrite Hi, Hj. ring. }
  rewrite J0 in Hj. rewrite Hj in HQ. lra.
Qed.

(** Kronecker: whole turns of P come back, as late as we like, within del of any point modulo Q *)
Lemma kronecker c del (N0 : R) : 0 < del -> exists n k : Z, N0 <= IZR n /\ Rabs (IZR n * P - IZR k * Q - c) < del.
Proof.
  intros Hd. destruct (G_small (Rmin del Q)) as (g & (n & k & Eg) & G0 & G1). { now apply Rmin_glb_lt. }
  assert (Gd : g < del) by (eapply Rlt_le_trans; [exact G1 | apply Rmin_l]). assert (GQ : g < Q) by (eapply Rlt_le_trans; [exact G1 | apply Rmin_r]).
  assert (Nn : n <> 0%Z).
  { intros ->. rewrite Rmult_0_l, Rplus_0_l in Eg. assert (0 < IZR k) by nra. apply (lt_IZR 0) in H.
    assert (1 <= IZR k) by (apply (IZR_le 1); lia). nra. }
  set (B := Rabs N0 + 1). assert (B0 : 0 < B) by (unfold B; pose proof (Rabs_pos N0); lra).
  assert (B1 : N0 <= B) by (unfold B; pose proof (Rle_abs N0); lra).
  (* a multiple of Q beyond everything *)
  destruct (zfloor ((B + 1) * g + Rabs c + Q) Q HQ) as (M & M1 & M2).
  assert (M3 : (B + 1) * g + Rabs c < IZR M * Q) by lra. pose proof (Rle_abs c) as C1. pose proof (Rle_abs (- c)) as C2. rewrite Rabs_Ropp in C2.
  destruct (Z_lt_le_dec 0 n) as [Hn|Hn].
  - destruct (zfloor (c + IZR M * Q) g G0) as (j & J1 & J2). exists (j * n)%Z, (M - j * k)%Z.
    assert (JB : B < IZR j). { apply Rnot_le_lt. intros K. assert (IZR j * g <= B * g) by (apply Rmult_le_compat_r; lra). lra. }
    split.
    + rewrite mult_IZR. assert (1 <= IZR n) by (apply (IZR_le 1); lia). nra.
    + rewrite minus_IZR, !mult_IZR. replace (IZR j * IZR n * P - (IZR M - IZR j * IZR k) * Q - c) with (IZR j * g - (c + IZR M * Q)) by (rewrite Eg; ring).
      apply Rabs_def1; lra.
  - destruct (zfloor (c - IZR M * Q) g G0) as (j & J1 & J2). exists (j * n)%Z, (- M - j * k)%Z.
    assert (JB : IZR j < - B). { apply Rnot_le_lt. intros K. assert (- B * g <= IZR j * g) by (apply Rmult_le_compat_r; lra). nra. }
    split.
    + rewrite mult_IZR. assert (IZR n <= -1) by (apply (IZR_le _ (-1)); lia). nra.
    + rewrite minus_IZR, opp_IZR, !mult_IZR. replace (IZR j * IZR n * P - (- IZR M - IZR j * IZR k) * Q - c) with (IZR j * g - (c - IZR M * Q)) by (rewrite Eg; ring).
      apply Rabs_def1; lra.
Qed.
End K.

(** sequential continuity is continuity *)
Lemma seq_continuity (f : R -> R) (p : R) : (forall pn : nat -> R, is_lim_seq pn p -> is_lim_seq (fun n => f (pn n)) (f p)) -> continuity_pt f p.
Proof.
  intros H. apply NNPP. intros N.
  assert (exists eps, 0 < eps /\ forall d, 0 < d -> exists q, Rabs (q - p) < d /\ eps <= Rabs (f q - f p)) as (eps & He & K).
  { apply NNPP. intros K. apply N. apply (proj2 (continuity_pt_locally f p)). intros eps. apply NNPP. intros K2. apply K.
    exists (pos eps). split; [apply cond_pos|]. intros d Hd. apply NNPP. intros K3. apply K2. exists (mkposreal d Hd).
    cbv beta. unfold ball; cbn. unfold AbsRing_ball, abs, minus, plus, opp; cbn. intros q Hq. fold (Rminus q p) in Hq. apply Rnot_le_lt. intros K4. apply K3. exists q. split; [exact Hq | exact K4]. }
  assert (I : forall n, 0 < / (INR n + 1)) by (intros n; apply Rinv_0_lt_compat; pose proof (pos_INR n); lra).
  set (pn := fun n => proj1_sig (constructive_indefinite_description _ (K _ (I n)))).
  assert (S : forall n, Rabs (pn n - p) < / (INR n + 1) /\ eps <= Rabs (f (pn n) - f p)).
  { intros n. unfold pn. apply proj2_sig. }
  assert (L : is_lim_seq pn p).
  { refine (proj1 (is_lim_seq_spec pn p) _). unfold is_lim_seq'. intros d. destruct (archimed_cor1 (pos d) (cond_pos d)) as (M & M1 & M2). exists M. intros n Hn.
    eapply Rlt_trans; [apply S|]. eapply Rle_lt_trans; [|exact M1]. apply Rinv_le_contravar; [now apply lt_0_INR|]. apply le_INR in Hn. lra. }
  apply H, is_lim_seq_spec in L. unfold is_lim_seq' in L. destruct (L (mkposreal eps He)) as (M & HM). specialize (HM M (Nat.le_refl _)). cbn [pos] in HM.
  pose proof (proj2 (S M)). lra.
Qed.

(** sqrt 2 is irrational *)
Lemma two_squares_nat (n j k : nat) : (j <= n -> j * j = 2 * (k * k) -> j = 0)%nat.
Proof.
  revert j k. induction n as [|n IH]; intros j k Hj E; [lia|].
  destruct (Nat.Even_or_Odd j) as [(i & ->)|(i & ->)]; [|exfalso; lia].
  destruct (Nat.Even_or_Odd k) as [(l & ->)|(l & ->)]; [|exfalso; lia].
  destruct (Nat.eq_dec i 0) as [->|Ni]; [reflexivity|]. exfalso. apply Ni. apply (IH i l); lia.
Qed.
Lemma two_squares (j k : Z) : (j * j = 2 * (k * k))%Z -> j = 0%Z /\ k = 0%Z.
Proof.
  intros E. assert (J : Z.abs_nat j = 0%nat).
  { apply (two_squares_nat (Z.abs_nat j) _ (Z.abs_nat k)); [lia|]. apply Nat2Z.inj. rewrite !Nat2Z.inj_mul, !Zabs2Nat.id_abs, <- !Z.abs_mul.
    rewrite (Z.abs_eq (j * j)), (Z.abs_eq (k * k)) by nia. exact E. }
  assert (j = 0%Z) by lia. subst j. split; [reflexivity|]. nia.
Qed.

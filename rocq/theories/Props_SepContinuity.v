(** * C85: the separatrix is continuous, acceptance is robust, and the equatorial separatrix is monotone in the spin *)
From Coq Require Import Reals Lra Lia ZArith String List.
From Coquelicot Require Import Coquelicot.
From Verif Require Import Num Outcome External Checked ExternalSpec Spec Model_Constants.
From Verif Require Import P_Validation SepPoly Props_Separatrix P_Bounds P_Constants P_Stability P_Stability3 P_Stability5 P_Continuity Props_Continuity.
Open Scope R_scope.

Section Lim.
Context (cn kn : nat -> R) (c k q : R) (Lc : is_lim_seq cn c) (Lk : is_lim_seq kn k) (Hq : 0 < q).
Let tn := fun n => kn n / q^2.
Let Lt : is_lim_seq tn (k / q^2).
Proof. unfold tn. apply is_lim_seq_div'; [exact Lk | lim | apply pow_nonzero; lra]. Qed.
Lemma lim_vg : is_lim_seq (fun n => vg (cn n) (kn n / q^2)) (vg c (k / q^2)).
Proof. change (is_lim_seq (fun n => vg (cn n) (tn n)) (vg c (k / q^2))). unfold vg. lim. Qed.
Lemma lim_bc : dd c (k / q^2) <> 0 -> is_lim_seq (fun n => bc (cn n) (kn n) q) (bc c k q).
Proof.
  intros D. assert (D2 : dd c (k / q^2) ^2 <> 0) by now apply pow_nonzero.
  assert (LD : is_lim_seq (fun n => dd (cn n) (tn n)) (dd c (k / q^2))) by (unfold dd; lim).
  change (is_lim_seq (fun n => sqrt (4 * (cn n + 1)^2 * (cn n - tn n)^2 * (1 - tn n) * q / dd (cn n) (tn n) ^ 2)
    - sqrt ((1 + tn n)^2 * (cn n ^2 + tn n) * q * ((q - 1) * dd (cn n) (tn n) + (1 - tn n) * (cn n ^2 + tn n)) / dd (cn n) (tn n) ^ 2)) (bc c k q)).
  unfold bc, UU, VV. cbv zeta. set (t := k / q^2) in *. clearbody t.
  apply is_lim_seq_minus'; apply lim_sqrt; (apply is_lim_seq_div'; [lim | lim | exact D2]).
Qed.
End Lim.
Section S.
Context {X : External R} (HR : root_spec X).
Lemma sep_facts a e x s : 0 <= a < 1 -> 0 <= e < 1 -> -1 <= x <= 1 -> separatrix (Some a) (Some e) (Some x) = Ret (Some s) ->
  1 < s / (1 + e) /\ dom (cc e) (a^2 * (1 - x^2) / (s / (1 + e))^2) /\ bc (cc e) (a^2 * (1 - x^2)) (s / (1 + e)) = a * x.
Proof.
  intros Ha He Hx Hs. apply (separatrix_exact HR); try assumption. rewrite separatrix_lift in Hs. destruct (separatrix a e x) as [s'| |]; cbn [lift] in Hs; congruence.
Qed.
Theorem C85_separatrix_continuous (an en xn sn : nat -> R) (a e x s : R) :
  0 <= a < 1 -> 0 <= e < 1 -> -1 <= x <= 1 ->
  is_lim_seq an a -> is_lim_seq en e -> is_lim_seq xn x ->
  (forall n, separatrix (Some (an n)) (Some (en n)) (Some (xn n)) = Ret (Some (sn n))) ->
  separatrix (Some a) (Some e) (Some x) = Ret (Some s) ->
  is_lim_seq sn s.
Proof.
  intros Ha He Hx La Le Lx Hn Hs. destruct (sep_facts a e x s Ha He Hx Hs) as (Q1 & D & B). set (q := s / (1 + e)) in *. set (k := a^2 * (1 - x^2)) in *.
  assert (K0 : 0 <= k) by (unfold k; apply Rmult_le_pos; [apply pow2_ge_0 | nra]).
  assert (IN : forall n, 0 <= an n < 1 /\ 0 <= en n <= 1 /\ -1 <= xn n <= 1).
  { intros n. destruct (Classical_Prop.classic (0 <= an n < 1 /\ 0 <= en n <= 1 /\ -1 <= xn n <= 1)) as [K|K]; [exact K|].
    pose proof (C19_separatrix_rejects _ _ _ K) as Z. rewrite Hn in Z. discriminate. }
  set (cn := fun n => (1 + en n) / (1 - en n)). set (kn := fun n => an n ^2 * (1 - xn n ^2)).
  assert (Lc : is_lim_seq cn (cc e)) by (unfold cn, cc; apply is_lim_seq_div'; [lim|lim|lra]).
  assert (Lk : is_lim_seq kn k) by (unfold kn, k; lim).
  assert (Lb : is_lim_seq (fun n => an n * xn n) (a * x)) by lim.
  destruct (eventually_close en e (1 - e) Le ltac:(lra)) as [n0 N0].
  assert (FN : forall n, (n0 <= n)%nat -> 0 <= en n < 1 /\ 1 < sn n / (1 + en n) /\ dom (cn n) (kn n / (sn n / (1 + en n))^2) /\ bc (cn n) (kn n) (sn n / (1 + en n)) = an n * xn n).
  { intros n Hnn. specialize (N0 n Hnn). apply Rabs_def2 in N0. destruct (IN n) as (A1 & A2 & A3). split; [lra|]. apply (sep_facts (an n) (en n) (xn n)); try assumption; try lra. apply Hn. }
  assert (KN : forall n, 0 <= kn n) by (intros n; destruct (IN n) as (A1 & A2 & A3); unfold kn; apply Rmult_le_pos; [apply pow2_ge_0 | nra]).
  (* dom is open *)
  assert (OPEN : forall q', 1 < q' -> dom (cc e) (k / q'^2) -> Hierarchy.eventually (fun n => dom (cn n) (kn n / q'^2))).
  { intros q' Hq' [G1 [G2 G3]]. destruct (eventually_close _ _ _ (lim_vg cn kn _ _ q' Lc Lk ltac:(lra)) G3) as [n1 N1].
    assert (Lt : is_lim_seq (fun n => kn n / q'^2) (k / q'^2)) by (apply is_lim_seq_div'; [exact Lk | lim | apply pow_nonzero; lra]).
    destruct (eventually_close _ _ (1 - k / q'^2) Lt ltac:(lra)) as [n2 N2].
    exists (Nat.max n0 (Nat.max n1 n2)). intros n Hnn. specialize (N1 n ltac:(lia)). specialize (N2 n ltac:(lia)). cbv beta in N1, N2. apply Rabs_def2 in N1, N2.
    destruct (FN n ltac:(lia)) as (A1 & _). split; [apply (cc_ge (en n) A1)|]. split; [|lra].
    split; [|lra]. apply Rmult_le_pos; [apply KN | left; apply Rinv_0_lt_compat, pow_lt; lra]. }
  assert (LQ : is_lim_seq (fun n => sn n / (1 + en n)) q).
  { apply is_lim_seq_spec. intros eps.
    (* a smaller radius still in the domain *)
    assert (LOW : exists q1, 1 < q1 < q /\ q - eps < q1 /\ dom (cc e) (k / q1^2)).
    { assert (CV : continuous (fun y => vg (cc e) (k / y^2)) q).
      { apply (ex_derive_continuous (V := R_NormedModule)). unfold vg. auto_derive. repeat split; try exact I; apply Rgt_not_eq; nra. }
      destruct D as [G1 [G2 G3]].
      destruct (CV (fun y => 0 < y) (open_gt 0 (vg (cc e) (k / q^2)) G3)) as [d Hd].
      assert (CT : continuous (fun y => k / y^2) q).
      { apply (ex_derive_continuous (V := R_NormedModule)). auto_derive. repeat split; try exact I; apply Rgt_not_eq; nra. }
      destruct (CT (fun y => y < 1) (open_lt 1 (k / q^2) (proj2 G2))) as [d' Hd'].
      set (m := Rmin (Rmin (eps / 2) (d / 2)) (Rmin (d' / 2) ((q - 1) / 2))).
      assert (M : 0 < m /\ m <= eps / 2 /\ m <= d / 2 /\ m <= d' / 2 /\ m <= (q - 1) / 2).
      { destruct eps as [eps He0], d as [d D0], d' as [d' D0']; cbn [pos] in *. unfold m. repeat split; [repeat apply Rmin_pos; lra|..];
        [eapply Rle_trans; [apply Rmin_l|apply Rmin_l] | eapply Rle_trans; [apply Rmin_l|apply Rmin_r] | eapply Rle_trans; [apply Rmin_r|apply Rmin_l] | eapply Rle_trans; [apply Rmin_r|apply Rmin_r]]. }
      destruct eps as [eps He0], d as [d D0], d' as [d' D0']; cbn [pos] in *. exists (q - m). split; [lra|]. split; [lra|].
      assert (BB : forall r, m < r -> ball q r (q - m)) by (intros r Hr; unfold ball; simpl; unfold AbsRing_ball, abs, minus, plus, opp; simpl; replace (q - m + - q) with (- m) by ring; rewrite Rabs_Ropp, Rabs_pos_eq; lra).
      split; [exact G1|]. split; [|apply (Hd (q - m)), BB; lra].
      split; [apply Rmult_le_pos; [lra | left; apply Rinv_0_lt_compat, pow_lt; lra] | apply (Hd' (q - m)), BB; lra]. }
    destruct LOW as (q1 & Q2 & Q3 & D1). set (q2 := q + eps / 2).
    assert (E0 : 0 < eps) by (destruct eps; assumption).
    assert (D2 : dom (cc e) (k / q2^2)) by (apply dom_down with (1 := D); apply t_down; unfold q2; lra).
    assert (B1 : a * x < bc (cc e) k q1) by (rewrite <- B; apply bc_decreases; [exact K0 | lra | exact D1]).
    assert (B2 : bc (cc e) k q2 < a * x) by (rewrite <- B; apply bc_decreases; [exact K0 | unfold q2; lra | exact D]).
    pose proof (lim_bc cn kn (cc e) k q1 Lc Lk ltac:(lra) (Rgt_not_eq _ _ (dom_dd _ _ D1))) as L1.
    pose proof (lim_bc cn kn (cc e) k q2 Lc Lk ltac:(unfold q2; lra) (Rgt_not_eq _ _ (dom_dd _ _ D2))) as L2.
    pose proof (is_lim_seq_minus' _ _ _ _ L1 Lb) as L1'. pose proof (is_lim_seq_minus' _ _ _ _ Lb L2) as L2'.
    destruct (eventually_close _ _ _ L1' (Rlt_Rminus _ _ B1)) as [n1 N1].
    destruct (eventually_close _ _ _ L2' (Rlt_Rminus _ _ B2)) as [n2 N2].
    destruct (OPEN q2 ltac:(unfold q2; lra) D2) as [n3 N3].
    exists (Nat.max (Nat.max n0 n3) (Nat.max n1 n2)). intros n Hnn. specialize (N1 n ltac:(lia)). specialize (N2 n ltac:(lia)). specialize (N3 n ltac:(lia)). cbv beta in N1, N2. apply Rabs_def2 in N1, N2.
    destruct (FN n ltac:(lia)) as (A1 & A2 & A3 & A4). set (y := sn n / (1 + en n)) in *.
    assert (Y1 : q1 < y).
    { apply Rnot_le_lt. intros N. destruct N as [N|N].
      - pose proof (bc_decreases (cn n) (kn n) y q1 (KN n) ltac:(lra) A3). lra.
      - rewrite N in A4. lra. }
    assert (Y2 : y < q2).
    { apply Rnot_le_lt. intros N. destruct N as [N|N].
      - pose proof (bc_decreases (cn n) (kn n) q2 y (KN n) ltac:(unfold q2 in *; lra) N3). lra.
      - rewrite <- N in A4. lra. }
    unfold q2 in Y2. apply Rabs_def1; lra. }
  replace s with (q * (1 + e)) by (unfold q; field; lra).
  apply (is_lim_seq_ext (fun n => sn n / (1 + en n) * (1 + en n))); [|lim].
  intros n. destruct (IN n) as (_ & A2 & _). field. lra.
Qed.
(** an accepted orbit stays accepted under every small enough change of its parameters within their ranges *)
Theorem C85_acceptance_is_open (an pn en xn : nat -> R) (a p e x : R) :
  0 <= a < 1 -> 0 <= e < 1 -> -1 <= x <= 1 ->
  is_lim_seq an a -> is_lim_seq pn p -> is_lim_seq en e -> is_lim_seq xn x ->
  (forall n, 0 <= an n < 1 /\ 0 <= en n <= 1 /\ -1 <= xn n <= 1) ->
  is_stable (Some a) (Some p) (Some e) (Some x) = Ret true ->
  Hierarchy.eventually (fun n => is_stable (Some (an n)) (Some (pn n)) (Some (en n)) (Some (xn n)) = Ret true).
Proof.
  intros Ha He Hx La Lp Le Lx IN ST.
  destruct (C22_is_stable_above_separatrix HR a e x Ha ltac:(lra) Hx) as (s & Hs & Ks).
  rewrite Ks in ST. destruct (Rlt_dec s p) as [SP|SP]; [|discriminate].
  set (sn := fun n => match separatrix (Some (an n)) (Some (en n)) (Some (xn n)) with Ret (Some y) => y | _ => 0 end).
  assert (Hn : forall n, separatrix (Some (an n)) (Some (en n)) (Some (xn n)) = Ret (Some (sn n))).
  { intros n. unfold sn. destruct (IN n) as (A1 & A2 & A3). destruct (C19_separatrix_total HR _ _ _ A1 A2 A3) as (y & -> & _). reflexivity. }
  pose proof (C85_separatrix_continuous an en xn sn a e x s Ha He Hx La Le Lx Hn Hs) as Ls.
  pose proof (is_lim_seq_minus' _ _ _ _ Lp Ls) as LD.
  destruct (eventually_close _ _ (p - s) LD ltac:(lra)) as [n0 N0]. exists n0. intros n Hnn. specialize (N0 n Hnn). cbv beta in N0. apply Rabs_def2 in N0.
  destruct (IN n) as (A1 & A2 & A3). destruct (C22_is_stable_above_separatrix HR (an n) (en n) (xn n) A1 A2 A3) as (y & Hy & Ky).
  rewrite Hn in Hy. assert (y = sn n) by congruence. subst y. rewrite Ky. destruct (Rlt_dec (sn n) (pn n)); [reflexivity|lra].
Qed.
(** faster rotation brings the last prograde orbit in and pushes the last retrograde orbit out *)
Theorem C85_equatorial_monotone a a' e s s' : 0 <= a < a' -> a' < 1 -> 0 <= e < 1 ->
  (separatrix (Some a) (Some e) (Some 1) = Ret (Some s) -> separatrix (Some a') (Some e) (Some 1) = Ret (Some s') -> s' < s) /\
  (separatrix (Some a) (Some e) (Some (-1)) = Ret (Some s) -> separatrix (Some a') (Some e) (Some (-1)) = Ret (Some s') -> s < s').
Proof.
  intros Ha Ha' He.
  assert (M : forall b y z x, (x = 1 \/ x = -1) -> 0 <= b < 1 -> separatrix (Some b) (Some e) (Some x) = Ret (Some y) -> z = y / (1 + e) -> 1 < z /\ dom (cc e) (0 / z^2) /\ bc (cc e) 0 z = b * x).
  { intros b y z x Hx Hb Hy ->. pose proof (sep_facts b e x y Hb He ltac:(destruct Hx; lra) Hy) as K. replace (b^2 * (1 - x^2)) with 0 in K by (destruct Hx as [-> | ->]; ring). exact K. }
  split; intros H1 H2.
  - destruct (M a s _ 1 ltac:(auto) ltac:(lra) H1 eq_refl) as (Q1 & D1 & B1). destruct (M a' s' _ 1 ltac:(auto) ltac:(lra) H2 eq_refl) as (Q2 & D2 & B2).
    apply Rnot_le_lt. intros N. apply (Rmult_le_compat_r (/ (1 + e))) in N; [|left; apply Rinv_0_lt_compat; lra]. fold (s / (1 + e)) (s' / (1 + e)) in N.
    destruct N as [N|N]; [pose proof (bc_decreases (cc e) 0 (s / (1 + e)) (s' / (1 + e)) (Rle_refl 0) ltac:(lra) D1); lra | rewrite N in B1; lra].
  - destruct (M a s _ (-1) ltac:(auto) ltac:(lra) H1 eq_refl) as (Q1 & D1 & B1). destruct (M a' s' _ (-1) ltac:(auto) ltac:(lra) H2 eq_refl) as (Q2 & D2 & B2).
    apply Rnot_le_lt. intros N. apply (Rmult_le_compat_r (/ (1 + e))) in N; [|left; apply Rinv_0_lt_compat; lra]. fold (s / (1 + e)) (s' / (1 + e)) in N.
    destruct N as [N|N]; [pose proof (bc_decreases (cc e) 0 (s' / (1 + e)) (s / (1 + e)) (Rle_refl 0) ltac:(lra) D2); lra | rewrite N in B2; lra].
Qed.
(** a concrete family meets the hypotheses: the spins 1/(n+2), circular prograde orbits; the ISCO radii tend to 6, and the
    orbit of semilatus rectum 7 about a non-rotating hole stays accepted *)
Lemma lim_spin : is_lim_seq (fun n => / (INR n + 2)) 0.
Proof.
  apply (is_lim_seq_inv _ p_infty). 2: discriminate.
  eapply is_lim_seq_plus; [apply is_lim_seq_INR | apply is_lim_seq_const | reflexivity].
Qed.
Example C85_case : (exists sn : nat -> R, (forall n, separatrix (Some (/ (INR n + 2))) (Some 0) (Some 1) = Ret (Some (sn n))) /\ is_lim_seq sn 6)
  /\ Hierarchy.eventually (fun n => is_stable (Some (/ (INR n + 2))) (Some 7) (Some 0) (Some 1) = Ret true).
Proof.
  assert (A : forall n, 0 <= / (INR n + 2) < 1).
  { intros n. pose proof (pos_INR n). split; [left; apply Rinv_0_lt_compat; lra|]. rewrite <- Rinv_1. apply Rinv_lt_contravar; lra. }
  assert (S0 : separatrix (Some 0) (Some 0) (Some 1) = Ret (Some 6)).
  { destruct (C19_separatrix_total HR 0 0 1 ltac:(lra) ltac:(lra) ltac:(lra)) as (p & Hp & _ & _ & K & _). rewrite Hp. do 2 f_equal. rewrite K; lra. }
  split.
  - exists (fun n => match separatrix (Some (/ (INR n + 2))) (Some 0) (Some 1) with Ret (Some y) => y | _ => 0 end).
    assert (Hn : forall n, separatrix (Some (/ (INR n + 2))) (Some 0) (Some 1) = Ret (Some (match separatrix (Some (/ (INR n + 2))) (Some 0) (Some 1) with Ret (Some y) => y | _ => 0 end))).
    { intros n. destruct (C19_separatrix_total HR _ 0 1 (A n) ltac:(lra) ltac:(lra)) as (p & Hp & _). rewrite Hp. reflexivity. }
    split; [exact Hn|].
    apply (C85_separatrix_continuous (fun n => / (INR n + 2)) (fun _ => 0) (fun _ => 1) _ 0 0 1 6); try lra; try apply is_lim_seq_const; try exact lim_spin; assumption.
  - apply (C85_acceptance_is_open (fun n => / (INR n + 2)) (fun _ => 7) (fun _ => 0) (fun _ => 1) 0 7 0 1); try lra; try apply is_lim_seq_const; try exact lim_spin.
    + intros n. split; [apply A|lra].
    + destruct (C22_is_stable_above_separatrix HR 0 0 1 ltac:(lra) ltac:(lra) ltac:(lra)) as (s & Hs & Ks). rewrite Ks.
      assert (s = 6) by congruence. subst. destruct (Rlt_dec 6 7); [reflexivity|lra].
Qed.
End S.
Print Assumptions C85_acceptance_is_open.
Print Assumptions C85_equatorial_monotone.
Print Assumptions C85_separatrix_continuous.

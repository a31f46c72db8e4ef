(** * C86: the frequencies depend continuously on the orbital parameters *)
From Coq Require Import Reals Lra Lia ZArith String List.
From Coquelicot Require Import Coquelicot.
From Verif Require Import Num Outcome External Checked ExternalSpec Spec SpecElliptic Elliptic.
From Verif Require Import Model_Constants Model_Frequencies P_Validation Props_Validation P_Radial P_Polar P_Traj P_Traj2 P_Traj3.
From Verif Require Import Props_Stability Props_Frequencies Props_Validation P_Bounds P_Schmidt P_Constants Props_Constants Props_Finite Props_Future Props_Restart P_Continuity Props_Continuity.
Open Scope R_scope.

(** ** the complete elliptic integrals are continuous in their parameters *)
Lemma RInt_close (f g : R -> R) M : (forall t, continuous f t) -> (forall t, continuous g t) -> (forall t, Rabs (f t - g t) <= M) ->
  Rabs (RInt f 0 (PI / 2) - RInt g 0 (PI / 2)) <= PI / 2 * M.
Proof.
  intros Cf Cg H. pose proof PI_RGT_0.
  assert (J1 : ex_RInt f 0 (PI / 2)) by (apply (ex_RInt_continuous (V := R_CompleteNormedModule)); intros; apply Cf).
  assert (J2 : ex_RInt g 0 (PI / 2)) by (apply (ex_RInt_continuous (V := R_CompleteNormedModule)); intros; apply Cg).
  replace (PI / 2 * M) with ((PI / 2 - 0) * M) by ring.
  apply (norm_RInt_le_const (V := R_NormedModule) (fun t => f t - g t) 0 (PI / 2)); [lra| intros; apply H |].
  apply (is_RInt_minus (V := R_NormedModule) f g); apply (RInt_correct (V := R_CompleteNormedModule)); assumption.
Qed.
Lemma RInt_lim (f : nat -> R -> R) (g : R -> R) (Mn : nat -> R) : Hierarchy.eventually (fun n => (forall t, continuous (f n) t) /\ (forall t, Rabs (f n t - g t) <= Mn n)) ->
  (forall t, continuous g t) -> is_lim_seq Mn 0 -> is_lim_seq (fun n => RInt (f n) 0 (PI / 2)) (RInt g 0 (PI / 2)).
Proof.
  intros [n0 H] Cg LM.
  apply (is_lim_seq_le_le_loc (fun n => RInt g 0 (PI / 2) - PI / 2 * Mn n) _ (fun n => RInt g 0 (PI / 2) + PI / 2 * Mn n)).
  - exists n0. intros n Hn. destruct (H n Hn) as [C1 C2]. pose proof (RInt_close _ _ _ C1 Cg C2) as K. apply Rabs_le_between in K. lra.
  - set (I0 := RInt g 0 (PI / 2)). assert (K : is_lim_seq (fun n => I0 - PI / 2 * Mn n) (I0 - PI / 2 * 0)) by lim. rewrite Rmult_0_r, Rminus_0_r in K. exact K.
  - set (I0 := RInt g 0 (PI / 2)). assert (K : is_lim_seq (fun n => I0 + PI / 2 * Mn n) (I0 + PI / 2 * 0)) by lim. rewrite Rmult_0_r, Rplus_0_r in K. exact K.
Qed.
Lemma inv_close P P' W W' d : 0 < d -> d <= P -> d <= P' -> d <= W -> d <= W' -> Rabs (/ (P * W) - / (P' * W')) <= (Rabs (P - P') + Rabs (W - W')) / d^3.
Proof.
  intros D H1 H2 H3 H4.
  replace (/ (P * W) - / (P' * W')) with ((P' - P) * / (P * W * P') + (W' - W) * / (W * P' * W')) by (field; lra).
  assert (B : forall x y z, d <= x -> d <= y -> d <= z -> 0 < / (x * y * z) <= / d^3).
  { intros x y z Hx Hy Hz. assert (d * d <= x * y) by (apply Rmult_le_compat; lra). assert (d * d * d <= x * y * z) by (apply Rmult_le_compat; nra).
    assert (0 < d * d * d) by (repeat apply Rmult_lt_0_compat; lra). replace (d^3) with (d * d * d) by ring.
    split; [apply Rinv_0_lt_compat; lra | apply Rinv_le_contravar; lra]. }
  unfold Rdiv. rewrite Rmult_plus_distr_r. eapply Rle_trans; [apply Rabs_triang|].
  pose proof (B P W P' H1 H3 H2). pose proof (B W P' W' H3 H2 H4). rewrite !Rabs_mult, (Rabs_minus_sym P' P), (Rabs_minus_sym W' W).
  apply Rplus_le_compat; (apply Rmult_le_compat; [apply Rabs_pos | apply Rabs_pos | lra | rewrite Rabs_pos_eq; lra]).
Qed.
Lemma sqrt_close u v d : 0 < d -> d <= 1 -> d <= u -> d <= v -> Rabs (sqrt u - sqrt v) <= Rabs (u - v) / d /\ d <= sqrt u.
Proof.
  intros D D1 U V. assert (B : forall w, d <= w -> d <= sqrt w). { intros w Hw. rewrite <- (sqrt_pow2 d) by lra. apply sqrt_le_1_alt. nra. }
  split; [|apply B; exact U]. pose proof (B u U). pose proof (B v V).
  replace (u - v) with ((sqrt u - sqrt v) * (sqrt u + sqrt v)). 2:{ replace ((sqrt u - sqrt v) * (sqrt u + sqrt v)) with (sqrt u ^2 - sqrt v ^2) by ring. rewrite !pow2_sqrt by lra. reflexivity. }
  rewrite Rabs_mult. rewrite (Rabs_pos_eq (sqrt u + sqrt v)) by lra. pose proof (Rabs_pos (sqrt u - sqrt v)). apply Rle_div_r; [lra|]. apply Rmult_le_compat_l; lra.
Qed.
Lemma dl_close m m' t : Rabs (dl m t - dl m' t) <= Rabs (m - m').
Proof.
  unfold dl. pose proof (sin2_bound t). replace (1 - m * sin t ^2 - (1 - m' * sin t ^2)) with (- ((m - m') * sin t ^2)) by ring.
  rewrite Rabs_Ropp, Rabs_mult, (Rabs_pos_eq (sin t ^2)) by lra. pose proof (Rabs_pos (m - m')). nra.
Qed.
Lemma dl_low m c t : m <= c -> 0 <= c -> 1 - c <= dl m t.
Proof. intros H C. unfold dl. pose proof (sin2_bound t). nra. Qed.
Lemma eventually_below (u : nat -> R) (l : R) : is_lim_seq u l -> l < 1 -> exists c, 0 <= c < 1 /\ l <= c /\ Hierarchy.eventually (fun n => u n <= c).
Proof.
  intros H L. destruct (eventually_close u l ((1 - l) / 2) H ltac:(lra)) as [n0 K]. exists (Rmax 0 ((1 + l) / 2)).
  pose proof (Rmax_l 0 ((1 + l) / 2)). pose proof (Rmax_r 0 ((1 + l) / 2)).
  split; [split; [assumption | apply Rmax_lub_lt; lra]|]. split; [lra|]. exists n0. intros n Hn. specialize (K n Hn). apply Rabs_def2 in K. lra.
Qed.
Lemma lim_abs0 (u : nat -> R) (l : R) : is_lim_seq u l -> is_lim_seq (fun n => Rabs (u n - l)) 0.
Proof. intros H. apply (proj1 (is_lim_seq_abs_0 _)). replace (Finite 0) with (Finite (l - l)) by (f_equal; ring). lim. Qed.
Lemma lim_ellPi (nn mn : nat -> R) (n m : R) : is_lim_seq nn n -> is_lim_seq mn m -> n < 1 -> m < 1 ->
  is_lim_seq (fun k => ellPi (nn k) (PI / 2) (mn k)) (ellPi n (PI / 2) m).
Proof.
  intros Ln Lm Hn Hm. destruct (eventually_below _ _ Ln Hn) as (c & C1 & C2 & [k1 K1]). destruct (eventually_below _ _ Lm Hm) as (c' & C1' & C2' & [k2 K2]).
  set (d := Rmin (1 - c) (1 - c')). assert (D : 0 < d /\ d <= 1 - c /\ d <= 1 - c' /\ d <= 1).
  { unfold d. pose proof (Rmin_l (1 - c) (1 - c')). pose proof (Rmin_r (1 - c) (1 - c')). repeat split; try assumption; [apply Rmin_pos; lra | lra]. }
  clearbody d. assert (D0 : d <> 0) by lra. assert (D3 : d^3 <> 0) by now apply pow_nonzero.
  apply (RInt_lim (fun k => hP (nn k) (mn k)) (hP n m) (fun k => (Rabs (nn k - n) + Rabs (mn k - m) * / d) * / d^3)).
  - exists (Nat.max k1 k2). intros k Hk. specialize (K1 k ltac:(lia)). specialize (K2 k ltac:(lia)). cbv beta in K1, K2. split; [intros t; apply hP_cont; lra|].
    intros t. unfold hP. pose proof (dl_low (nn k) c t K1 ltac:(lra)). pose proof (dl_low n c t C2 ltac:(lra)). pose proof (dl_low (mn k) c' t K2 ltac:(lra)). pose proof (dl_low m c' t C2' ltac:(lra)).
    destruct (sqrt_close (dl (mn k) t) (dl m t) d ltac:(lra) ltac:(lra) ltac:(lra) ltac:(lra)) as [S1 S2].
    destruct (sqrt_close (dl m t) (dl m t) d ltac:(lra) ltac:(lra) ltac:(lra) ltac:(lra)) as [_ S3].
    eapply Rle_trans; [apply (inv_close _ _ _ _ d); lra|]. apply Rmult_le_compat_r; [left; apply Rinv_0_lt_compat, pow_lt; lra|].
    apply Rplus_le_compat; [apply dl_close|]. eapply Rle_trans; [exact S1|]. apply Rmult_le_compat_r; [left; apply Rinv_0_lt_compat; lra|]. apply dl_close.
  - intros t. apply hP_cont; lra.
  - pose proof (lim_abs0 _ _ Ln) as A1. pose proof (lim_abs0 _ _ Lm) as A2. replace (Finite 0) with (Finite ((0 + 0 * / d) * / d^3)) by (f_equal; field; exact D0). lim.
Qed.
Lemma ellK_Pi m : m < 1 -> ellK m = ellPi 0 (PI / 2) m.
Proof. intros _. unfold ellK, ellF, ellPi. apply RInt_ext. intros t _. f_equal. ring. Qed.
Lemma lim_ellK (mn : nat -> R) (m : R) : is_lim_seq mn m -> m < 1 -> is_lim_seq (fun k => ellK (mn k)) (ellK m).
Proof.
  intros Lm Hm. rewrite (ellK_Pi m Hm). apply (is_lim_seq_ext_loc (fun k => ellPi 0 (PI / 2) (mn k))).
  - destruct (eventually_below _ _ Lm Hm) as (c & C1 & C2 & [k1 K1]). exists k1. intros k Hk. specialize (K1 k Hk). cbv beta in K1. symmetry. apply ellK_Pi. lra.
  - apply (lim_ellPi (fun _ => 0) mn 0 m); [apply is_lim_seq_const | exact Lm | lra | exact Hm].
Qed.
Lemma lim_ellE (mn : nat -> R) (m : R) : is_lim_seq mn m -> m < 1 -> is_lim_seq (fun k => ellE (PI / 2) (mn k)) (ellE (PI / 2) m).
Proof.
  intros Lm Hm. destruct (eventually_below _ _ Lm Hm) as (c' & C1' & C2' & [k2 K2]). set (d := 1 - c'). assert (D : 0 < d /\ d <= 1) by (unfold d; lra).
  apply (RInt_lim (fun k => hE (mn k)) (hE m) (fun k => Rabs (mn k - m) * / d)).
  - exists k2. intros k Hk. specialize (K2 k Hk). cbv beta in K2. split; [intros t; apply hE_cont; lra|].
    intros t. unfold hE. pose proof (dl_low (mn k) c' t K2 ltac:(lra)). pose proof (dl_low m c' t C2' ltac:(lra)).
    destruct (sqrt_close (dl (mn k) t) (dl m t) d ltac:(lra) ltac:(lra) ltac:(unfold d; lra) ltac:(unfold d; lra)) as [S1 S2].
    eapply Rle_trans; [exact S1|]. apply Rmult_le_compat_r; [left; apply Rinv_0_lt_compat; lra|]. apply dl_close.
  - intros t. apply hE_cont; lra.
  - pose proof (lim_abs0 _ _ Lm) as A2. replace (Finite 0) with (Finite (0 * / d)) by (f_equal; ring). lim.
Qed.

(** like [lim], with quotients (the denominators are left to prove) *)
Ltac limd := cbv beta; match goal with
  | H : is_lim_seq ?u ?l |- is_lim_seq (fun n => ?u n) ?l => exact H
  | H : is_lim_seq ?u ?l |- is_lim_seq ?u ?l => exact H
  | |- is_lim_seq (fun _ => ?c) (Finite ?c) => exact (is_lim_seq_const c)
  | |- is_lim_seq (fun n => @?f n + @?g n) (Finite (?l + ?m)) => refine (is_lim_seq_plus' f g l m _ _); limd
  | |- is_lim_seq (fun n => @?f n - @?g n) (Finite (?l - ?m)) => refine (is_lim_seq_minus' f g l m _ _); limd
  | |- is_lim_seq (fun n => @?f n * @?g n) (Finite (?l * ?m)) => refine (is_lim_seq_mult' f g l m _ _); limd
  | |- is_lim_seq (fun n => @?f n / @?g n) (Finite (?l / ?m)) => refine (is_lim_seq_div' f g l m _ _ _); [limd | limd | try assumption]
  | |- is_lim_seq (fun n => @?f n ^ ?k) (Finite (?l ^ ?k)) => refine (lim_pow f l k _); limd
  | |- is_lim_seq (fun n => - @?f n) (Finite (- ?l)) => refine (lim_opp f l _); limd
  | |- is_lim_seq (fun n => sqrt (@?f n)) (Finite (sqrt ?l)) => refine (lim_sqrt f l _); limd
  end.
Section Pos.
Context {X : External R} (HX : special_spec X) (HR : root_spec X).
Lemma nz_mult u v : u <> 0 -> v <> 0 -> u * v <> 0.
Proof. intros. apply Rmult_integral_contrapositive. now split. Qed.
Lemma roots_formula a p e x ur uth uph gam E L Q r1 r2 r3 r4 zp beta a2s :
  orbit_facts a p e x ur uth uph gam E L Q r1 r2 r3 r4 zp beta a2s ->
  r3 = ((2 / (1 - E^2) - p / (1 - e) - p / (1 + e)) + sqrt ((2 / (1 - E^2) - p / (1 - e) - p / (1 + e))^2 - 4 * (a^2 * Q / (p / (1 - e) * (p / (1 + e)) * (1 - E^2))))) / 2 /\
  r4 = ((2 / (1 - E^2) - p / (1 - e) - p / (1 + e)) - sqrt ((2 / (1 - E^2) - p / (1 - e) - p / (1 + e))^2 - 4 * (a^2 * Q / (p / (1 - e) * (p / (1 + e)) * (1 - E^2))))) / 2 /\
  p <> 0.
Proof.
  intros F. pose proof (of_a _ _ _ _ _ _ _ _ _ _ _ _ _ _ _ _ _ _ F) as Ha. pose proof (of_e _ _ _ _ _ _ _ _ _ _ _ _ _ _ _ _ _ _ F) as He.
  pose proof (of_constants _ _ _ _ _ _ _ _ _ _ _ _ _ _ _ _ _ _ F) as HC. pose proof (of_r12 _ _ _ _ _ _ _ _ _ _ _ _ _ _ _ _ _ _ F) as R12.
  pose proof (of_r1 _ _ _ _ _ _ _ _ _ _ _ _ _ _ _ _ _ _ F) as R1. pose proof (of_r2 _ _ _ _ _ _ _ _ _ _ _ _ _ _ _ _ _ _ F) as R2.
  pose proof (of_R _ _ _ _ _ _ _ _ _ _ _ _ _ _ _ _ _ _ F) as RR. pose proof (of_E _ _ _ _ _ _ _ _ _ _ _ _ _ _ _ _ _ _ F) as NE.
  destruct (C15_roots_defined HR a p e x E L Q (Some (Some E, Some L, Some Q)) HC ltac:(lra) (or_intror eq_refl)) as (q1 & q2 & q3 & q4 & K & _ & _ & O4 & O3 & _ & _).
  rewrite (of_roots _ _ _ _ _ _ _ _ _ _ _ _ _ _ _ _ _ _ F) in K.
  assert (Q3 : r3 = q3) by congruence. assert (Q4 : r4 = q4) by congruence. subst q3 q4. clear K.
  pose proof (orbit_roots HR a p e x E L Q ltac:(lra) ltac:(lra) HC) as T. cbv zeta in T. destruct T as (T1 & _ & _ & _ & T5 & T6).
  set (s := 2 / (1 - E^2) - p / (1 - e) - p / (1 + e)) in *. set (m := a^2 * Q / (p / (1 - e) * (p / (1 + e)) * (1 - E^2))) in *.
  assert (P0 : p <> 0). { intros Z. rewrite Z in R2. unfold Rdiv in R2. rewrite Rmult_0_l in R2. lra. }
  assert (S0 : r1 + r2 + r3 + r4 = 2 / (1 - E^2) /\ r1 * r2 * r3 * r4 * (1 - E^2) = a^2 * Q).
  { pose proof (RR 0) as P1. pose proof (RR 1) as P2. pose proof (RR (-1)) as P3. pose proof (RR 2) as P4. pose proof (RR (-2)) as P5.
    unfold radial_potential, Delta in *. split; [|clear - P1; lra]. apply (Rmult_eq_reg_l (1 - E^2)); [|exact NE]. replace ((1 - E^2) * (2 / (1 - E^2))) with 2 by (field; exact NE). lra. }
  destruct S0 as [S1 S2].
  assert (V1 : r3 + r4 = s) by (unfold s; rewrite <- R1, <- R2; lra).
  assert (V2 : r3 * r4 = m). { unfold m. rewrite <- S2, R1, R2. field. repeat split; try exact NE; lra. }
  assert (V3 : sqrt (s^2 - 4 * m) = r3 - r4). { rewrite <- V1, <- V2. replace ((r3 + r4)^2 - 4 * (r3 * r4)) with ((r3 - r4)^2) by ring. apply sqrt_pow2. pose proof (sqrt_pos (1 - a^2)). lra. }
  rewrite V3. split; [lra|]. split; [lra|exact P0].
Qed.
Section Averages.
Context (an En Ln r1n r2n r3n r4n : nat -> R) (a E L r1 r2 r3 r4 : R).
Context (La : is_lim_seq an a) (LE : is_lim_seq En E) (LL : is_lim_seq Ln L).
Context (L1 : is_lim_seq r1n r1) (L2 : is_lim_seq r2n r2) (L3 : is_lim_seq r3n r3) (L4 : is_lim_seq r4n r4).
Context (Ha : 0 <= a < 1) (Hs : 0 < sr2 (1 - E^2) r1 r2 r3 r4) (Hm : 0 <= kr2 r1 r2 r3 r4 < 1) (Ho : 0 < (r1 - r3) * (r2 - r3)).
Context (Hp2 : 0 < (r1 - rp a) * (r2 - rp a)) (Hm2 : 0 < (r1 - rm a) * (r2 - rm a)) (Hp3 : r3 - rp a <> 0) (Hm3 : r3 - rm a <> 0).
Lemma lim_rp : is_lim_seq (fun n => rp (an n)) (rp a). Proof. unfold rp. limd. Qed.
Lemma lim_rm : is_lim_seq (fun n => rm (an n)) (rm a). Proof. unfold rm. limd. Qed.
Lemma lim_sr2 : is_lim_seq (fun n => sr2 (1 - En n ^2) (r1n n) (r2n n) (r3n n) (r4n n)) (sr2 (1 - E^2) r1 r2 r3 r4).
Proof. unfold sr2. limd. Qed.
Lemma lim_kr2 : is_lim_seq (fun n => kr2 (r1n n) (r2n n) (r3n n) (r4n n)) (kr2 r1 r2 r3 r4).
Proof. destruct (rad_nz _ _ _ _ _ Hs Ho) as (N1 & N2 & _). unfold kr2. limd. now apply nz_mult. Qed.
Lemma lim_hr : is_lim_seq (fun n => hr (r1n n) (r2n n) (r3n n)) (hr r1 r2 r3).
Proof. destruct (rad_nz _ _ _ _ _ Hs Ho) as (N1 & N2 & _). unfold hr. limd. Qed.
Lemma lim_hb (bn : nat -> R) (b : R) : is_lim_seq bn b -> 0 < (r1 - b) * (r2 - b) -> is_lim_seq (fun n => hb (r1n n) (r2n n) (r3n n) (bn n)) (hb r1 r2 r3 b).
Proof. intros Lb B. destruct (rad_nz _ _ _ _ _ Hs Ho) as (N1 & N2 & _). destruct (hb_nz _ _ _ B) as (B2 & _). unfold hb. limd. now apply nz_mult. Qed.
Lemma lim_radial_terms :
  is_lim_seq (fun n => Gt (an n) (En n) (Ln n) (r1n n) (r2n n) (r3n n) (r4n n)) (Gt a E L r1 r2 r3 r4) /\
  is_lim_seq (fun n => Gph (an n) (En n) (Ln n) (r1n n) (r2n n) (r3n n) (r4n n)) (Gph a E L r1 r2 r3 r4) /\
  is_lim_seq (fun n => PI * sqrt (sr2 (1 - En n ^2) (r1n n) (r2n n) (r3n n) (r4n n)) / (2 * ellK (kr2 (r1n n) (r2n n) (r3n n) (r4n n))))
    (PI * sqrt (sr2 (1 - E^2) r1 r2 r3 r4) / (2 * ellK (kr2 r1 r2 r3 r4))).
Proof.
  pose proof lim_rp as Lp. pose proof lim_rm as Lm. pose proof lim_kr2 as Lk. pose proof lim_sr2 as Ls.
  pose proof (lim_ellK _ _ Lk (proj2 Hm)) as LK. pose proof (lim_ellE _ _ Lk (proj2 Hm)) as LEc.
  pose proof (lim_ellPi _ _ _ _ lim_hr Lk (hr_lt1 _ _ _ _ _ Hs Ho) (proj2 Hm)) as LPr.
  pose proof (lim_ellPi _ _ _ _ (lim_hb _ _ Lp Hp2) Lk (hb_lt1 _ _ _ _ _ Hs Ho _ Hp2) (proj2 Hm)) as LPp.
  pose proof (lim_ellPi _ _ _ _ (lim_hb _ _ Lm Hm2) Lk (hb_lt1 _ _ _ _ _ Hs Ho _ Hm2) (proj2 Hm)) as LPm.
  destruct (hb_nz _ _ _ Hp2) as (B2 & _). destruct (hb_nz _ _ _ Hm2) as (C2 & _).
  destruct (rpm a Ha) as (_ & _ & _ & NR). pose proof (ellK_pos _ (proj2 Hm)) as KP. assert (NK : ellK (kr2 r1 r2 r3 r4) <> 0) by lra. assert (NK2 : 2 * ellK (kr2 r1 r2 r3 r4) <> 0) by lra.
  split; [|split].
  - unfold Gt, Ap. limd; lra.
  - unfold Gph, Bp. limd; lra.
  - limd.
Qed.
End Averages.
Lemma freq_continuous_pos (an pn en xn urn uthn uphn gn : nat -> R) (a p e x ur uth uph g : R) :
  is_lim_seq an a -> is_lim_seq pn p -> is_lim_seq en e -> is_lim_seq xn x -> (forall n, 0 <= an n) -> 0 <= a ->
  (forall n, mino_frequencies (Some (an n)) (Some (pn n)) (Some (en n)) (Some (xn n)) = Ret (Some (urn n), Some (uthn n), Some (uphn n), Some (gn n))) ->
  mino_frequencies (Some a) (Some p) (Some e) (Some x) = Ret (Some ur, Some uth, Some uph, Some g) ->
  is_lim_seq urn ur /\ is_lim_seq uthn uth /\ is_lim_seq uphn uph /\ is_lim_seq gn g.
Proof.
  intros La Lp Le Lx Pn Pa Hn H0.
  set (cn := fun n => constants_of_motion (Some (an n)) (Some (pn n)) (Some (en n)) (Some (xn n))).
  set (get := fun (f : R -> R -> R -> R) n => match cn n with Ret (Some E, Some L, Some Q) => f E L Q | _ => 0 end).
  set (En := get (fun E _ _ => E)). set (Ln := get (fun _ L _ => L)). set (Qn := get (fun _ _ Q => Q)).
  set (r1n := fun n => pn n / (1 - en n)). set (r2n := fun n => pn n / (1 + en n)).
  set (sn := fun n => 2 / (1 - En n ^2) - pn n / (1 - en n) - pn n / (1 + en n)).
  set (dn := fun n => sqrt (sn n ^2 - 4 * (an n ^2 * Qn n / (pn n / (1 - en n) * (pn n / (1 + en n)) * (1 - En n ^2))))).
  set (r3n := fun n => (sn n + dn n) / 2). set (r4n := fun n => (sn n - dn n) / 2).
  set (bn := fun n => (an n ^2 * (1 - En n ^2) * (1 - (1 - xn n ^2)) + Ln n ^2) / (1 - (1 - xn n ^2))).
  assert (CF : forall n, exists zp a2s, orbit_facts (an n) (pn n) (en n) (xn n) (urn n) (uthn n) (uphn n) (gn n) (En n) (Ln n) (Qn n) (r1n n) (r2n n) (r3n n) (r4n n) zp (bn n) a2s).
  { intros n. destruct (mino_facts HX HR _ _ _ _ _ _ _ _ (Pn n) (Hn n)) as (E' & L' & Q' & r1' & r2' & r3' & r4' & zp & b' & a2s & F).
    destruct (roots_formula _ _ _ _ _ _ _ _ _ _ _ _ _ _ _ _ _ _ F) as (F3 & F4 & _). pose proof (of_r1 _ _ _ _ _ _ _ _ _ _ _ _ _ _ _ _ _ _ F) as F1. pose proof (of_r2 _ _ _ _ _ _ _ _ _ _ _ _ _ _ _ _ _ _ F) as F2.
    pose proof (of_beta _ _ _ _ _ _ _ _ _ _ _ _ _ _ _ _ _ _ F) as FB.
    assert (GE : En n = E' /\ Ln n = L' /\ Qn n = Q'). { unfold En, Ln, Qn, get, cn. rewrite (of_constants _ _ _ _ _ _ _ _ _ _ _ _ _ _ _ _ _ _ F). auto. }
    destruct GE as (GE & GL & GQ). exists zp, a2s. unfold r3n, r4n, dn, sn, bn, r1n, r2n. rewrite GE, GL, GQ, <- F3, <- F4, <- F1, <- F2, <- FB. exact F. }
  destruct (mino_facts HX HR _ _ _ _ _ _ _ _ Pa H0) as (E & L & Q & r1 & r2 & r3 & r4 & zp & b & a2s & F).
  destruct (roots_formula _ _ _ _ _ _ _ _ _ _ _ _ _ _ _ _ _ _ F) as (F3 & F4 & P0). destruct F as [Ha He Hx HC _ _ R1 R2 R12 NE _ Hs Hm Ho Hp2 Hm2 Hp3 Hm3 Hz HL HLx Hb Hk HB _ _ HA _ FR FT FG FP].
  assert (CN : forall n, constants_of_motion (Some (an n)) (Some (pn n)) (Some (en n)) (Some (xn n)) = Ret (Some (En n), Some (Ln n), Some (Qn n))) by (intros n; destruct (CF n) as (? & ? & G); apply G).
  destruct (C84_constants_continuous HR an pn en xn En Ln Qn a p e x E L Q La Lp Le Lx CN HC) as (LE & LQ & LL & _). specialize (LL (or_intror Pn)).
  assert (N1 : 1 - e <> 0) by lra. assert (N2 : 1 + e <> 0) by lra. assert (N3 : 2 <> 0) by lra.
  assert (N4 : p / (1 - e) * (p / (1 + e)) * (1 - E^2) <> 0). { rewrite <- R1, <- R2. repeat apply nz_mult; lra. }
  assert (N5 : 1 - (1 - x^2) <> 0). { replace (1 - (1 - x^2)) with (x^2) by ring. apply pow_nonzero. tauto. }
  assert (L1 : is_lim_seq r1n r1) by (rewrite R1; unfold r1n; limd). assert (L2 : is_lim_seq r2n r2) by (rewrite R2; unfold r2n; limd).
  assert (L3 : is_lim_seq r3n r3) by (rewrite F3; unfold r3n, dn, sn; limd). assert (L4 : is_lim_seq r4n r4) by (rewrite F4; unfold r4n, dn, sn; limd).
  assert (Lb : is_lim_seq bn b) by (rewrite HB; unfold bn; limd).
  assert (Nb : b <> 0) by lra.
  assert (Lk : is_lim_seq (fun n => kt2 (an n ^2 * (1 - En n ^2)) (1 - xn n ^2) (bn n)) (kt2 (a^2 * (1 - E^2)) (1 - x^2) b)) by (unfold kt2; limd).
  assert (Lz : is_lim_seq (fun n => 1 - xn n ^2) (1 - x^2)) by lim.
  pose proof (lim_ellK _ _ Lk (proj2 Hk)) as LK. pose proof (lim_ellE _ _ Lk (proj2 Hk)) as LEc.
  pose proof (lim_ellPi _ _ _ _ Lz Lk (proj2 Hz) (proj2 Hk)) as LP.
  pose proof (ellK_pos _ (proj2 Hk)) as KP. assert (NK : ellK (kt2 (a^2 * (1 - E^2)) (1 - x^2) b) <> 0) by lra. assert (NK2 : 2 * ellK (kt2 (a^2 * (1 - E^2)) (1 - x^2) b) <> 0) by lra.
  destruct (lim_radial_terms an En Ln r1n r2n r3n r4n a E L r1 r2 r3 r4 La LE LL L1 L2 L3 L4 Ha Hs Hm Ho Hp2 Hm2 Hp3 Hm3) as (T1 & T2 & T3).
  (* the averaged polar term does not see the special case *)
  assert (GT : forall a E L x b a2s, 1 - E^2 <> 0 -> L <> 0 -> 0 < b -> a2s * sqrt b / Rabs L * kt2 (a^2 * (1 - E^2)) (1 - x^2) b = a^2 * (1 - x^2) ->
    Gth a E L (1 - x^2) b a2s = E * (b / (1 - E^2)) * (1 - ellE (PI / 2) (kt2 (a^2 * (1 - E^2)) (1 - x^2) b) / ellK (kt2 (a^2 * (1 - E^2)) (1 - x^2) b))).
  { clear. intros a E L x b a2s NE NL Hb HA. unfold Gth. set (m := kt2 (a^2 * (1 - E^2)) (1 - x^2) b) in *.
    destruct (Req_dec m 0) as [Z|Z].
    - rewrite Z. assert (EK : ellE (PI / 2) 0 = ellK 0). { unfold ellK, ellE, ellF. apply RInt_ext. intros t _. rewrite Rmult_0_l, Rminus_0_r, sqrt_1. symmetry. exact Rinv_1. }
      rewrite EK. pose proof (ellK_pos 0 ltac:(lra)). unfold Rdiv. rewrite Rinv_r by lra. ring.
    - assert (K : a2s * sqrt b / Rabs L = b / (1 - E^2)).
      { apply (Rmult_eq_reg_r m); [|exact Z]. rewrite HA. unfold m, kt2. field. split; [lra | exact NE]. }
      replace (a2s * E * sqrt b / Rabs L) with (E * (a2s * sqrt b / Rabs L)) by (unfold Rdiv; ring). rewrite K. reflexivity. }
  refine (conj _ (conj _ (conj _ _))).
  - rewrite FR. apply (is_lim_seq_ext (fun n => PI * sqrt (sr2 (1 - En n ^2) (r1n n) (r2n n) (r3n n) (r4n n)) / (2 * ellK (kr2 (r1n n) (r2n n) (r3n n) (r4n n))))); [intros n; destruct (CF n) as (? & ? & G); symmetry; apply G|]. exact T3.
  - rewrite FT. apply (is_lim_seq_ext (fun n => PI * sqrt (bn n) / (2 * ellK (kt2 (an n ^2 * (1 - En n ^2)) (1 - xn n ^2) (bn n))))); [intros n; destruct (CF n) as (? & ? & G); symmetry; apply G|]. limd.
  - rewrite FP. apply (is_lim_seq_ext (fun n => Ln n * ellPi (1 - xn n ^2) (PI / 2) (kt2 (an n ^2 * (1 - En n ^2)) (1 - xn n ^2) (bn n)) / ellK (kt2 (an n ^2 * (1 - En n ^2)) (1 - xn n ^2) (bn n)) + Gph (an n) (En n) (Ln n) (r1n n) (r2n n) (r3n n) (r4n n))); [intros n; destruct (CF n) as (? & ? & G); symmetry; apply G|]. limd.
  - rewrite FG, (GT a E L x b a2s NE HL Hb HA).
    apply (is_lim_seq_ext (fun n => 4 * En n + En n * (bn n / (1 - En n ^2)) * (1 - ellE (PI / 2) (kt2 (an n ^2 * (1 - En n ^2)) (1 - xn n ^2) (bn n)) / ellK (kt2 (an n ^2 * (1 - En n ^2)) (1 - xn n ^2) (bn n))) + Gt (an n) (En n) (Ln n) (r1n n) (r2n n) (r3n n) (r4n n))).
    + intros n. destruct (CF n) as (zpn & a2 & G). rewrite (of_gam _ _ _ _ _ _ _ _ _ _ _ _ _ _ _ _ _ _ G). rewrite (GT (an n) (En n) (Ln n) (xn n) (bn n) a2); [reflexivity | apply G..].
    + limd.
Qed.
(** ** the statement, for spins of either sign *)
Theorem C86_frequencies_continuous (an pn en xn urn uthn uphn gn : nat -> R) (a p e x ur uth uph g : R) :
  is_lim_seq an a -> is_lim_seq pn p -> is_lim_seq en e -> is_lim_seq xn x -> a <> 0 \/ (forall n, 0 <= an n) ->
  (forall n, mino_frequencies (Some (an n)) (Some (pn n)) (Some (en n)) (Some (xn n)) = Ret (Some (urn n), Some (uthn n), Some (uphn n), Some (gn n))) ->
  mino_frequencies (Some a) (Some p) (Some e) (Some x) = Ret (Some ur, Some uth, Some uph, Some g) ->
  is_lim_seq urn ur /\ is_lim_seq uthn uth /\ is_lim_seq uphn uph /\ is_lim_seq gn g.
Proof.
  intros La Lp Le Lx S Hn H0. rewrite mino_std in H0.
  refine (freq_continuous_pos (fun n => Rabs (an n)) pn en (fun n => xn n * spin_sign (an n)) urn uthn uphn gn (Rabs a) p e (x * spin_sign a) ur uth uph g _ Lp Le _ _ (Rabs_pos a) _ H0).
  - apply (is_lim_seq_abs an a La).
  - apply (is_lim_seq_ext_loc (fun n => xn n * spin_sign a)); [|lim]. destruct S as [S|S].
    + destruct (eventually_close an a (Rabs a) La (Rabs_pos_lt a S)) as [n0 K]. exists n0. intros n Hnn. specialize (K n Hnn). cbv beta in K |- *. f_equal.
      unfold spin_sign. apply Rabs_def2 in K. destruct (Rlt_dec a 0), (Rlt_dec (an n) 0); try reflexivity; [rewrite Rabs_left in K by lra; lra | rewrite Rabs_pos_eq in K by lra; lra].
    + exists 0%nat. intros n _. cbv beta. f_equal. unfold spin_sign. pose proof (is_lim_seq_le (fun _ => 0) an 0 a S (is_lim_seq_const 0) La) as K. cbn in K. specialize (S n).
      destruct (Rlt_dec a 0), (Rlt_dec (an n) 0); lra.
  - intros n. apply Rabs_pos.
  - intros n. rewrite <- mino_std. apply Hn.
Qed.
Theorem C86_fundamental_frequencies_continuous (an pn en xn urn uthn uphn gn : nat -> R) (a p e x ur uth uph g : R) :
  is_lim_seq an a -> is_lim_seq pn p -> is_lim_seq en e -> is_lim_seq xn x -> a <> 0 \/ (forall n, 0 <= an n) ->
  (forall n, mino_frequencies (Some (an n)) (Some (pn n)) (Some (en n)) (Some (xn n)) = Ret (Some (urn n), Some (uthn n), Some (uphn n), Some (gn n))) ->
  mino_frequencies (Some a) (Some p) (Some e) (Some x) = Ret (Some ur, Some uth, Some uph, Some g) ->
  exists wrn wthn wphn wr wth wph,
  (forall n, fundamental_frequencies (Some (an n)) (Some (pn n)) (Some (en n)) (Some (xn n)) = Ret (Some (wrn n), Some (wthn n), Some (wphn n))) /\
  fundamental_frequencies (Some a) (Some p) (Some e) (Some x) = Ret (Some wr, Some wth, Some wph) /\
  is_lim_seq wrn (Finite wr) /\ is_lim_seq wthn (Finite wth) /\ is_lim_seq wphn (Finite wph).
Proof.
  intros La Lp Le Lx S Hn H0.
  destruct (C86_frequencies_continuous _ _ _ _ _ _ _ _ _ _ _ _ _ _ _ _ La Lp Le Lx S Hn H0) as (K1 & K2 & K3 & K4).
  destruct (C65_fundamental_frequencies HX HR _ _ _ _ _ _ _ _ H0) as (G & FF & _). assert (NG : g <> 0) by lra.
  exists (fun n => urn n / gn n), (fun n => uthn n / gn n), (fun n => uphn n / gn n), (ur / g), (uth / g), (uph / g).
  split; [intros n; exact (proj1 (proj2 (C65_fundamental_frequencies HX HR _ _ _ _ _ _ _ _ (Hn n))))|]. split; [exact FF|].
  refine (conj _ (conj _ _)); limd.
Qed.
(** a concrete family through three special cases at once: spins 1/(n+2) to zero, eccentricities 1/(n+2) to zero,
    inclinations to the retrograde equatorial plane *)
Example C86_case : exists urn uthn uphn gn ur uth uph g,
  (forall n, let w := / (INR n + 2) in mino_frequencies (Some w) (Some 20) (Some w) (Some (w - 1)) = Ret (Some (urn n), Some (uthn n), Some (uphn n), Some (gn n))) /\
  mino_frequencies (Some 0) (Some 20) (Some 0) (Some (-1)) = Ret (Some ur, Some uth, Some uph, Some g) /\
  is_lim_seq urn (Finite ur) /\ is_lim_seq uthn (Finite uth) /\ is_lim_seq uphn (Finite uph) /\ is_lim_seq gn (Finite g).
Proof.
  set (w := fun n : nat => / (INR n + 2)).
  assert (W0 : forall n, 0 < w n <= 1/2). { intros n. unfold w. pose proof (pos_INR n). split; [apply Rinv_0_lt_compat; lra|]. replace (1/2) with (/ 2) by field. apply Rinv_le_contravar; lra. }
  assert (LW : is_lim_seq w 0).
  { unfold w. replace (Finite 0) with (Rbar_inv p_infty) by reflexivity. apply is_lim_seq_inv; [|discriminate].
    apply (is_lim_seq_plus INR (fun _ => 2) p_infty 2 p_infty); [apply is_lim_seq_INR | apply is_lim_seq_const | reflexivity]. }
  set (cn := fun n => mino_frequencies (Some (w n)) (Some 20) (Some (w n)) (Some (w n - 1))).
  assert (CN : forall n, exists u1 u2 u3 u4, cn n = Ret (Some u1, Some u2, Some u3, Some u4)).
  { intros n. specialize (W0 n). unfold cn. destruct (far_retrograde HX HR (w n) 20 (w n) (w n - 1)) as (E & L & Q & u1 & u2 & u3 & u4 & _ & K); try lra. eauto. }
  set (get := fun (f : R -> R -> R -> R -> R) n => match cn n with Ret (Some u1, Some u2, Some u3, Some u4) => f u1 u2 u3 u4 | _ => 0 end).
  assert (GE : forall n, mino_frequencies (Some (w n)) (Some 20) (Some (w n)) (Some (w n - 1))
     = Ret (Some (get (fun u _ _ _ => u) n), Some (get (fun _ u _ _ => u) n), Some (get (fun _ _ u _ => u) n), Some (get (fun _ _ _ u => u) n))).
  { intros n. fold (cn n). unfold get. destruct (CN n) as (u1 & u2 & u3 & u4 & ->). reflexivity. }
  assert (H0 : exists ur uth uph g, mino_frequencies (Some 0) (Some 20) (Some 0) (Some (-1)) = Ret (Some ur, Some uth, Some uph, Some g)).
  { pose proof (schwarzschild_constants 20 0 (-1) ltac:(lra) ltac:(lra) ltac:(lra)) as HC.
    assert (CS : exists E L Q, constants_of_motion (Some 0) (Some 20) (Some 0) (Some (-1)) = Ret (Some E, Some L, Some Q)) by (rewrite HC; do 3 eexists; reflexivity).
    destruct CS as (E & L & Q & C0). apply (C53_frequencies_exactly HX HR 0 20 0 (-1) E L Q ltac:(lra) ltac:(lra) C0).
    destruct (orbit_bound HR 0 20 0 (-1) E L Q ltac:(lra) ltac:(lra) C0) as (EP & _).
    rewrite Rabs_R0, Rmult_0_l. apply Rgt_not_eq. pose proof (sqrt_pos (1 - 0^2)). apply Rmult_lt_0_compat; lra. }
  destruct H0 as (ur & uth & uph & g & H0).
  assert (LX : is_lim_seq (fun n => w n - 1) (-1)) by (replace (Finite (-1)) with (Finite (0 - 1)) by (f_equal; ring); lim).
  assert (PW : forall n, 0 <= w n) by (intros n; specialize (W0 n); lra).
  pose proof (C86_frequencies_continuous w (fun _ => 20) w (fun n => w n - 1) _ _ _ _ 0 20 0 (-1) ur uth uph g LW (is_lim_seq_const 20) LW LX (or_intror PW) GE H0) as (K1 & K2 & K3 & K4).
  do 8 eexists. exact (conj GE (conj H0 (conj K1 (conj K2 (conj K3 K4))))).
Qed.
End Pos.
Print Assumptions C86_fundamental_frequencies_continuous.
Print Assumptions C86_frequencies_continuous.

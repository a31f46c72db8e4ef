(** * Bound orbits are determined by their turning points

    Not a model of any code: the algebra behind C63.  Notation of P_Stability2: q and c q are
    the turning points, b = a x, k = a^2 (1 - x^2), t = k/q^2, y = L/x - b E, Y = y^2.
    Eliminating E y from the two turning-point equations gives b as a function [beta] of Y;
    it is strictly decreasing up to the critical value [Yc_], where the periastron becomes a
    double root.  Hence an orbit whose two inner roots lie below q has its spin above the
    critical one, and there is only one such orbit. *)
From Coq Require Import Reals Lra Psatz.
From Coquelicot Require Import Coquelicot.
From Verif Require Import P_Stability P_Stability2 P_Stability4.
Open Scope R_scope.

Definition GG (c t : R) : R := (c^2 + t) * (1 + t).
Definition wn (c t : R) : R := 2 * (c^2 + t) * (c + 1) + 2 * (c - t) * (1 + t).
Definition A1 (c t : R) : R :=
  GG c t * (4 * (c - t) * (c - 1) * dd c t + (1 + t) * 16 * (c - t)^2)
  - (1 + t) * (wn c t - GG c t * (c + 1)) * (wn c t - 2 * GG c t).
Definition B1 (c t : R) : R :=
  4 * (c - t) * (c - 1) * (c + 1) * dd c t ^ 2 * GG c t
  + (c + 1) * (16 * (c - t)^2 * GG c t - (wn c t - (c + 1) * GG c t) * (wn c t - 2 * GG c t)) * (1 + t) * dd c t
  + (c - 1) * (wn c t - 2 * GG c t) * (c + 1) * GG c t * (1 + t) * dd c t
  + 2 * (c - t) * (1 + t) * (2 * (c + 1) - 4) * (c + 1) * GG c t ^ 2 * (1 + t).

Ltac pos_terms := repeat (first [apply Rplus_le_le_0_compat | apply Rmult_le_pos | apply pow_le]); lra.

Lemma A1_nonneg c t : 1 <= c -> 0 <= t <= 1/3 -> 0 <= A1 c t.
Proof.
  intros Hc Ht.
  assert (Hu : exists u, 0 <= u /\ c = 1 + u) by (exists (c - 1); lra). destruct Hu as (u & Hu & ->).
  assert (Hz : exists z, 0 <= z /\ z = 1/3 - t) by (exists (1/3 - t); lra). destruct Hz as (z & Hz & Ez).
  replace (A1 (1 + u) t) with (
    u^1 * (1296 * t^0 * z^4 + 5184 * t^1 * z^3 + 7488 * t^2 * z^2 + 4608 * t^3 * z^1 + 1024 * t^4 * z^0)
    + u^2 * (4212 * t^0 * z^4 + 17064 * t^1 * z^3 + 25344 * t^2 * z^2 + 16320 * t^3 * z^1 + 3840 * t^4 * z^0)
    + u^3 * (5346 * t^0 * z^4 + 21600 * t^1 * z^3 + 32256 * t^2 * z^2 + 21120 * t^3 * z^1 + 5120 * t^4 * z^0)
    + u^4 * (3402 * t^0 * z^4 + 13554 * t^1 * z^3 + 19944 * t^2 * z^2 + 12864 * t^3 * z^1 + 3072 * t^4 * z^0)
    + u^5 * (1134 * t^0 * z^4 + 4482 * t^1 * z^3 + 6516 * t^2 * z^2 + 4128 * t^3 * z^1 + 960 * t^4 * z^0)
    + u^6 * (162 * t^0 * z^4 + 648 * t^1 * z^3 + 954 * t^2 * z^2 + 612 * t^3 * z^1 + 144 * t^4 * z^0)).
  - pos_terms.
  - rewrite Ez. unfold A1, GG, wn, dd. field.
Qed.

Lemma B1_nonneg c t : 1 <= c -> 0 <= t <= 1/3 -> 0 <= B1 c t.
Proof.
  intros Hc Ht.
  assert (Hu : exists u, 0 <= u /\ c = 1 + u) by (exists (c - 1); lra). destruct Hu as (u & Hu & ->).
  assert (Hz : exists z, 0 <= z /\ z = 1/3 - t) by (exists (1/3 - t); lra). destruct Hz as (z & Hz & Ez).
  replace (B1 (1 + u) t) with (
    u^1 * (31104 * t^0 * z^5 + 145152 * t^1 * z^4 + 262656 * t^2 * z^3 + 230400 * t^3 * z^2 + 98304 * t^4 * z^1 + 16384 * t^5 * z^0)
    + u^2 * (163296 * t^0 * z^5 + 777600 * t^1 * z^4 + 1448064 * t^2 * z^3 + 1317888 * t^3 * z^2 + 586752 * t^4 * z^1 + 102400 * t^5 * z^0)
    + u^3 * (369360 * t^0 * z^5 + 1783296 * t^1 * z^4 + 3388608 * t^2 * z^3 + 3168000 * t^3 * z^2 + 1457664 * t^4 * z^1 + 264192 * t^5 * z^0)
    + u^4 * (472392 * t^0 * z^5 + 2299104 * t^1 * z^4 + 4421952 * t^2 * z^3 + 4203648 * t^3 * z^2 + 1976064 * t^4 * z^1 + 367616 * t^5 * z^0)
    + u^5 * (376164 * t^0 * z^5 + 1837728 * t^1 * z^4 + 3554496 * t^2 * z^3 + 3405312 * t^3 * z^2 + 1617024 * t^4 * z^1 + 304640 * t^5 * z^0)
    + u^6 * (192456 * t^0 * z^5 + 942192 * t^1 * z^4 + 1826280 * t^2 * z^3 + 1753344 * t^3 * z^2 + 834240 * t^4 * z^1 + 157440 * t^5 * z^0)
    + u^7 * (62208 * t^0 * z^5 + 305532 * t^1 * z^4 + 593676 * t^2 * z^3 + 570672 * t^3 * z^2 + 271392 * t^4 * z^1 + 51072 * t^5 * z^0)
    + u^8 * (11664 * t^0 * z^5 + 57672 * t^1 * z^4 + 112752 * t^2 * z^3 + 108936 * t^3 * z^2 + 51984 * t^4 * z^1 + 9792 * t^5 * z^0)
    + u^9 * (972 * t^0 * z^5 + 4860 * t^1 * z^4 + 9612 * t^2 * z^3 + 9396 * t^3 * z^2 + 4536 * t^4 * z^1 + 864 * t^5 * z^0)).
  - pos_terms.
  - rewrite Ez. unfold B1, GG, wn, dd. field.
Qed.

Definition H1 (c t q : R) : R :=
  4 * (c - t) * ((c + 1) * q - 2) * dd c t * GG c t + 16 * (c - t)^2 * (1 + t) * GG c t
  - (1 + t) * (wn c t - (c + 1) * q * GG c t) * (wn c t - 2 * GG c t).
Definition H2 (c t q : R) : R :=
  2 * (c - t) * ((c + 1) * q - 2)^2 * dd c t ^ 2 * GG c t
  + ((c + 1) * q - 2) * (1 + t) * dd c t * (16 * (c - t)^2 * GG c t - (wn c t - (c + 1) * q * GG c t) * (wn c t - 2 * GG c t))
  + 2 * (c - t) * (1 + t)^2 * (16 * (c - t)^2 * GG c t
      - (wn c t - (c + 1) * q * GG c t) * (wn c t + (c + 1) * q * GG c t - 4 * GG c t)).

Lemma basics c t : dom c t -> 1 <= c /\ 0 <= t < 1/3 /\ 0 < dd c t /\ 0 < c - t /\ 0 < GG c t /\
  wn c t - 2 * GG c t = 2 * (c - t) * (c^2 + 2 * t + 1) /\ 0 < wn c t - 2 * GG c t.
Proof.
  intros H. pose proof (dom_third _ _ H) as T. pose proof (dom_dd _ _ H) as D. destruct H as (Hc & Ht & _).
  assert (C2 : 0 < c^2) by (apply pow_lt; lra).
  assert (E : wn c t - 2 * GG c t = 2 * (c - t) * (c^2 + 2 * t + 1)) by (unfold wn, GG; ring).
  refine (conj Hc (conj _ (conj D (conj _ (conj _ (conj E _)))))); [lra | lra | unfold GG; apply Rmult_lt_0_compat; lra |].
  rewrite E. apply Rmult_lt_0_compat; lra.
Qed.

Lemma H1_nonneg c t q : dom c t -> 1 <= q -> 0 <= H1 c t q.
Proof.
  intros H Hq. destruct (basics c t H) as (Hc & Ht & Hd & Hct & HG & _ & Hw).
  replace (H1 c t q) with (A1 c t + (q - 1) * ((c + 1) * (4 * (c - t) * dd c t * GG c t + (1 + t) * GG c t * (wn c t - 2 * GG c t))))
    by (unfold H1, A1; ring).
  apply Rplus_le_le_0_compat; [apply A1_nonneg; lra|].
  repeat (first [lra | apply Rplus_le_le_0_compat | apply Rmult_le_pos]).
Qed.

Lemma H2_nonneg c t q : dom c t -> 1 <= q -> 0 <= H2 c t q.
Proof.
  intros H Hq. destruct (basics c t H) as (Hc & Ht & Hd & Hct & HG & _ & Hw).
  replace (H2 c t q) with ((q - 1) * B1 c t + (q - 1)^2 * ((c + 1)^2 * (2 * (c - t) * dd c t ^ 2 * GG c t
      + (1 + t) * dd c t * GG c t * (wn c t - 2 * GG c t) + 2 * (c - t) * (1 + t)^2 * GG c t ^ 2)))
    by (unfold H2, B1, wn, GG, dd; ring).
  assert (0 <= dd c t ^ 2) by apply pow2_ge_0. assert (0 <= GG c t ^ 2) by apply pow2_ge_0.
  assert (0 <= (1 + t)^2) by apply pow2_ge_0. assert (0 <= (c + 1)^2) by apply pow2_ge_0. assert (0 <= (q - 1)^2) by apply pow2_ge_0.
  pose proof (B1_nonneg c t Hc ltac:(lra)).
  repeat (first [lra | apply Rplus_le_le_0_compat | apply Rmult_le_pos]).
Qed.

(** ** b as a function of Y *)
Definition P0 (c t q : R) : R := 2 * q * (c - t) / (c + 1).
Definition NN (c t q Y : R) : R := Y * (al_ c q + be_ c t q * Y).
Definition gY (c t q Y : R) : R := P0 c t q + W_ c t q * Y + NN c t q Y.
Definition AA (c t q Y : R) : R := al_ c q + 2 * be_ c t q * Y.
Definition FF (c t q Y : R) : R := P0 c t q * AA c t q Y ^ 2 - W_ c t q ^ 2 * NN c t q Y - W_ c t q * al_ c q * AA c t q Y * Y.
Definition beta (c t q Y : R) : R := sqrt (gY c t q Y) - sqrt (NN c t q Y).

Lemma coeffs c t q : dom c t -> 1 < q -> 0 < al_ c q /\ 0 < be_ c t q /\ 0 < P0 c t q /\ 0 < Yc_ c t q /\
  0 < W_ c t q + al_ c q.
Proof.
  intros H Hq. destruct (basics c t H) as (Hc & Ht & Hd & Hct & HG & Ew & Hw).
  assert (C2 : 0 < c^2) by (apply pow_lt; lra). assert (Q2 : 0 < q^2) by (apply pow_lt; lra).
  assert (NQ : 0 < (c + 1) * q) by (apply Rmult_lt_0_compat; lra).
  refine (conj _ (conj _ (conj _ (conj _ _)))).
  - unfold al_. assert (2 / ((c + 1) * q) < 1) by (apply Rlt_div_l; nra). lra.
  - unfold be_, mm_. apply Rdiv_lt_0_compat; [|exact NQ]. apply Rmult_lt_0_compat; [lra|].
    apply Rdiv_lt_0_compat; [lra|]. repeat apply Rmult_lt_0_compat; lra.
  - unfold P0. apply Rdiv_lt_0_compat; [|lra]. apply Rmult_lt_0_compat; lra.
  - unfold Yc_, Yt. apply Rdiv_lt_0_compat; [|exact Hd]. assert (0 < (1 + t)^2) by (apply pow_lt; lra). repeat apply Rmult_lt_0_compat; lra.
  - replace (W_ c t q + al_ c q) with ((wn c t - 2 * GG c t) / ((c + 1) * q * GG c t)).
    + apply Rdiv_lt_0_compat; [exact Hw|]. apply Rmult_lt_0_compat; assumption.
    + unfold W_, al_, wn, GG. field. repeat split; lra.
Qed.

Lemma FF_pos c t q Y : dom c t -> 1 < q -> 0 <= Y <= Yc_ c t q ->
  0 <= FF c t q Y /\ (Y < Yc_ c t q -> 0 < FF c t q Y).
Proof.
  intros H Hq HY. destruct (basics c t H) as (Hc & Ht & Hd & Hct & HG & Ew & Hw).
  destruct (coeffs c t q H Hq) as (Hal & Hbe & HP & HYc & _).
  assert (C2 : 0 < c^2) by (apply pow_lt; lra). assert (Q2 : 0 < q^2) by (apply pow_lt; lra).
  pose proof (H1_nonneg c t q H ltac:(lra)) as N1. pose proof (H2_nonneg c t q H ltac:(lra)) as N2.
  set (h := Y / Yc_ c t q). assert (EY : Y = h * Yc_ c t q) by (unfold h; field; lra).
  assert (Hh : 0 <= h <= 1).
  { split; [apply Rmult_le_pos; [lra | left; apply Rinv_0_lt_compat; lra] | apply Rle_div_l; lra]. }
  assert (Hh' : Y < Yc_ c t q -> h < 1) by (intros; apply Rlt_div_l; lra).
  clearbody h. subst Y. clear HY.
  assert (D1 : P0 c t q * al_ c q * 2 + (4 * P0 c t q * be_ c t q - W_ c t q ^ 2 - W_ c t q * al_ c q) * Yc_ c t q
     = H1 c t q / ((c + 1)^2 * GG c t * dd c t)).
  { unfold P0, al_, be_, mm_, W_, Yc_, Yt, H1, wn, GG. field. repeat split; lra. }
  assert (D2 : FF c t q (Yc_ c t q) = H2 c t q / (q * (c + 1)^3 * dd c t ^ 2 * GG c t)).
  { unfold FF, AA, NN, P0, al_, be_, mm_, W_, Yc_, Yt, H2, wn, GG. field. repeat split; lra. }
  assert (G1 : 0 <= H1 c t q / ((c + 1)^2 * GG c t * dd c t)).
  { apply Rmult_le_pos; [exact N1|]. left. apply Rinv_0_lt_compat. assert (0 < (c + 1)^2) by (apply pow_lt; lra). repeat apply Rmult_lt_0_compat; lra. }
  assert (G2 : 0 <= H2 c t q / (q * (c + 1)^3 * dd c t ^ 2 * GG c t)).
  { apply Rmult_le_pos; [exact N2|]. left. apply Rinv_0_lt_compat. assert (0 < (c + 1)^3) by (apply pow_lt; lra).
    assert (0 < dd c t ^ 2) by (apply pow_lt; lra). repeat apply Rmult_lt_0_compat; lra. }
  rewrite <- D1 in G1. rewrite <- D2 in G2. clear D1 D2 N1 N2.
  replace (FF c t q (h * Yc_ c t q)) with
    ((1 - h)^2 * (P0 c t q * al_ c q ^ 2)
     + h * (1 - h) * (al_ c q * (P0 c t q * al_ c q * 2 + (4 * P0 c t q * be_ c t q - W_ c t q ^ 2 - W_ c t q * al_ c q) * Yc_ c t q))
     + h^2 * FF c t q (Yc_ c t q)) by (unfold FF, AA, NN; ring).
  assert (0 < P0 c t q * al_ c q ^ 2) by (apply Rmult_lt_0_compat; [lra | apply pow_lt; lra]).
  assert (0 <= (1 - h)^2 * (P0 c t q * al_ c q ^ 2)) by (apply Rmult_le_pos; [apply pow2_ge_0 | lra]).
  assert (HK : h * Yc_ c t q < Yc_ c t q -> 0 < (1 - h)^2 * (P0 c t q * al_ c q ^ 2)).
  { intros K. apply Hh' in K. apply Rmult_lt_0_compat; [apply pow_lt; lra | lra]. }
  assert (0 <= h * (1 - h) * (al_ c q * (P0 c t q * al_ c q * 2 + (4 * P0 c t q * be_ c t q - W_ c t q ^ 2 - W_ c t q * al_ c q) * Yc_ c t q))).
  { repeat apply Rmult_le_pos; lra. }
  assert (0 <= h^2 * FF c t q (Yc_ c t q)) by (apply Rmult_le_pos; [apply pow2_ge_0 | exact G2]).
  split; [lra | intros K; apply HK in K; lra].
Qed.

Lemma gN_pos c t q Y : dom c t -> 1 < q -> 0 < Y -> 0 < NN c t q Y /\ 0 < gY c t q Y.
Proof.
  intros H Hq HY. destruct (coeffs c t q H Hq) as (Hal & Hbe & HP & HYc & Hs).
  assert (0 < be_ c t q * Y) by (apply Rmult_lt_0_compat; lra).
  split; [unfold NN; apply Rmult_lt_0_compat; lra|].
  replace (gY c t q Y) with (P0 c t q + Y * (W_ c t q + al_ c q) + Y * (be_ c t q * Y)) by (unfold gY, NN; ring).
  assert (0 < Y * (W_ c t q + al_ c q)) by (apply Rmult_lt_0_compat; lra). assert (0 < Y * (be_ c t q * Y)) by (apply Rmult_lt_0_compat; lra). lra.
Qed.

Lemma beta_derive c t q Y : dom c t -> 1 < q -> 0 < Y <= Yc_ c t q ->
  exists l, is_derive (beta c t q) Y l /\ l <= 0 /\ (Y < Yc_ c t q -> l < 0).
Proof.
  intros H Hq HY. destruct (coeffs c t q H Hq) as (Hal & Hbe & HP & HYc & Hs).
  destruct (gN_pos c t q Y H Hq ltac:(lra)) as [HN Hg].
  destruct (FF_pos c t q Y H Hq ltac:(lra)) as [HF0 HF].
  exists ((W_ c t q + AA c t q Y) / (2 * sqrt (gY c t q Y)) - AA c t q Y / (2 * sqrt (NN c t q Y))). split.
  - unfold beta, gY, NN in *. auto_derive; [repeat split; lra|]. unfold AA. field.
    split; apply Rgt_not_eq, sqrt_lt_R0; assumption.
  - pose proof (sqrt_lt_R0 _ HN) as SN. pose proof (sqrt_lt_R0 _ Hg) as Sg.
    assert (HA : 0 < be_ c t q * Y) by (apply Rmult_lt_0_compat; lra).
    assert (HWA : 0 < W_ c t q + AA c t q Y) by (unfold AA; lra).
    assert (HAA : 0 < AA c t q Y) by (unfold AA; lra).
    assert (ID : AA c t q Y * AA c t q Y * gY c t q Y =
        (W_ c t q + AA c t q Y) * (W_ c t q + AA c t q Y) * NN c t q Y + FF c t q Y) by (unfold FF, gY, NN, AA; ring).
    assert (U1 : 0 <= (W_ c t q + AA c t q Y) * sqrt (NN c t q Y)) by (apply Rlt_le, Rmult_lt_0_compat; lra).
    assert (U2 : 0 <= AA c t q Y * sqrt (gY c t q Y)) by (apply Rlt_le, Rmult_lt_0_compat; lra).
    assert (K0 : (W_ c t q + AA c t q Y) * sqrt (NN c t q Y) <= AA c t q Y * sqrt (gY c t q Y)).
    { apply Rsqr_incr_0; [|assumption|assumption]. rewrite !Rsqr_mult, !Rsqr_sqrt by lra. unfold Rsqr. rewrite ID. lra. }
    assert (K1 : Y < Yc_ c t q -> (W_ c t q + AA c t q Y) * sqrt (NN c t q Y) < AA c t q Y * sqrt (gY c t q Y)).
    { intros K. apply HF in K. apply Rsqr_incrst_0; [|assumption|assumption]. rewrite !Rsqr_mult, !Rsqr_sqrt by lra. unfold Rsqr. rewrite ID. lra. }
    assert (M : 0 < 2 * sqrt (gY c t q Y) * sqrt (NN c t q Y)) by (repeat apply Rmult_lt_0_compat; lra).
    set (u := (W_ c t q + AA c t q Y) * sqrt (NN c t q Y)) in *. set (v := AA c t q Y * sqrt (gY c t q Y)) in *.
    replace ((W_ c t q + AA c t q Y) / (2 * sqrt (gY c t q Y)) - AA c t q Y / (2 * sqrt (NN c t q Y)))
      with ((u - v) / (2 * sqrt (gY c t q Y) * sqrt (NN c t q Y))) by (unfold u, v; field; lra).
    split; [apply Rle_div_l; lra|]. intros K. apply K1 in K. apply Rlt_div_l; lra.
Qed.

Lemma beta_mean c t q Y Y' : dom c t -> 1 < q -> 0 < Y < Y' -> Y' <= Yc_ c t q ->
  beta c t q Y' <= beta c t q Y /\ (Y' < Yc_ c t q -> beta c t q Y' < beta c t q Y).
Proof.
  intros H Hq HY HY'.
  destruct (MVT_gen (beta c t q) Y Y' (Derive (beta c t q))) as [s [Hs Es]].
  - intros s Hs. rewrite Rmin_left, Rmax_right in Hs by lra.
    destruct (beta_derive c t q s H Hq ltac:(lra)) as [l [Dl _]]. apply Derive_correct. exists l. exact Dl.
  - intros s Hs. rewrite Rmin_left, Rmax_right in Hs by lra.
    destruct (beta_derive c t q s H Hq ltac:(lra)) as [l [Dl _]]. apply continuity_pt_filterlim.
    apply (ex_derive_continuous (V := R_NormedModule) (beta c t q) s). exists l. exact Dl.
  - rewrite Rmin_left, Rmax_right in Hs by lra.
    destruct (beta_derive c t q s H Hq ltac:(lra)) as [l [Dl [L0 Ll]]]. rewrite (is_derive_unique _ _ _ Dl) in Es.
    split; [|intros K; specialize (Ll ltac:(lra))]; nra.
Qed.

Lemma beta_decreases c t q Y Y' : dom c t -> 1 < q -> 0 < Y < Y' -> Y' <= Yc_ c t q -> beta c t q Y' < beta c t q Y.
Proof.
  intros H Hq HY HY'.
  destruct (beta_mean c t q Y ((Y + Y') / 2) H Hq ltac:(lra) ltac:(lra)) as [_ M1].
  destruct (beta_mean c t q ((Y + Y') / 2) Y' H Hq ltac:(lra) HY') as [M2 _].
  specialize (M1 ltac:(lra)). lra.
Qed.

(** ** Orbits *)
Section Sol.
Variables c k q b E y : R.
Let t := k / q^2.
Hypothesis Hdom : dom c t.
Hypothesis Hk : 0 <= k.
Hypothesis Hq : 1 < q.
Hypothesis Ha : b^2 + k < 1.
Hypothesis HE : 0 < E.
Hypothesis Hl : 0 <= y + b * E.
Hypothesis E1 : E^2 = al_ c q + be_ c t q * y^2.
Hypothesis E2 : P_ c t q b + W_ c t q * y^2 = 2 * b * (E * y).

Lemma sol_W : -1 < W_ c t q.
Proof.
  destruct (basics c t Hdom) as (Hc & Ht & _ & Hct & _). assert (C2 : 0 < c^2) by (apply pow_lt; lra).
  unfold W_. assert (0 < (2 / (1 + t) + 2 * (c - t) / ((c ^ 2 + t) * (c + 1))) / q); [|lra].
  apply Rdiv_lt_0_compat; [|lra]. apply Rplus_lt_0_compat; apply Rdiv_lt_0_compat; try lra.
  apply Rmult_lt_0_compat; lra.
Qed.

Lemma sol_y : 0 < y.
Proof.
  destruct (pos c k q b Hdom Hk Hq Ha) as (_ & _ & _ & _ & _ & _ & _ & _ & _ & HP). fold t in HP.
  pose proof sol_W as HW.
  apply Rnot_le_lt. intros Hy.
  assert (Y0 : 0 <= y^2) by apply pow2_ge_0.
  assert (K : P_ c t q b - y^2 <= 2 * b * (E * y)) by nra.
  assert (Hb : b <= 0 \/ 0 < b) by lra. destruct Hb as [Hb|Hb].
  - assert (y = 0) as -> by nra. nra.
  - assert (HPb : 0 < P_ c t q b) by exact HP.
    assert (- y <= b * E) by lra. assert (y^2 <= (b * E) * (- y)) by nra.
    assert (0 <= b * E * - y) by (apply Rmult_le_pos; [apply Rmult_le_pos|]; lra). nra.
Qed.

Lemma sol_P0 : P0 c t q = P_ c t q b + b^2.
Proof. unfold P0, P_. ring. Qed.

Lemma sol_sum : 0 < b + E * y.
Proof.
  pose proof sol_y as Hy. pose proof sol_W as HW. pose proof sol_P0 as SP. destruct (basics c t Hdom) as (Hc & Ht & _ & Hct & _).
  destruct (pos c k q b Hdom Hk Hq Ha) as (_ & _ & _ & _ & C2 & Hal & _ & _ & _ & HP). fold t in HP.
  assert (EY : 0 < E * y) by (apply Rmult_lt_0_compat; lra).
  apply Rnot_le_lt. intros K.
  assert (HB : 0 < - b) by lra. set (B := - b) in *. assert (Eb : b = - B) by (unfold B; ring). clearbody B. subst b.
  assert (Y0 : 0 < y^2) by (apply pow_lt; lra).
  assert (BEy : 0 < B * (E * y)) by (apply Rmult_lt_0_compat; lra).
  assert (W0 : W_ c t q < 0) by nra.
  (* the periastron lies beyond the horizon of the extreme hole of the same k *)
  assert (Q2 : 0 < q^2) by (apply pow_lt; lra).
  assert (Et : t * q^2 = k) by (unfold t; field; lra).
  assert (F1 : 1 - k < (q - 1)^2).
  { assert (2 / (1 + t) < q).
    { unfold W_ in W0. assert (0 < 2 * (c - t) / ((c ^ 2 + t) * (c + 1))) by (apply Rdiv_lt_0_compat; [|apply Rmult_lt_0_compat]; lra).
      assert ((2 / (1 + t) + 2 * (c - t) / ((c ^ 2 + t) * (c + 1))) / q < 1) by lra.
      apply (Rlt_div_l _ 1 q) in H0; lra. }
    apply Rlt_div_l in H; [|lra]. assert (q * 2 < q * (q * (1 + t))) by (apply Rmult_lt_compat_l; lra). nra. }
  assert (F2 : P0 c t q * al_ c q < B^2 * (1 - al_ c q)).
  { assert (G1 : P0 c t q < B^2 - 2 * B * (E * y) + y^2) by (rewrite SP; nra).
    assert (G2 : B * E <= y) by lra. assert (G3 : E * y <= B) by lra.
    assert (G4 : E^2 * (B^2 - 2 * B * (E * y) + y^2) <= B^2 * (1 - E^2)).
    { assert (0 <= E * (y - B * E) <= B * (1 - E^2)) by nra.
      assert ((E * (y - B * E))^2 <= (B * (1 - E^2))^2) by (apply pow_incr; assumption).
      replace (E^2 * (B^2 - 2 * B * (E * y) + y^2)) with ((E * (y - B * E))^2 + E^2 * B^2 * (1 - E^2)) by ring.
      replace (B^2 * (1 - E^2)) with ((B * (1 - E^2))^2 + E^2 * B^2 * (1 - E^2)) by ring. lra. }
    assert (G5 : 0 < P0 c t q) by (rewrite SP; pose proof (pow2_ge_0 B); nra).
    assert (G6 : al_ c q <= E^2).
    { rewrite E1. destruct (coeffs c t q Hdom Hq) as (_ & Hbe & _). assert (0 < be_ c t q * y^2) by (apply Rmult_lt_0_compat; lra). lra. }
    assert (G7 : P0 c t q * al_ c q <= P0 c t q * E^2) by (apply Rmult_le_compat_l; lra).
    assert (G8 : P0 c t q * E^2 < E^2 * (B^2 - 2 * B * (E * y) + y^2)).
    { rewrite Rmult_comm. apply Rmult_lt_compat_l; [apply pow_lt; lra | exact G1]. }
    assert (G9 : B^2 * (1 - E^2) <= B^2 * (1 - al_ c q)) by (apply Rmult_le_compat_l; [apply pow2_ge_0 | lra]). lra. }
  assert (NQ : 0 < (c + 1) * q) by (apply Rmult_lt_0_compat; lra).
  assert (F3 : 2 * q * (c - t) * ((c + 1) * q - 2) < 2 * B^2 * (c + 1)).
  { apply (Rmult_lt_reg_r (/ ((c + 1)^2 * q))).
    - apply Rinv_0_lt_compat. replace ((c + 1)^2 * q) with ((c + 1) * ((c + 1) * q)) by ring. apply Rmult_lt_0_compat; lra.
    - replace (2 * q * (c - t) * ((c + 1) * q - 2) * / ((c + 1)^2 * q)) with (P0 c t q * al_ c q) by (unfold P0, al_; field; lra).
      replace (2 * B^2 * (c + 1) * / ((c + 1)^2 * q)) with (B^2 * (1 - al_ c q)) by (unfold al_; field; lra). exact F2. }
  assert (F4 : (c + 1) * (q - 1) <= (c + 1) * q - 2) by lra.
  assert (F5 : q * (1 - t) * (q - 1) < B^2).
  { assert (U : 0 <= q * (q - 1)) by (apply Rmult_le_pos; lra).
    assert (q * (q - 1) * (1 - t) <= q * (q - 1) * (c - t)) by (apply Rmult_le_compat_l; lra).
    assert (2 * q * (c - t) * ((c + 1) * (q - 1)) <= 2 * q * (c - t) * ((c + 1) * q - 2)).
    { apply Rmult_le_compat_l; [|exact F4]. apply Rmult_le_pos; lra. }
    assert (q * (q - 1) * (c - t) < B^2); [|lra].
    apply (Rmult_lt_reg_r (2 * (c + 1))); lra. }
  assert (F6 : (q - 1) * (q - 1) <= q * (1 - t) * (q - 1)).
  { apply Rmult_le_compat_r; [lra|]. assert (q * t <= 1); [|lra]. assert (q * (q * t) <= q * 1) by nra. apply (Rmult_le_reg_l q); lra. }
  replace ((q - 1)^2) with ((q - 1) * (q - 1)) in F1 by ring. nra.
Qed.

Lemma sol_beta : b = beta c t q (y^2).
Proof.
  pose proof sol_y as Hy. pose proof sol_sum as Hs. pose proof sol_P0 as SP.
  assert (EY : 0 < E * y) by (apply Rmult_lt_0_compat; lra).
  assert (N : NN c t q (y^2) = (E * y)^2) by (unfold NN; rewrite Rpow_mult_distr, E1; ring).
  assert (G : gY c t q (y^2) = (b + E * y)^2).
  { unfold gY. rewrite N, SP. transitivity (P_ c t q b + W_ c t q * y^2 + b^2 + (E * y)^2); [ring|]. rewrite E2. ring. }
  unfold beta. rewrite N, G. rewrite !sqrt_pow2 by lra. ring.
Qed.

Lemma beta_critical : beta c t q (Yc_ c t q) = bc c k q.
Proof.
  destruct (crit_eqs c k q b Hdom Hk Hq Ha) as [C1 C2]. fold t in C1, C2.
  unfold beta, bc. f_equal; [f_equal|f_equal].
  - unfold gY, NN. rewrite C2, sol_P0. lra.
  - unfold NN. rewrite C2. reflexivity.
Qed.

Lemma sol_above_critical : y^2 < Yc_ c t q -> bc c k q < b.
Proof.
  intros H. rewrite <- beta_critical. pose proof sol_beta as SB. rewrite SB. apply beta_decreases; try assumption; [|lra].
  split; [apply pow_lt, sol_y | exact H].
Qed.
End Sol.

(** at most one orbit with given turning points and spin *)
Lemma sol_unique c k q b E y E' y' : dom c (k / q^2) -> 0 <= k -> 1 < q -> b^2 + k < 1 ->
  0 < E -> 0 <= y + b * E ->
  E^2 = al_ c q + be_ c (k / q^2) q * y^2 ->
  P_ c (k / q^2) q b + W_ c (k / q^2) q * y^2 = 2 * b * (E * y) -> y^2 <= Yc_ c (k / q^2) q ->
  0 < E' -> 0 <= y' + b * E' ->
  E'^2 = al_ c q + be_ c (k / q^2) q * y'^2 ->
  P_ c (k / q^2) q b + W_ c (k / q^2) q * y'^2 = 2 * b * (E' * y') -> y'^2 <= Yc_ c (k / q^2) q ->
  E = E' /\ y = y'.
Proof.
  intros D Hk Hq Ha HE Hl X1 X2 XY HE' Hl' X1' X2' XY'.
  pose proof (sol_y c k q b E y D Hk Hq Ha HE Hl X1 X2) as Y1.
  pose proof (sol_y c k q b E' y' D Hk Hq Ha HE' Hl' X1' X2') as Y2.
  pose proof (sol_beta c k q b E y D Hk Hq Ha HE Hl X1 X2) as B1.
  pose proof (sol_beta c k q b E' y' D Hk Hq Ha HE' Hl' X1' X2') as B2.
  assert (P1 : 0 < y^2) by (apply pow_lt; lra). assert (P2 : 0 < y'^2) by (apply pow_lt; lra).
  assert (EQ : y^2 = y'^2).
  { destruct (Rtotal_order (y^2) (y'^2)) as [K|[K|K]]; [|exact K|].
    - pose proof (beta_decreases c _ q (y^2) (y'^2) D Hq ltac:(lra) XY'). lra.
    - pose proof (beta_decreases c _ q (y'^2) (y^2) D Hq ltac:(lra) XY). lra. }
  rewrite EQ in X1. rewrite <- X1' in X1.
  split; apply Rsqr_inj; try lra; unfold Rsqr; lra.
Qed.

(** ** Orbits with two inner roots below the periastron *)
Lemma inner_roots c k q b E y r3 r4 : 1 <= c -> 0 <= k < 1 -> 1 < q -> E^2 < 1 ->
  (forall r, Rp k b E y r = (E^2 - 1) * (r - c * q) * (r - q) * (r - r3) * (r - r4)) ->
  0 <= r4 <= r3 -> r3 < q ->
  dom c (k / q^2) /\
  E^2 = al_ c q + be_ c (k / q^2) q * y^2 /\
  P_ c (k / q^2) q b + W_ c (k / q^2) q * y^2 = 2 * b * (E * y) /\ y^2 < Yc_ c (k / q^2) q.
Proof.
  intros Hc Hk Hq HE F H4 H3.
  assert (E0 : 0 < 1 - E^2) by lra. assert (Q2 : 0 < q^2) by (apply pow_lt; lra).
  assert (C2 : 0 < c^2) by (apply pow_lt; lra). assert (Q21 : 1 < q^2) by nra.
  set (t := k / q^2). assert (Et : k = t * q^2) by (unfold t; field; lra).
  assert (Ht : 0 <= t < 1).
  { split; [unfold t; apply Rmult_le_pos; [lra | left; apply Rinv_0_lt_compat; lra] | unfold t; apply Rlt_div_l; lra]. }
  (* Viete *)
  pose proof (F 0) as F0. pose proof (F 1) as F1. pose proof (F (-1)) as F2. pose proof (F 2) as F3. pose proof (F (-2)) as F4.
  unfold Rp in F0, F1, F2, F3, F4.
  assert (V1 : (1 - E^2) * ((c + 1) * q + (r3 + r4)) = 2) by lra.
  assert (V3 : (1 - E^2) * (c * q^2 * (r3 + r4) + (c + 1) * q * (r3 * r4)) = 2 * k + 2 * y^2) by lra.
  assert (V2 : (1 - E^2) * (c * q^2 + (c + 1) * q * (r3 + r4) + r3 * r4) = 2 * k * (1 - E^2) + (y^2 + 2 * b * E * y + b^2)) by lra.
  assert (V4 : (1 - E^2) * (c * q^2 * (r3 * r4)) = (1 - E^2) * k^2 + (y^2 + 2 * b * E * y + b^2) * k) by lra.
  assert (V24 : c * q^2 * (r3 * r4) = k * (c * q^2 + (c + 1) * q * (r3 + r4) + r3 * r4 - k)).
  { apply (Rmult_eq_reg_l (1 - E^2)); [|lra]. rewrite V4.
    transitivity (k * ((1 - E^2) * (c * q^2 + (c + 1) * q * (r3 + r4) + r3 * r4)) - (1 - E^2) * k^2); [rewrite V2; ring | ring]. }
  clear F0 F1 F2 F3 F4 V2 V4.
  (* reality of the inner roots bounds t *)
  assert (Hd : dom c t).
  { refine (conj Hc (conj Ht _)). unfold vg.
    destruct (Req_dec t 0) as [T0|T0]; [rewrite T0; lra|]. assert (Tp : 0 < t) by lra.
    set (s3 := r3 / q). set (s4 := r4 / q). assert (Er3 : r3 = s3 * q) by (unfold s3; field; lra). assert (Er4 : r4 = s4 * q) by (unfold s4; field; lra).
    assert (S4 : 0 <= s4) by (unfold s4; apply Rmult_le_pos; [lra | left; apply Rinv_0_lt_compat; lra]).
    assert (S43 : s4 <= s3) by (unfold s3, s4; apply Rmult_le_compat_r; [left; apply Rinv_0_lt_compat; lra | lra]).
    assert (S3 : s3 < 1) by (unfold s3; apply Rlt_div_l; lra). clearbody s3 s4.
    assert (HH : (c - t) * (s3 * s4) = t * ((c - t) + (c + 1) * (s3 + s4))).
    { rewrite Er3, Er4, Et in V24. apply (Rmult_eq_reg_l ((q^2)^2)); [|apply pow_nonzero; lra].
      transitivity (c * q^2 * (s3 * q * (s4 * q)) - t * q^2 * (s3 * q * (s4 * q))); [ring|]. rewrite V24. ring. }
    assert (CT : 0 < c - t) by lra.
    assert (Z : 0 < (c - t) * s4 - t * (c + 1)).
    { assert (0 < t * (c + 1) * s4 + t * (c - t)).
      { assert (0 < t * (c - t)) by (apply Rmult_lt_0_compat; lra). assert (0 <= t * (c + 1) * s4) by (apply Rmult_le_pos; [apply Rmult_le_pos|]; lra). lra. }
      assert (s3 * ((c - t) * s4 - t * (c + 1)) = t * (c + 1) * s4 + t * (c - t)) by lra.
      apply Rnot_le_lt. intros Z. assert (0 <= s3 * - ((c - t) * s4 - t * (c + 1))) by (apply Rmult_le_pos; lra). lra. }
    assert (Z1 : 0 < (1 - s3) * ((c - t) * s4 - t * (c + 1))) by (apply Rmult_lt_0_compat; lra).
    assert (Z2 : 0 <= (1 - s4) * ((c - t) - t * (c + 1))).
    { apply Rmult_le_pos; [lra|]. assert (0 <= (c - t) * (1 - s4)) by (apply Rmult_le_pos; lra). lra. }
    lra. }
  (* the equations of P_Stability2 *)
  assert (X1 : E^2 = al_ c q + be_ c t q * y^2).
  { destruct Hc as [Hc|<-].
    - apply (Rp_E1 c k q b E y); try lra; rewrite F; ring.
    - apply (Rp_E1_circ k q b E y); try lra; [rewrite F; ring|].
      pose proof (Rp_derive k b E y q) as D. apply is_derive_unique in D. rewrite <- D.
      apply is_derive_unique. apply (is_derive_ext (fun r => (E^2 - 1) * (r - 1 * q) * (r - q) * (r - r3) * (r - r4))); [intros; symmetry; apply F|].
      auto_derive; [exact I | ring]. }
  assert (X2 : P_ c t q b + W_ c t q * y^2 = 2 * b * (E * y)).
  { apply (Rp_E2 c k q b E y); try lra; [rewrite F; ring | exact X1]. }
  refine (conj Hd (conj X1 (conj X2 _))). clearbody t.
  destruct (basics c t Hd) as (_ & Ht3 & Dd & CT & HG & _).
  unfold Yc_. apply (proj1 (Rlt_div_r (y^2) (Yt c t q) (dd c t) Dd)).
  assert (GP : 0 < (1 - E^2) * ((q - r3) * (q - r4))) by (apply Rmult_lt_0_compat; [lra|]; apply Rmult_lt_0_compat; lra).
  assert (ID : (1 - E^2) * ((q - r3) * (q - r4)) * ((c + 1) * q) * GG c t = 2 * (Yt c t q - y^2 * dd c t)).
  { assert (EE : 1 - E^2 = 2 / ((c + 1) * q) - be_ c t q * y^2) by (rewrite X1; unfold al_; ring).
    transitivity (((1 - E^2) * ((c + 1) * q * (q^2 + (c + 1) * q^2 + c * q^2)) - 2 * (c + 1) * q^2
       + ((1 - E^2) * (c * q^2 * (r3 + r4) + (c + 1) * q * (r3 * r4))) - 2 * c * q^2
       + (2 - (1 - E^2) * ((c + 1) * q + (r3 + r4))) * ((c + 1) * q^2 + c * q^2)) * GG c t); [ring|].
    rewrite V1, V3, EE, Et. unfold be_, mm_, Yt, dd, GG. field. repeat split; lra. }
  assert (0 < (1 - E^2) * ((q - r3) * (q - r4)) * ((c + 1) * q) * GG c t).
  { apply Rmult_lt_0_compat; [apply Rmult_lt_0_compat; [exact GP | apply Rmult_lt_0_compat; lra] | exact HG]. }
  lra.
Qed.

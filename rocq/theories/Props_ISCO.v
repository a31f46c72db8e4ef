(** * C80: the equatorial separatrix has the textbook values: the innermost stable circular orbit at e = 0 and the marginally bound orbit at e = 1 *)
From Coq Require Import Reals Lra Lia ZArith String List Psatz.
From Coquelicot Require Import Coquelicot.
From Verif Require Import Num Outcome External Checked ExternalSpec Model_Constants Spec Props_Separatrix.
Open Scope R_scope.

(** ** Bardeen, Press & Teukolsky (1972), equations 2.21 and 2.19 (M = 1) *)
Definition Z1 (a : R) : R := 1 + Rpower (1 - a^2) (1/3) * (Rpower (1 + a) (1/3) + Rpower (1 - a) (1/3)).
Definition Z2 (a : R) : R := sqrt (3 * a^2 + Z1 a ^2).
(** sgn = 1: direct orbits, sgn = -1: retrograde orbits *)
Definition r_isco (a sgn : R) : R := 3 + Z2 a - sgn * sqrt ((3 - Z1 a) * (3 + Z1 a + 2 * Z2 a)).
Definition r_mb (a sgn : R) : R := 2 - sgn * a + 2 * sqrt (1 - sgn * a).

Lemma cube_root y : 0 < y -> 0 < Rpower y (1/3) /\ Rpower y (1/3) ^3 = y.
Proof.
  intros H. split; [unfold Rpower; apply exp_pos|].
  rewrite <- (Rpower_pow 3) by (unfold Rpower; apply exp_pos). rewrite Rpower_mult.
  replace (1/3 * INR 3) with 1 by (simpl; field). now apply Rpower_1.
Qed.
Lemma Z1_cubic a : 0 <= a < 1 -> 1 < Z1 a <= 3 /\ Z1 a ^3 - 3 * Z1 a ^2 + 3 * a^2 * Z1 a - a^2 = 0.
Proof.
  intros Ha. destruct (cube_root (1 - a^2)) as [C0 C3]; [nra|]. destruct (cube_root (1 + a)) as [A0 A3]; [lra|]. destruct (cube_root (1 - a)) as [B0 B3]; [lra|].
  unfold Z1. set (c := Rpower (1 - a^2) (1/3)) in *. set (al := Rpower (1 + a) (1/3)) in *. set (be := Rpower (1 - a) (1/3)) in *. clearbody c al be.
  assert (P : al * be = c).
  { assert (K : (al * be)^3 = c^3) by (rewrite Rpow_mult_distr, A3, B3, C3; ring).
    assert (K0 : 0 < al * be) by (apply Rmult_lt_0_compat; assumption).
    assert (Z : (al * be - c) * ((al * be)^2 + (al * be) * c + c^2) = 0) by lra.
    apply Rmult_integral in Z as [Z|Z]; [lra|]. assert (0 < (al * be)^2) by (apply pow_lt; exact K0). assert (0 < al * be * c) by (apply Rmult_lt_0_compat; assumption). assert (0 < c^2) by (apply pow_lt; assumption). lra. }
  set (w := c * (al + be)). assert (W0 : 0 < w) by (apply Rmult_lt_0_compat; lra).
  assert (W3 : w^3 = (1 - a^2) * (2 + 3 * w)).
  { transitivity (c^3 * (al^3 + be^3 + 3 * (al * be) * (al + be))); [unfold w; ring|]. rewrite A3, B3, C3, P. unfold w. ring. }
  clearbody w. split; [|].
  - split; [lra|]. apply Rnot_lt_le. intros K.
    assert ((1 - a^2) * (2 + 3 * w) <= 2 + 3 * w) by nra. assert (0 < (w - 2) * (w + 1)^2) by (apply Rmult_lt_0_compat; [lra | apply pow_lt; lra]). lra.
  - replace ((1 + w)^3 - 3 * (1 + w)^2 + 3 * a^2 * (1 + w) - a^2) with (w^3 - (1 - a^2) * (2 + 3 * w)) by ring. lra.
Qed.
(** a^2 and Z2 in terms of the ratio s = Z2 / Z1 *)
Lemma Z_param a : 0 < a < 1 -> exists s, 1 < s < 2 /\ Z1 a = (8 + s^2) / (3 * s^2) /\ Z2 a = (8 + s^2) / (3 * s) /\ Z2 a ^2 = 3 * a^2 + Z1 a ^2.
Proof.
  intros Ha. destruct (Z1_cubic a) as [B C]; [lra|]. set (z := Z1 a) in *.
  assert (Zsq : Z2 a ^2 = 3 * a^2 + z^2) by (apply pow2_sqrt; pose proof (pow2_ge_0 a); pose proof (pow2_ge_0 z); lra).
  assert (E : a^2 * (3 * z - 1) = z^2 * (3 - z)) by lra.
  assert (Za : z <> 3). { intros K. rewrite K in E. assert (0 < a^2) by (apply pow_lt; lra). lra. }
  assert (D : 0 < 8 / (3 * z - 1)) by (apply Rdiv_lt_0_compat; lra).
  exists (sqrt (8 / (3 * z - 1))). set (s := sqrt (8 / (3 * z - 1))).
  assert (S2 : s^2 = 8 / (3 * z - 1)) by (apply pow2_sqrt; lra).
  assert (S0 : 0 < s) by (apply sqrt_lt_R0; exact D).
  assert (Zs : z = (8 + s^2) / (3 * s^2)) by (rewrite S2; field; lra).
  assert (L1 : 1 < s^2 < 4) by (rewrite S2; split; [apply Rlt_div_r; lra | apply Rlt_div_l; lra]).
  assert (Sb : 1 < s < 2) by (split; nra).
  assert (Z2s : Z2 a = z * s).
  { assert (Y : 0 <= Z2 a) by apply sqrt_pos. assert (Y2 : 0 < z * s) by (apply Rmult_lt_0_compat; lra).
    assert (K : Z2 a ^2 = (z * s)^2).
    { rewrite Zsq, Rpow_mult_distr, S2. apply (Rmult_eq_reg_r (3 * z - 1)); [|lra].
      transitivity (3 * (a^2 * (3 * z - 1)) + z^2 * (3 * z - 1)); [ring|]. rewrite E. field. lra. }
    assert (K' : (Z2 a - z * s) * (Z2 a + z * s) = 0) by lra. apply Rmult_integral in K' as [K'|K']; lra. }
  refine (conj Sb (conj Zs (conj _ Zsq))). rewrite Z2s, Zs. field. lra.
Qed.
Lemma isco_factor a p : 0 <= a < 1 ->
  S_equatorial p a 0 = (p^2 - 2 * (3 + Z2 a) * p + (Z1 a + Z2 a)^2) * (p^2 - 2 * (3 - Z2 a) * p + (Z1 a - Z2 a)^2).
Proof.
  intros Ha. destruct (Z1_cubic a Ha) as [_ C].
  assert (Zsq : Z2 a ^2 = 3 * a^2 + Z1 a^2) by (apply pow2_sqrt; pose proof (pow2_ge_0 a); pose proof (pow2_ge_0 (Z1 a)); lra).
  set (z := Z1 a) in *. set (y := Z2 a) in *. clearbody z y.
  transitivity (p^4 - 12 * p^3 + (36 - 6 * a^2) * p^2 - 28 * a^2 * p + 9 * a^4); [unfold S_equatorial; rnum; ring|].
  transitivity (p^4 - 12 * p^3 + (36 + 2 * z^2 - 2 * y^2) * p^2 + (8 * z * y^2 - 12 * z^2 - 12 * y^2) * p + (y^2 - z^2)^2); [|ring].
  rewrite Zsq. replace (8 * z * (3 * a^2 + z^2) - 12 * z^2 - 12 * (3 * a^2 + z^2)) with (8 * (z^3 - 3 * z^2 + 3 * a^2 * z - a^2) - 28 * a^2) by ring.
  rewrite C. ring.
Qed.
Lemma isco_facts a : 0 < a < 1 ->
  0 <= (3 - Z1 a) * (3 + Z1 a + 2 * Z2 a) /\ r_isco a 1 < 6 < r_isco a (-1) /\
  forall p, 0 < p -> S_equatorial p a 0 = 0 -> p = r_isco a 1 \/ p = r_isco a (-1).
Proof.
  intros Ha. destruct (Z1_cubic a) as [B C]; [lra|]. destruct (Z_param a Ha) as (s & Sb & Zs & Ys & Zsq).
  assert (Y0 : 0 <= Z2 a) by apply sqrt_pos.
  assert (D : 0 <= (3 - Z1 a) * (3 + Z1 a + 2 * Z2 a)) by (apply Rmult_le_pos; lra).
  set (b := sqrt ((3 - Z1 a) * (3 + Z1 a + 2 * Z2 a))).
  assert (B0 : 0 <= b) by apply sqrt_pos. assert (B2 : b^2 = (3 - Z1 a) * (3 + Z1 a + 2 * Z2 a)) by (apply pow2_sqrt; exact D).
  assert (R1 : r_isco a 1 = 3 + Z2 a - b) by (unfold r_isco; fold b; ring).
  assert (R2 : r_isco a (-1) = 3 + Z2 a + b) by (unfold r_isco; fold b; ring).
  split; [exact D|]. rewrite R1, R2.
  assert (K6 : 0 < (6 - (3 + Z2 a - b)) * ((3 + Z2 a + b) - 6)).
  { replace ((6 - (3 + Z2 a - b)) * ((3 + Z2 a + b) - 6)) with (b^2 - (3 - Z2 a)^2) by ring. rewrite B2.
    replace ((3 - Z1 a) * (3 + Z1 a + 2 * Z2 a) - (3 - Z2 a)^2) with (12 * Z2 a - (Z1 a + Z2 a)^2) by ring.
    rewrite Zs, Ys.
    replace (12 * ((8 + s^2) / (3 * s)) - ((8 + s^2) / (3 * s^2) + (8 + s^2) / (3 * s))^2)
      with ((8 + s^2) * (36 * s^3 - (8 + s^2) * (1 + s)^2) / (9 * s^4)) by (field; lra).
    apply Rdiv_lt_0_compat; [|assert (0 < s^4) by (apply pow_lt; lra); lra].
    apply Rmult_lt_0_compat; [nra|].
    replace (36 * s^3 - (8 + s^2) * (1 + s)^2) with ((s - 1) * (s * s * (33 - s) + 24 * s + 8)) by ring.
    apply Rmult_lt_0_compat; [lra|].
    assert (0 < s * s * (33 - s)) by (repeat apply Rmult_lt_0_compat; lra). lra. }
  split.
  - destruct (Rle_or_lt (3 + Z2 a - b) 6) as [K|K].
    + assert (0 <= 6 - (3 + Z2 a - b)) by lra. split; apply Rnot_le_lt; intros K'; [assert (6 - (3 + Z2 a - b) = 0) by lra; rewrite H0 in K6; lra|].
      assert (0 <= (6 - (3 + Z2 a - b)) * (6 - (3 + Z2 a + b))) by (apply Rmult_le_pos; lra). lra.
    + exfalso. assert (0 < ((3 + Z2 a - b) - 6) * ((3 + Z2 a + b) - 6)) by (apply Rmult_lt_0_compat; lra). lra.
  - intros p Hp S. rewrite (isco_factor a p) in S by lra. apply Rmult_integral in S as [S|S].
    + assert (K : (p - (3 + Z2 a - b)) * (p - (3 + Z2 a + b)) = 0).
      { replace ((p - (3 + Z2 a - b)) * (p - (3 + Z2 a + b))) with (p^2 - 2 * (3 + Z2 a) * p + (3 + Z2 a)^2 - b^2) by ring. rewrite B2.
        replace (p^2 - 2 * (3 + Z2 a) * p + (3 + Z2 a)^2 - (3 - Z1 a) * (3 + Z1 a + 2 * Z2 a)) with (p^2 - 2 * (3 + Z2 a) * p + (Z1 a + Z2 a)^2) by ring. exact S. }
      apply Rmult_integral in K as [K|K]; [left|right]; lra.
    + exfalso.
      assert (N : (3 - Z1 a) * (3 + Z1 a - 2 * Z2 a) < 0).
      { assert (3 + Z1 a - 2 * Z2 a < 0).
        { rewrite Zs, Ys. replace (3 + (8 + s^2) / (3 * s^2) - 2 * ((8 + s^2) / (3 * s))) with (- (2 * (s - 1) * (s - 2)^2 / (3 * s^2))) by (field; lra).
          assert (0 < (s - 2)^2) by nra. assert (0 < 2 * (s - 1) * (s - 2)^2 / (3 * s^2)); [|lra].
          apply Rdiv_lt_0_compat; [apply Rmult_lt_0_compat; lra | assert (0 < s^2) by (apply pow_lt; lra); lra]. }
        assert (0 < 3 - Z1 a).
        { rewrite Zs. replace (3 - (8 + s^2) / (3 * s^2)) with (8 * (s - 1) * (s + 1) / (3 * s^2)) by (field; lra).
          apply Rdiv_lt_0_compat; [repeat apply Rmult_lt_0_compat; lra | assert (0 < s^2) by (apply pow_lt; lra); lra]. }
        assert (0 < (3 - Z1 a) * - (3 + Z1 a - 2 * Z2 a)) by (apply Rmult_lt_0_compat; lra). lra. }
      assert (S' : (p - (3 - Z2 a))^2 = (3 - Z1 a) * (3 + Z1 a - 2 * Z2 a)).
      { replace ((p - (3 - Z2 a))^2) with ((p^2 - 2 * (3 - Z2 a) * p + (Z1 a - Z2 a)^2) + (3 - Z2 a)^2 - (Z1 a - Z2 a)^2) by ring. rewrite S. ring. }
      pose proof (pow2_ge_0 (p - (3 - Z2 a))). lra.
Qed.
Lemma isco_schwarzschild sgn : r_isco 0 sgn = 6.
Proof.
  destruct (Z1_cubic 0) as [B C]; [lra|].
  assert (Z : Z1 0 = 3). { assert (K : Z1 0 ^2 * (Z1 0 - 3) = 0) by lra. apply Rmult_integral in K as [K|K]; [|lra]. assert (0 < Z1 0 ^2) by (apply pow_lt; lra). lra. }
  assert (Y : Z2 0 = 3). { unfold Z2. rewrite Z. replace (3 * 0^2 + 3^2) with (3^2) by ring. apply sqrt_pow2. lra. }
  unfold r_isco. rewrite Z, Y. replace ((3 - 3) * (3 + 3 + 2 * 3)) with 0 by ring. rewrite sqrt_0. ring.
Qed.

Section S.
Context {X : External R} (HR : root_spec X).
(** the innermost stable circular orbit *)
Theorem C80_isco a : 0 <= a < 1 ->
  separatrix (Some a) (Some 0) (Some 1) = Ret (Some (r_isco a 1)) /\
  separatrix (Some a) (Some 0) (Some (-1)) = Ret (Some (r_isco a (-1))) /\
  forall p, is_stable (Some a) (Some p) (Some 0) (Some 1) = Ret (if Rlt_dec (r_isco a 1) p then true else false) /\
            is_stable (Some a) (Some p) (Some 0) (Some (-1)) = Ret (if Rlt_dec (r_isco a (-1)) p then true else false).
Proof.
  intros Ha.
  destruct (C19_separatrix_total HR a 0 1) as (p & H & B & _ & P0 & _ & P1 & _); try lra. destruct (P1 eq_refl) as [S1 B1].
  destruct (C19_separatrix_total HR a 0 (-1)) as (p' & H' & B' & _ & P0' & _ & _ & P1'); try lra. destruct (P1' eq_refl) as [S1' B1'].
  assert (p = r_isco a 1 /\ p' = r_isco a (-1)) as [-> ->].
  { destruct (Req_dec a 0) as [Z|Z].
    - rewrite P0, P0' by exact Z. rewrite Z, !isco_schwarzschild. split; ring.
    - destruct (isco_facts a) as (_ & O & U); [lra|]. destruct (U p) as [K|K]; [lra|exact S1| |]; destruct (U p') as [K'|K']; try lra; exact S1'. }
  refine (conj H (conj H' _)). intros q. split.
  - destruct (C22_is_stable_above_separatrix HR a 0 1) as (s & H1 & K); try lra. rewrite H in H1. assert (s = r_isco a 1) as -> by congruence. apply K.
  - destruct (C22_is_stable_above_separatrix HR a 0 (-1)) as (s & H1 & K); try lra. rewrite H' in H1. assert (s = r_isco a (-1)) as -> by congruence. apply K.
Qed.
(** the marginally bound orbit: e = 1, periapsis p / 2 *)
Theorem C80_marginally_bound a : 0 <= a < 1 ->
  separatrix (Some a) (Some 1) (Some 1) = Ret (Some (2 * r_mb a 1)) /\
  separatrix (Some a) (Some 1) (Some (-1)) = Ret (Some (2 * r_mb a (-1))).
Proof.
  intros Ha.
  assert (FAC : forall y, S_equatorial (2 * y^2) a 1 = 16 * ((y^2 - (2 * y - a)) * (y^2 + (2 * y - a)) * ((y^2 - (2 * y + a)) * (y^2 + (2 * y + a))))).
  { intros y. unfold S_equatorial. rnum. ring. }
  split.
  - destruct (C19_separatrix_total HR a 1 1) as (p & H & B & _ & _ & _ & P1 & _); try lra. destruct (P1 eq_refl) as [S1 B1]. rewrite H. do 2 f_equal.
    set (y := sqrt (p / 2)). assert (Y0 : 0 <= y) by apply sqrt_pos. assert (Y2 : y^2 = p / 2) by (apply pow2_sqrt; lra).
    assert (Ep : p = 2 * y^2) by lra. rewrite Ep in S1. rewrite FAC in S1.
    assert (Y1 : 1 < y <= 2) by (split; nra).
    set (w := sqrt (1 - 1 * a)). assert (W0 : 0 <= w) by apply sqrt_pos. assert (W2 : w^2 = 1 - a) by (unfold w; rewrite pow2_sqrt; lra).
    unfold r_mb. fold w. rewrite Ep.
    assert (K1 : 0 < y^2 + (2 * y - a)) by nra. assert (K2 : y^2 - (2 * y + a) <> 0 \/ a = 0) by (destruct (Req_dec a 0); [now right | left; nra]). assert (K3 : 0 < y^2 + (2 * y + a)) by nra.
    assert (Q : y^2 - (2 * y - a) = 0).
    { apply Rmult_integral in S1 as [S1|S1]; [lra|]. apply Rmult_integral in S1 as [S1|S1]; apply Rmult_integral in S1 as [S1|S1]; try lra. }
    assert (T : (y - 1 - w) * (y - 1 + w) = 0) by (replace ((y - 1 - w) * (y - 1 + w)) with ((y - 1)^2 - w^2) by ring; lra).
    apply Rmult_integral in T as [T|T]; [|lra]. replace y with (1 + w) by lra. lra.
  - destruct (C19_separatrix_total HR a 1 (-1)) as (p & H & B & _ & _ & _ & _ & P1); try lra. destruct (P1 eq_refl) as [S1 B1]. rewrite H. do 2 f_equal.
    set (y := sqrt (p / 2)). assert (Y0 : 0 <= y) by apply sqrt_pos. assert (Y2 : y^2 = p / 2) by (apply pow2_sqrt; lra).
    assert (Ep : p = 2 * y^2) by lra. rewrite Ep in S1. rewrite FAC in S1.
    assert (Y1 : 2 <= y) by nra.
    set (w := sqrt (1 - -1 * a)). assert (W0 : 0 <= w) by apply sqrt_pos. assert (W2 : w^2 = 1 + a) by (unfold w; rewrite pow2_sqrt; lra).
    unfold r_mb. fold w. rewrite Ep.
    assert (K1 : 0 < y^2 + (2 * y - a)) by nra. assert (K2 : y^2 - (2 * y - a) <> 0 \/ a = 0) by (destruct (Req_dec a 0); [now right | left; nra]). assert (K3 : 0 < y^2 + (2 * y + a)) by nra.
    assert (Q : y^2 - (2 * y + a) = 0).
    { apply Rmult_integral in S1 as [S1|S1]; [lra|]. apply Rmult_integral in S1 as [S1|S1]; apply Rmult_integral in S1 as [S1|S1]; try lra. }
    assert (T : (y - 1 - w) * (y - 1 + w) = 0) by (replace ((y - 1 - w) * (y - 1 + w)) with ((y - 1)^2 - w^2) by ring; lra).
    assert (W1 : 1 <= w) by nra.
    apply Rmult_integral in T as [T|T]; [|lra]. replace y with (1 + w) by lra. lra.
Qed.
(** every equatorial separatrix: with z the square root of the periapsis radius s / (1 + e) *)
Theorem C80_equatorial a e x s : 0 <= a < 1 -> 0 <= e <= 1 -> x = 1 \/ x = -1 ->
  separatrix (Some a) (Some e) (Some x) = Ret (Some s) ->
  let z := sqrt (s / (1 + e)) in 0 < z /\ (1 + e) * z^4 - (6 + 2 * e) * z^2 + 8 * a * x * z - (3 - e) * a^2 = 0.
Proof.
  intros Ha He Hx Hs z.
  destruct (C19_separatrix_total HR a e x) as (p & H & B & _ & _ & _ & Pp & Pm); try lra. rewrite H in Hs. assert (p = s) by congruence. subst p. clear Hs H.
  assert (Dp : 0 < s / (1 + e)) by (apply Rdiv_lt_0_compat; lra).
  assert (Z0 : 0 < z) by (apply sqrt_lt_R0; exact Dp). assert (Z2 : z^2 = s / (1 + e)) by (apply pow2_sqrt; lra).
  assert (Es : s = (1 + e) * z^2) by (rewrite Z2; field; lra). clearbody z. split; [exact Z0|].
  assert (FAC : S_equatorial s a e = (1 + e)^2 * (((1 + e) * z^4 - (6 + 2 * e) * z^2 - (3 - e) * a^2)^2 - (8 * a * z)^2)).
  { rewrite Es. unfold S_equatorial. rnum. ring. }
  assert (S0 : S_equatorial s a e = 0) by (destruct Hx as [->| ->]; [apply Pp | apply Pm]; reflexivity).
  rewrite FAC in S0. apply Rmult_integral in S0 as [S0|S0]; [assert (0 < (1 + e)^2) by (apply pow_lt; lra); lra|].
  set (G := (1 + e) * z^4 - (6 + 2 * e) * z^2 - (3 - e) * a^2) in *.
  assert (K : (G - 8 * a * z) * (G + 8 * a * z) = 0) by lra.
  assert (EG : G = z^2 * (s - (6 + 2 * e)) - (3 - e) * a^2) by (unfold G; rewrite Es; ring).
  destruct Hx as [->| ->].
  - destruct (Pp eq_refl) as [_ Bs]. assert (N : G <= 0).
    { rewrite EG. assert (0 <= z^2 * ((6 + 2 * e) - s)) by (apply Rmult_le_pos; [apply pow2_ge_0|lra]). assert (0 <= (3 - e) * a^2) by (apply Rmult_le_pos; [lra|apply pow2_ge_0]). lra. }
    assert (0 <= a * z) by (apply Rmult_le_pos; lra). unfold G in *.
    apply Rmult_integral in K as [K|K]; lra.
  - destruct (Pm eq_refl) as [_ Bs].
    assert (N : - (3 - e) * a^2 <= G). { rewrite EG. assert (0 <= z^2 * (s - (6 + 2 * e))) by (apply Rmult_le_pos; [apply pow2_ge_0|lra]). lra. }
    assert (Zb : 1 < z). { assert (1 < z^2) by (rewrite Z2; apply Rlt_div_r; lra). nra. }
    destruct (Req_dec a 0) as [A0|A0]; [unfold G in *; rewrite A0 in *; apply Rmult_integral in K as [K|K]; lra|].
    assert (0 < a * z) by (apply Rmult_lt_0_compat; lra). assert ((3 - e) * a^2 <= 3 * (a * z)).
    { assert (A : 0 <= a * (1 - a)) by (apply Rmult_le_pos; lra). assert (A2 : 0 <= e * a^2) by (apply Rmult_le_pos; [lra|apply pow2_ge_0]). assert (A3 : 0 <= a * (z - 1)) by (apply Rmult_le_pos; lra). lra. }
    unfold G in *. apply Rmult_integral in K as [K|K]; lra.
Qed.
(** a concrete case: spin 0 gives 6 and 4, spin 3/4 gives a marginally bound orbit at r = 9/4 *)
Theorem C80_case :
  r_isco 0 1 = 6 /\ r_mb 0 1 = 4 /\ r_mb (3/4) 1 = 9/4 /\
  separatrix (Some (3/4)) (Some 1) (Some 1) = Ret (Some (9/2)) /\
  exists s, separatrix (Some (3/4)) (Some 0) (Some 1) = Ret (Some s) /\ s = r_isco (3/4) 1 /\ s < 6.
Proof.
  assert (M : r_mb (3/4) 1 = 9/4). { unfold r_mb. replace (1 - 1 * (3/4)) with ((1/2)^2) by field. rewrite sqrt_pow2 by lra. field. }
  refine (conj (isco_schwarzschild 1) (conj _ (conj M (conj _ _)))).
  - unfold r_mb. replace (1 - 1 * 0) with 1 by ring. rewrite sqrt_1. ring.
  - destruct (C80_marginally_bound (3/4)) as [H _]; [lra|]. rewrite H, M. do 2 f_equal. field.
  - destruct (C80_isco (3/4)) as [H _]; [lra|]. destruct (isco_facts (3/4)) as (_ & O & _); [lra|]. exists (r_isco (3/4) 1). repeat split; try assumption. lra.
Qed.
End S.

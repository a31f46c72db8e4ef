(** * C113: Lense-Thirring and Einstein precession of circular equatorial orbits around a rotating hole *)
From Coq Require Import Reals Lra Lia ZArith String List.
From Coquelicot Require Import Coquelicot.
From Verif Require Import Num Outcome External Checked ExternalSpec Spec SpecElliptic Elliptic.
From Verif Require Import Model_Constants Model_Frequencies Model_Stable P_Validation Props_Validation P_Bounds P_Constants Props_Constants Props_Separatrix.
From Verif Require Import Props_Stability Props_Finite Props_Frequencies Props_Symmetry Props_Circular.
Open Scope R_scope.

Section S.
Context {X : External R} (HX : special_spec X) (HR : root_spec X).
Lemma sqrt_second d s : 0 < s -> s^2 = 1 - d -> 0 <= (1 - s) - d / 2 <= d^2 / 2.
Proof.
  intros S H. replace d with (1 - s^2) by lra. replace (1 - s - (1 - s^2) / 2) with ((1 - s)^2 / 2) by field. pose proof (pow2_ge_0 (1 - s)). split; [lra|].
  replace ((1 - s^2)^2) with ((1 - s)^2 * (1 + s)^2) by ring. assert (1 <= (1 + s)^2) by nra. nra.
Qed.
Lemma ratio_sq w u k v : 0 < w -> 0 < v -> (u = 1 / v \/ u = - (1 / v)) -> w^2 = k / v^2 -> 0 < w / Rabs u /\ (w / Rabs u)^2 = k.
Proof.
  intros W V U H. assert (I : 0 < 1 / v) by (apply Rdiv_lt_0_compat; lra).
  assert (A : Rabs u = 1 / v). { destruct U as [-> | ->]; [|rewrite Rabs_Ropp]; apply Rabs_pos_eq; lra. }
  rewrite A. split; [apply Rdiv_lt_0_compat; assumption|]. replace ((w / (1 / v))^2) with (w^2 * v^2) by (field; lra). rewrite H. field. lra.
Qed.

(** angles per revolution: 2 pi (1 - wth / |wph|) is how far the nodes, 2 pi (1 - wr / |wph|) how far the periapsis moves *)
Theorem C113_precessions a p x ur uth uph gam : x = 1 \/ x = -1 ->
  mino_frequencies (Some a) (Some p) (Some 0) (Some x) = Ret (Some ur, Some uth, Some uph, Some gam) ->
  exists wr wth wph, fundamental_frequencies (Some a) (Some p) (Some 0) (Some x) = Ret (Some wr, Some wth, Some wph) /\
    Rabs (2 * PI * (1 - wth / Rabs wph) - 4 * PI * (x * a) / (p * sqrt p)) <= 54 * PI * a^2 / p^2 /\
    Rabs (2 * PI * (1 - wr / Rabs wph) - (6 * PI / p - 8 * PI * (x * a) / (p * sqrt p))) <= 292 * PI / p^2.
Proof.
  intros Hx HF. destruct (C69_circular_equatorial HX HR a p x ur uth uph gam Hx HF) as (P0 & N0 & HC & wr & wth & FF & Wr & Wr2 & Wt & Wt2).
  set (q := p * sqrt p) in *. exists wr, wth, (x * spin_sign a / (q + x * a)). split; [exact FF|].
  rewrite constants_std in HC. destruct (constants_inv _ _ _ _ _ _ _ (Rabs_pos a) HC) as [HCK _].
  destruct (accepted_bounds HR _ _ _ _ (Rabs_pos a) HCK) as (Ha & _ & _ & Hr2 & _).
  assert (P1 : 1 < p). { pose proof (sqrt_pos (1 - Rabs a ^2)). replace (p / (1 + 0)) with p in Hr2 by field. lra. }
  assert (S1 : 1 < sqrt p) by (rewrite <- sqrt_1; apply sqrt_lt_1_alt; lra).
  assert (Q1 : p < q) by (unfold q; nra). assert (Q2 : q^2 = p^3) by (unfold q; rewrite Rpow_mult_distr, pow2_sqrt by lra; ring).
  assert (A2 : (x * a)^2 = a^2) by (destruct Hx as [-> | ->]; ring).
  assert (A1 : a^2 < 1). { rewrite <- pow2_abs. pose proof (Rabs_pos a). nra. }
  set (b := x * a) in *. assert (B1 : -1 < b < 1) by (split; nra). assert (V : 0 < q + b) by lra.
  assert (U : x * spin_sign a / (q + b) = 1 / (q + b) \/ x * spin_sign a / (q + b) = - (1 / (q + b))).
  { unfold spin_sign. destruct (Rlt_dec a 0), Hx as [-> | ->]; [right | left | left | right]; field; lra. }
  assert (Wt' : wth^2 = (1 - 4 * b / q + 3 * a^2 / p^2) / (q + b)^2) by (rewrite Wt2; unfold b; rewrite <- (Rmult_assoc 4); reflexivity).
  assert (Wr' : wr^2 = (1 - 6 / p + 8 * b / q - 3 * a^2 / p^2) / (q + b)^2) by (rewrite Wr2; unfold b; rewrite <- (Rmult_assoc 8); reflexivity).
  destruct (ratio_sq _ _ _ _ Wt V U Wt') as (T0 & T2). destruct (ratio_sq _ _ _ _ Wr V U Wr') as (R0 & R2).
  set (u := x * spin_sign a / (q + b)) in *. set (st := wth / Rabs u) in *. set (sr := wr / Rabs u) in *.
  destruct (sqrt_second (4 * b / q - 3 * a^2 / p^2) st T0 ltac:(lra)) as (T3 & T4).
  destruct (sqrt_second (6 / p - 8 * b / q + 3 * a^2 / p^2) sr R0 ltac:(lra)) as (R3 & R4).
  clearbody st sr b. clear - T3 T4 R3 R4 P1 Q1 Q2 A1 A2 B1. pose proof PI_RGT_0 as PI0.
  set (i := / p) in *. set (j := / q) in *.
  assert (I : 0 < i < 1). { unfold i. split; [apply Rinv_0_lt_compat; lra | rewrite <- Rinv_1; apply Rinv_lt_contravar; lra]. }
  assert (J : 0 < j < i). { unfold j, i. split; [apply Rinv_0_lt_compat; lra | apply Rinv_lt_contravar; nra]. }
  replace (4 * b / q - 3 * a^2 / p^2) with (4 * (b * j) - 3 * (a^2 * i^2)) in * by (unfold i, j; field; split; lra).
  replace (6 / p - 8 * b / q + 3 * a^2 / p^2) with (6 * i - 8 * (b * j) + 3 * (a^2 * i^2)) in * by (unfold i, j; field; split; lra).
  replace (4 * PI * b / q) with (4 * PI * (b * j)) by (unfold j; field; lra).
  replace (6 * PI / p - 8 * PI * b / q) with (PI * (6 * i - 8 * (b * j))) by (unfold i, j; field; split; lra).
  replace (54 * PI * a^2 / p^2) with (54 * PI * (a^2 * i^2)) by (unfold i; field; lra).
  replace (292 * PI / p^2) with (292 * PI * i^2) by (unfold i; field; lra).
  assert (bj : (b * j)^2 <= a^2 * i^2). { rewrite Rpow_mult_distr, A2. apply Rmult_le_compat_l; [apply pow2_ge_0 | apply pow_incr; lra]. }
  clearbody i j. set (c := b * j) in *. assert (I2 : 0 < i^2 < 1) by (split; nra).
  assert (M : 0 <= a^2 * i^2 <= i^2) by (pose proof (pow2_ge_0 a); nra).
  assert (M2 : (a^2 * i^2)^2 <= a^2 * i^2) by (assert (a^2 * i^2 <= 1) by lra; nra).
  set (m := a^2 * i^2) in *. clearbody c m. split; apply Rabs_le.
  - assert (D : (4 * c - 3 * m)^2 <= 50 * m). { pose proof (pow2_ge_0 (4 * c + 3 * m)). replace ((4 * c - 3 * m)^2) with (32 * c^2 + 18 * m^2 - (4 * c + 3 * m)^2) by ring. lra. }
    assert (G : - 27 * m <= 1 - st - 2 * c <= 27 * m) by lra.
    split; [apply Rle_trans with (2 * PI * (- 27 * m)) | apply Rle_trans with (2 * PI * (27 * m))]; try lra.
    + apply Rle_trans with (2 * PI * (1 - st - 2 * c)); [apply Rmult_le_compat_l; lra | lra].
    + apply Rle_trans with (2 * PI * (1 - st - 2 * c)); [lra | apply Rmult_le_compat_l; lra].
  - assert (CC : - i <= c <= i) by (split; nra). assert (MI : m <= i) by nra.
    assert (D : (6 * i - 8 * c + 3 * m)^2 <= 289 * i^2) by nra.
    assert (G : - 146 * i^2 <= 1 - sr - (3 * i - 4 * c) <= 146 * i^2) by lra.
    split.
    + apply Rle_trans with (2 * PI * (- 146 * i^2)); [lra|]. apply Rle_trans with (2 * PI * (1 - sr - (3 * i - 4 * c))); [apply Rmult_le_compat_l; lra | lra].
    + apply Rle_trans with (2 * PI * (146 * i^2)); [|lra]. apply Rle_trans with (2 * PI * (1 - sr - (3 * i - 4 * c))); [lra | apply Rmult_le_compat_l; lra].
Qed.
(** a prograde orbit of radius 16 around a hole of spin 1/2: its nodes and its periapsis move by these amounts per turn *)
Example C113_case : exists ur uth uph gam,
  mino_frequencies (Some (1/2)) (Some 16) (Some 0) (Some 1) = Ret (Some ur, Some uth, Some uph, Some gam) /\
  exists wr wth wph, fundamental_frequencies (Some (1/2)) (Some 16) (Some 0) (Some 1) = Ret (Some wr, Some wth, Some wph) /\
    Rabs (2 * PI * (1 - wth / Rabs wph) - PI / 32) <= 27 * PI / 512.
Proof.
  assert (S4 : sqrt 16 = 4). { replace 16 with (4^2) by ring. apply sqrt_pow2. lra. }
  destruct (C54_example X HR) as (K1 & K2 & K3). rewrite check_constants_some in K1.
  destruct (C54_every_accepted_orbit HX HR (1/2) 16 0 1 ltac:(lra) ltac:(lra) ltac:(lra) K1 K2) as (E1 & L1 & Q1 & HC & _ & _ & FR).
  destruct FR as (ur & uth & uph & gam & HF & _).
  { pose proof (constants_example X HR) as HC'. rewrite HC in HC'. apply Ret_inj in HC'.
    assert (E1 = 113 / (16 * sqrt 53)) as -> by congruence. assert (L1 = 1009 / (32 * sqrt 53)) as -> by congruence. exact K3. }
  exists ur, uth, uph, gam. split; [exact HF|].
  destruct (C113_precessions _ _ _ _ _ _ _ (or_introl eq_refl) HF) as (wr & wth & wph & FF & D & _).
  exists wr, wth, wph. split; [exact FF|]. rewrite S4 in D.
  replace (PI / 32) with (4 * PI * (1 * (1 / 2)) / (16 * 4)) by field. replace (27 * PI / 512) with (54 * PI * (1 / 2)^2 / 16^2) by field. exact D.
Qed.
End S.

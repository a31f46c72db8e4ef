(** * C106: the separatrix decreases from retrograde to prograde inclinations *)
From Coq Require Import Reals Lra Lia ZArith String List.
From Coquelicot Require Import Coquelicot.
From Verif Require Import Num Outcome External Checked ExternalSpec Spec Model_Constants.
From Verif Require Import P_Validation SepPoly Props_Separatrix P_Bounds P_Constants P_Stability P_Stability3 P_Stability5 P_Continuity Props_Continuity.
From Verif Require Import Props_Stability Props_SepContinuity P_SepIncl.
Open Scope R_scope.

Section S.
Context {X : External R} (HR : root_spec X).

Lemma step a e x x' s s' : 0 < a < 1 -> 0 <= e < 1 -> -1 <= x -> x < x' -> x' <= 1 -> x' <= 0 \/ 0 <= x ->
  separatrix (Some a) (Some e) (Some x) = Ret (Some s) -> separatrix (Some a) (Some e) (Some x') = Ret (Some s') -> s' < s.
Proof.
  intros Ha He Hx Hxx Hx' C H H'.
  destruct (sep_facts HR a e x s ltac:(lra) He ltac:(lra) H) as (Q1 & D1 & B1).
  destruct (sep_facts HR a e x' s' ltac:(lra) He ltac:(lra) H') as (Q2 & D2 & B2).
  set (q := s / (1 + e)) in *. set (q' := s' / (1 + e)) in *.
  set (k := a^2 * (1 - x^2)) in *. set (k' := a^2 * (1 - x'^2)) in *.
  assert (A2 : 0 < a^2) by (apply pow_lt; lra).
  assert (K0 : 0 <= k) by (unfold k; apply Rmult_le_pos; [lra | nra]).
  assert (K0' : 0 <= k') by (unfold k'; apply Rmult_le_pos; [lra | nra]).
  assert (AX : a * x < a * x') by (apply Rmult_lt_compat_l; lra).
  apply Rnot_le_lt. intros N.
  assert (QQ : q <= q').
  { unfold q, q'. apply Rmult_le_compat_r; [|exact N]. apply Rlt_le, Rinv_0_lt_compat; lra. }
  assert (P1 : 0 < q^2) by (apply pow_lt; lra). assert (P2 : 0 < q'^2) by (apply pow_lt; lra).
  assert (DV : forall y z w : R, 0 < w -> y <= z -> y / w <= z / w).
  { intros y z w W YZ. apply Rmult_le_compat_r; [apply Rlt_le, Rinv_0_lt_compat; lra | lra]. }
  assert (DP : forall y w : R, 0 < w -> 0 <= y -> 0 <= y / w).
  { intros y w W Y. apply Rmult_le_pos; [lra | apply Rlt_le, Rinv_0_lt_compat; lra]. }
  destruct C as [C|C].
  - (* both retrograde or polar: k < k' *)
    assert (KK : k < k') by (unfold k, k'; apply Rmult_lt_compat_l; [lra|]; nra).
    assert (M1 : bc (cc e) k q' <= a * x).
    { rewrite <- B1. destruct QQ as [QQ|QQ]; [apply Rlt_le, bc_decreases; [exact K0 | lra | exact D1] | rewrite QQ; lra]. }
    pose proof (bc_decreases_k (cc e) k k' q' Q2 (conj K0 KK) D2). lra.
  - (* both prograde or polar: k' < k *)
    assert (KK : k' < k) by (unfold k, k'; apply Rmult_lt_compat_l; [lra|]; nra).
    assert (D3 : dom (cc e) (k' / q^2)) by (apply (dom_down (cc e) (k / q^2)); [exact D1 | split; [apply DP | apply DV]; lra]).
    assert (M1 : a * x' <= bc (cc e) k' q).
    { rewrite <- B2. destruct QQ as [QQ|QQ]; [apply Rlt_le, bc_decreases; [exact K0' | lra | exact D3] | rewrite QQ; lra]. }
    assert (X0 : 0 <= a * x) by (apply Rmult_le_pos; lra).
    pose proof (spin_increases_k (cc e) k' k q Q1 (conj K0' KK) D1 ltac:(lra)) as G. rewrite B1 in G.
    assert (bc (cc e) k' q ^2 >= (a * x')^2) by nra.
    assert ((a * x)^2 + k = a^2) by (unfold k; ring). assert ((a * x')^2 + k' = a^2) by (unfold k'; ring). lra.
Qed.

(** ** C106 *)
Theorem C106_separatrix_decreases_with_inclination a e x x' s s' : 0 < a < 1 -> 0 <= e < 1 -> -1 <= x -> x < x' -> x' <= 1 ->
  separatrix (Some a) (Some e) (Some x) = Ret (Some s) -> separatrix (Some a) (Some e) (Some x') = Ret (Some s') -> s' < s.
Proof.
  intros Ha He Hx Hxx Hx' H H'.
  destruct (Rle_dec x' 0) as [C|C]; [apply (step a e x x'); auto|].
  destruct (Rle_dec 0 x) as [C'|C']; [apply (step a e x x'); auto|].
  destruct (C19_separatrix_total HR a e 0 ltac:(lra) ltac:(lra) ltac:(lra)) as (s0 & H0 & _).
  pose proof (step a e x 0 s s0 Ha He ltac:(lra) ltac:(lra) ltac:(lra) ltac:(lra) H H0).
  pose proof (step a e 0 x' s0 s' Ha He ltac:(lra) ltac:(lra) ltac:(lra) ltac:(lra) H0 H'). lra.
Qed.

(** an orbit that exists at some inclination exists at every more prograde one *)
Theorem C106_stability_grows_with_inclination a p e x x' : 0 <= a < 1 -> 0 <= e < 1 -> -1 <= x -> x <= x' -> x' <= 1 ->
  is_stable (Some a) (Some p) (Some e) (Some x) = Ret true -> is_stable (Some a) (Some p) (Some e) (Some x') = Ret true.
Proof.
  intros Ha He Hx Hxx Hx' H.
  destruct Hxx as [Hxx | <-]; [|exact H].
  destruct (C22_is_stable_above_separatrix HR a e x Ha ltac:(lra) ltac:(lra)) as (s & Hs & K).
  destruct (C22_is_stable_above_separatrix HR a e x' Ha ltac:(lra) ltac:(lra)) as (s' & Hs' & K').
  rewrite K in H. rewrite K'. destruct (Rlt_dec s p) as [L|L]; [|discriminate].
  assert (LE : s' <= s).
  { destruct (Req_dec a 0) as [-> |NA].
    - rewrite (proj1 (C18_schwarzschild_separatrix e x p ltac:(lra) ltac:(lra))) in Hs. rewrite (proj1 (C18_schwarzschild_separatrix e x' p ltac:(lra) ltac:(lra))) in Hs'. injection Hs as <-. injection Hs' as <-. lra.
    - apply Rlt_le, (C106_separatrix_decreases_with_inclination a e x x'); try assumption; lra. }
  destruct (Rlt_dec s' p) as [L'|L']; [reflexivity | lra].
Qed.

(** the equatorial separatrices bound all others *)
Theorem C106_equatorial_bounds a e x sp s sr : 0 < a < 1 -> 0 <= e < 1 -> -1 < x < 1 ->
  separatrix (Some a) (Some e) (Some 1) = Ret (Some sp) -> separatrix (Some a) (Some e) (Some x) = Ret (Some s) ->
  separatrix (Some a) (Some e) (Some (-1)) = Ret (Some sr) -> sp < s < sr.
Proof.
  intros Ha He Hx H1 H2 H3. split.
  - apply (C106_separatrix_decreases_with_inclination a e x 1); try assumption; lra.
  - apply (C106_separatrix_decreases_with_inclination a e (-1) x); try assumption; lra.
Qed.

(** concrete case: a = 1/2, circular orbits, retrograde, polar and prograde *)
Example C106_case : exists s0 s1 s2,
  separatrix (Some (1/2)) (Some 0) (Some (-1)) = Ret (Some s0) /\ separatrix (Some (1/2)) (Some 0) (Some 0) = Ret (Some s1) /\
  separatrix (Some (1/2)) (Some 0) (Some 1) = Ret (Some s2) /\ s2 < s1 < s0.
Proof.
  destruct (C19_separatrix_total HR (1/2) 0 (-1) ltac:(lra) ltac:(lra) ltac:(lra)) as (s0 & H0 & _).
  destruct (C19_separatrix_total HR (1/2) 0 0 ltac:(lra) ltac:(lra) ltac:(lra)) as (s1 & H1 & _).
  destruct (C19_separatrix_total HR (1/2) 0 1 ltac:(lra) ltac:(lra) ltac:(lra)) as (s2 & H2 & _).
  exists s0, s1, s2. refine (conj H0 (conj H1 (conj H2 _))). apply (C106_equatorial_bounds (1/2) 0 0); try assumption; lra.
Qed.
End S.

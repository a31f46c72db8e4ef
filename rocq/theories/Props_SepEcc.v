(** * C107: the separatrix moves outwards as the eccentricity grows *)
From Coq Require Import Reals Lra Lia ZArith String List.
From Coquelicot Require Import Coquelicot.
From Verif Require Import Num Outcome External Checked ExternalSpec Spec Model_Constants.
From Verif Require Import P_Validation SepPoly Props_Separatrix P_Bounds P_Constants P_Stability P_Stability3 P_Stability5 P_Continuity Props_Continuity.
From Verif Require Import Props_Stability Props_SepContinuity P_SepIncl P_SepEcc.
Open Scope R_scope.

Section S.
Context {X : External R} (HR : root_spec X).

(** the separatrix as a real function of c = (1+e)/(1-e) *)
Definition ecc (c : R) : R := (c - 1) / (c + 1).
Definition sepc (a x c : R) : R := match separatrix (Some a) (Some (ecc c)) (Some x) with Ret (Some s) => s | _ => 0 end.
Lemma ecc_range c : 1 <= c -> 0 <= ecc c < 1.
Proof.
  intros C. unfold ecc. split; [apply Rmult_le_pos; [lra | apply Rlt_le, Rinv_0_lt_compat; lra]|].
  replace ((c - 1) / (c + 1)) with (1 - 2 / (c + 1)) by (field; lra). assert (0 < 2 / (c + 1)) by (apply Rdiv_lt_0_compat; lra). lra.
Qed.
Lemma cc_ecc c : 1 <= c -> cc (ecc c) = c.
Proof. intros C. unfold cc, ecc. field. split; [lra|]. replace (c + 1 - (c - 1)) with 2 by ring. lra. Qed.
Lemma ecc_cc e : 0 <= e < 1 -> ecc (cc e) = e /\ 1 <= cc e.
Proof.
  intros E. split; [unfold cc, ecc; field; split; [lra|]; replace (1 + e + (1 - e)) with 2 by ring; lra|].
  unfold cc. replace ((1 + e) / (1 - e)) with (1 + 2 * e / (1 - e)) by (field; lra). assert (0 <= 2 * e / (1 - e)) by (apply Rmult_le_pos; [lra | apply Rlt_le, Rinv_0_lt_compat; lra]). lra.
Qed.
Lemma one_ecc c : 1 <= c -> 1 + ecc c = 2 * c / (c + 1).
Proof. intros C. unfold ecc. field. lra. Qed.

Lemma sepc_facts a x c : 0 <= a < 1 -> -1 <= x <= 1 -> 1 <= c ->
  exists q, sepc a x c = 2 * c * q / (c + 1) /\ 1 < q /\ q = qf (sepc a x c) c /\
    dom c (a^2 * (1 - x^2) / q^2) /\ bc c (a^2 * (1 - x^2)) q = a * x.
Proof.
  intros Ha Hx C. pose proof (ecc_range c C) as E. destruct (C19_separatrix_total HR a (ecc c) x ltac:(lra) ltac:(lra) ltac:(lra)) as (s & H & _).
  destruct (sep_facts HR a (ecc c) x s Ha E Hx H) as (Q & D & B). rewrite (cc_ecc c C) in D, B.
  assert (SE : sepc a x c = s) by (unfold sepc; rewrite H; reflexivity). rewrite SE.
  assert (QE : s / (1 + ecc c) = s * (c + 1) / (2 * c)) by (rewrite (one_ecc c C); field; lra).
  exists (s / (1 + ecc c)). repeat split; try assumption; try (apply D).
  rewrite QE. field. lra.
Qed.

Lemma sepc_increases a x c c' : 0 <= a < 1 -> -1 <= x <= 1 -> 1 <= c -> c < c' -> sepc a x c < sepc a x c'.
Proof.
  intros Ha Hx C CC. apply (local_global (sepc a x)); [exact CC|]. intros w W.
  destruct (sepc_facts a x w Ha Hx ltac:(lra)) as (q & S & Q & QF & D & B).
  assert (P0 : 0 < sepc a x w). { rewrite S. apply Rdiv_lt_0_compat; [apply Rmult_lt_0_compat|]; lra. }
  assert (X2 : 0 <= 1 - x^2) by nra.
  assert (K0 : 0 <= a^2 * (1 - x^2)) by (apply Rmult_le_pos; [apply pow2_ge_0 | exact X2]).
  destruct (sep_local (sepc a x w) (a^2 * (1 - x^2)) w (a * x) P0 K0 ltac:(lra)) as (d & D0 & L).
  - rewrite <- QF. exact Q.
  - unfold tf. rewrite <- QF. exact D.
  - rewrite <- QF. exact B.
  - replace (a^2 * (1 - x^2) + (a * x)^2) with (a^2) by ring. nra.
  - exists d. split; [exact D0|]. intros z Z HZ. destruct (sepc_facts a x z Ha Hx ltac:(lra)) as (q' & S' & Q' & _ & D' & B').
    rewrite S'. apply L; try assumption. lra.
Qed.

(** ** C107 *)
Theorem C107_separatrix_increases_with_eccentricity a e e' x s s' : 0 <= a < 1 -> 0 <= e -> e < e' -> e' < 1 -> -1 <= x <= 1 ->
  separatrix (Some a) (Some e) (Some x) = Ret (Some s) -> separatrix (Some a) (Some e') (Some x) = Ret (Some s') -> s < s'.
Proof.
  intros Ha He Hee He' Hx H H'. destruct (ecc_cc e ltac:(lra)) as (E1 & C1). destruct (ecc_cc e' ltac:(lra)) as (E2 & C2).
  assert (CC : cc e < cc e').
  { unfold cc. replace ((1 + e) / (1 - e)) with (-1 + 2 * / (1 - e)) by (field; lra). replace ((1 + e') / (1 - e')) with (-1 + 2 * / (1 - e')) by (field; lra).
    apply Rplus_lt_compat_l, Rmult_lt_compat_l; [lra|]. apply Rinv_lt_contravar; [apply Rmult_lt_0_compat; lra | lra]. }
  pose proof (sepc_increases a x (cc e) (cc e') Ha Hx C1 CC) as I. unfold sepc in I. rewrite E1, E2, H, H' in I. exact I.
Qed.

(** an orbit that exists exists at the same p with every smaller eccentricity *)
Theorem C107_stability_of_rounder_orbits a p e e' x : 0 <= a < 1 -> 0 <= e <= e' -> e' < 1 -> -1 <= x <= 1 ->
  is_stable (Some a) (Some p) (Some e') (Some x) = Ret true -> is_stable (Some a) (Some p) (Some e) (Some x) = Ret true.
Proof.
  intros Ha (He & Hee) He' Hx H. destruct Hee as [Hee | ->]; [|exact H].
  destruct (C22_is_stable_above_separatrix HR a e x Ha ltac:(lra) ltac:(lra)) as (s & Hs & K).
  destruct (C22_is_stable_above_separatrix HR a e' x Ha ltac:(lra) ltac:(lra)) as (s' & Hs' & K').
  rewrite K' in H. rewrite K. destruct (Rlt_dec s' p) as [L|L]; [|discriminate].
  pose proof (C107_separatrix_increases_with_eccentricity a e e' x s s' Ha He Hee He' Hx Hs Hs').
  destruct (Rlt_dec s p) as [L'|L']; [reflexivity | lra].
Qed.

(** below the innermost circular orbit of the same inclination nothing is stable, whatever the eccentricity *)
Theorem C107_nothing_stable_below_circular a p e x s0 : 0 <= a < 1 -> 0 <= e < 1 -> -1 <= x <= 1 ->
  separatrix (Some a) (Some 0) (Some x) = Ret (Some s0) -> p <= s0 ->
  is_stable (Some a) (Some p) (Some e) (Some x) = Ret false.
Proof.
  intros Ha He Hx H0 Hp.
  destruct (C22_is_stable_above_separatrix HR a e x Ha ltac:(lra) ltac:(lra)) as (s & Hs & K). rewrite K.
  destruct (Rlt_dec s p) as [L|L]; [exfalso | reflexivity].
  destruct (Req_dec e 0) as [-> |NE].
  - assert (E : Some s = Some s0) by congruence. injection E as <-. lra.
  - pose proof (C107_separatrix_increases_with_eccentricity a 0 e x s0 s Ha ltac:(lra) ltac:(lra) ltac:(lra) Hx H0 Hs). lra.
Qed.

(** concrete case: a = 9/10, inclined prograde, e = 0, 1/2, 9/10 *)
Example C107_case : exists s0 s1 s2,
  separatrix (Some (9/10)) (Some 0) (Some (1/2)) = Ret (Some s0) /\ separatrix (Some (9/10)) (Some (1/2)) (Some (1/2)) = Ret (Some s1) /\
  separatrix (Some (9/10)) (Some (9/10)) (Some (1/2)) = Ret (Some s2) /\ s0 < s1 < s2 /\
  is_stable (Some (9/10)) (Some s0) (Some (1/2)) (Some (1/2)) = Ret false.
Proof.
  destruct (C19_separatrix_total HR (9/10) 0 (1/2) ltac:(lra) ltac:(lra) ltac:(lra)) as (s0 & H0 & _).
  destruct (C19_separatrix_total HR (9/10) (1/2) (1/2) ltac:(lra) ltac:(lra) ltac:(lra)) as (s1 & H1 & _).
  destruct (C19_separatrix_total HR (9/10) (9/10) (1/2) ltac:(lra) ltac:(lra) ltac:(lra)) as (s2 & H2 & _).
  exists s0, s1, s2. refine (conj H0 (conj H1 (conj H2 (conj (conj _ _) _)))).
  - apply (C107_separatrix_increases_with_eccentricity (9/10) 0 (1/2) (1/2)); try assumption; lra.
  - apply (C107_separatrix_increases_with_eccentricity (9/10) (1/2) (9/10) (1/2)); try assumption; lra.
  - apply (C107_nothing_stable_below_circular (9/10) s0 (1/2) (1/2) s0); try assumption; lra.
Qed.
End S.

(** * Lemmas: what [polyroots] returns on factored polynomials *)
From Coq Require Import Reals Lra Lia ZArith String List Sorting.Sorted.
From Coquelicot Require Import Coquelicot.
From Verif Require Import Num Outcome External Checked ExternalSpec.
Import ListNotations.
Open Scope R_scope.

Section Roots.
Context {X : External R} (HP : polyroots_spec X).

Ltac coeffs :=
  cbn [map app repeat expand fold_right lin lin_aux];
  repeat (apply f_equal2; [apply injective_projections; unfold RtoC, Cmult, Cplus, Cminus, Copp; simpl; try ring|]);
  try reflexivity.

Ltac ssort :=
  repeat (apply SSorted_nil || apply SSorted_cons || apply List.Forall_nil || apply List.Forall_cons);
  unfold clex; simpl; lra.

Lemma poly4_real l r1 r2 r3 r4 c0 c1 c2 c3 c4 :
  l <> 0 -> r4 <= r3 -> r3 <= r2 -> r2 <= r1 ->
  c0 = l * (r1 * r2 * r3 * r4) ->
  c1 = - l * (r1 * r2 * r3 + r1 * r2 * r4 + r1 * r3 * r4 + r2 * r3 * r4) ->
  c2 = l * (r1 * r2 + r1 * r3 + r1 * r4 + r2 * r3 + r2 * r4 + r3 * r4) ->
  c3 = - l * (r1 + r2 + r3 + r4) -> c4 = l ->
  polyroots [c0; c1; c2; c3; c4] = [(r4, 0); (r3, 0); (r2, 0); (r1, 0)].
Proof.
  intros Hl H1 H2 H3 -> -> -> -> ->. apply HP. split.
  - exists l, 0%nat. split; [assumption|]. coeffs.
  - ssort.
Qed.
Lemma poly2_real l z1 z2 c0 c1 c2 :
  l <> 0 -> z1 <= z2 -> c0 = l * (z1 * z2) -> c1 = - l * (z1 + z2) -> c2 = l ->
  polyroots [c0; c1; c2] = [(z1, 0); (z2, 0)].
Proof.
  intros Hl H1 -> -> ->. apply HP. split.
  - exists l, 0%nat. split; [assumption|]. coeffs.
  - ssort.
Qed.
Lemma poly1_real l z c0 c1 c2 :
  l <> 0 -> c0 = - l * z -> c1 = l -> c2 = 0 -> polyroots [c0; c1; c2] = [(z, 0)].
Proof.
  intros Hl -> -> ->. apply HP. split.
  - exists l, 1%nat. split; [assumption|]. coeffs.
  - ssort.
Qed.
Lemma poly3_real l r1 r2 r3 c0 c1 c2 c3 c4 :
  l <> 0 -> r3 <= r2 -> r2 <= r1 ->
  c0 = - l * (r1 * r2 * r3) -> c1 = l * (r1 * r2 + r1 * r3 + r2 * r3) ->
  c2 = - l * (r1 + r2 + r3) -> c3 = l -> c4 = 0 ->
  polyroots [c0; c1; c2; c3; c4] = [(r3, 0); (r2, 0); (r1, 0)].
Proof.
  intros Hl H1 H2 -> -> -> -> ->. apply HP. split.
  - exists l, 1%nat. split; [assumption|]. coeffs.
  - ssort.
Qed.
(** two real roots and a conjugate pair *)
Lemma poly4_pair l r1 r2 u v c0 c1 c2 c3 c4 :
  l <> 0 -> r1 <= r2 -> 0 < v ->
  c0 = l * (r1 * r2 * (u ^ 2 + v ^ 2)) ->
  c1 = - l * (2 * u * (r1 * r2) + (r1 + r2) * (u ^ 2 + v ^ 2)) ->
  c2 = l * (r1 * r2 + 2 * u * (r1 + r2) + (u ^ 2 + v ^ 2)) ->
  c3 = - l * (r1 + r2 + 2 * u) -> c4 = l ->
  let p := [(u, - v); (u, v)] in
  polyroots [c0; c1; c2; c3; c4] = p ++ [(r1, 0); (r2, 0)] \/
  polyroots [c0; c1; c2; c3; c4] = (r1, 0) :: p ++ [(r2, 0)] \/
  polyroots [c0; c1; c2; c3; c4] = (r1, 0) :: (r2, 0) :: p \/
  (* a real root with the same real part sorts between the pair *)
  polyroots [c0; c1; c2; c3; c4] = [(u, - v); (r1, 0); (u, v); (r2, 0)] \/
  polyroots [c0; c1; c2; c3; c4] = [(r1, 0); (u, - v); (r2, 0); (u, v)] \/
  polyroots [c0; c1; c2; c3; c4] = [(u, - v); (r1, 0); (r2, 0); (u, v)].
Proof.
  intros Hl H1 Hv -> -> -> -> ->. cbv zeta. cbn [app].
  destruct (Rlt_le_dec u r1) as [Ha|Ha]; [|destruct (Rlt_le_dec r2 u) as [Hb|Hb]].
  - left. apply HP. split; [exists l, 0%nat; split; [assumption|]; coeffs|].
    ssort.
  - right; right; left. apply HP. split; [exists l, 0%nat; split; [assumption|]; coeffs|].
    ssort.
  - destruct (Rlt_le_dec r1 u) as [Hc|Hc], (Rlt_le_dec u r2) as [Hd|Hd].
    + right; left. apply HP. split; [exists l, 0%nat; split; [assumption|]; coeffs|].
      ssort.
    + right; right; right; right; left. apply HP.
      split; [exists l, 0%nat; split; [assumption|]; coeffs|].
      ssort.
    + right; right; right; left. apply HP.
      split; [exists l, 0%nat; split; [assumption|]; coeffs|].
      ssort.
    + right; right; right; right; right. apply HP.
      split; [exists l, 0%nat; split; [assumption|]; coeffs|].
      ssort.
Qed.
(** two conjugate pairs *)
Lemma poly4_two_pairs l u v s w c0 c1 c2 c3 c4 :
  l <> 0 -> 0 < v -> 0 < w -> u <= s ->
  c0 = l * ((u ^ 2 + v ^ 2) * (s ^ 2 + w ^ 2)) ->
  c1 = - l * (2 * u * (s ^ 2 + w ^ 2) + 2 * s * (u ^ 2 + v ^ 2)) ->
  c2 = l * ((u ^ 2 + v ^ 2) + 4 * u * s + (s ^ 2 + w ^ 2)) ->
  c3 = - l * (2 * u + 2 * s) -> c4 = l ->
  polyroots [c0; c1; c2; c3; c4] = [(u, -v); (u, v); (s, -w); (s, w)] \/
  polyroots [c0; c1; c2; c3; c4] = [(u, -v); (s, -w); (s, w); (u, v)] \/
  polyroots [c0; c1; c2; c3; c4] = [(u, -w); (u, -v); (u, v); (u, w)].
Proof.
  intros Hl Hv Hw Hus -> -> -> -> ->.
  destruct (Rlt_le_dec u s) as [H|H].
  - left. apply HP. split; [exists l, 0%nat; split; [assumption|]; coeffs|]. ssort.
  - assert (s = u) by lra. subst s. destruct (Rlt_le_dec w v) as [K|K].
    + right; left. apply HP. split; [exists l, 0%nat; split; [assumption|]; coeffs|]. ssort.
    + right; right. apply HP. split; [exists l, 0%nat; split; [assumption|]; coeffs|]. ssort.
Qed.
End Roots.

(** * Lemmas: splitting root lists *)
From Coq Require Import Reals Lra Lia ZArith String List Sorting.Sorted.
From Coquelicot Require Import Coquelicot.
From Verif Require Import Num Outcome External Checked ExternalSpec P_Poly Model_Units Model_Constants.
Import ListNotations.
Open Scope R_scope.

Section Roots.
Context {X : External R} (HP : polyroots_spec X).

Lemma split_pair l r1 r2 u v c0 c1 c2 c3 c4 :
  l <> 0 -> r1 <= r2 -> 0 < v ->
  c0 = l * (r1 * r2 * (u ^ 2 + v ^ 2)) ->
  c1 = - l * (2 * u * (r1 * r2) + (r1 + r2) * (u ^ 2 + v ^ 2)) ->
  c2 = l * (r1 * r2 + 2 * u * (r1 + r2) + (u ^ 2 + v ^ 2)) ->
  c3 = - l * (r1 + r2 + 2 * u) -> c4 = l ->
  split_roots (polyroots [c0; c1; c2; c3; c4]) = Some ([r1; r2], [(u, - v); (u, v)]).
Proof.
  intros Hl H1 Hv E0 E1 E2 E3 E4.
  assert (Z0 : Reqb 0 0 = true) by now apply Reqb_true.
  assert (Z1 : Reqb v 0 = false) by (apply Reqb_false; lra).
  assert (Z2 : Reqb (- v) 0 = false) by (apply Reqb_false; lra).
  destruct (poly4_pair HP l r1 r2 u v c0 c1 c2 c3 c4 Hl H1 Hv E0 E1 E2 E3 E4)
    as [-> |[-> |[-> |[-> |[-> | ->]]]]];
    cbn [app split_roots]; rnum; rewrite ?Z0, ?Z1, ?Z2; reflexivity.
Qed.
Lemma split_all_real (xs : list R) :
  split_roots (map (fun x => (x, 0)) xs) = Some (xs, []).
Proof.
  induction xs as [|x xs IH]; [reflexivity|]. cbn [map split_roots].
  change (@neqb R RNum 0 (nZ 0)) with (Some (Reqb 0 0)).
  rewrite Reqb_true by reflexivity. rewrite IH. reflexivity.
Qed.
(** two conjugate pairs *)
Lemma split_two_pairs l u v s w c0 c1 c2 c3 c4 :
  l <> 0 -> 0 < v -> 0 < w -> u <= s ->
  c0 = l * ((u ^ 2 + v ^ 2) * (s ^ 2 + w ^ 2)) ->
  c1 = - l * (2 * u * (s ^ 2 + w ^ 2) + 2 * s * (u ^ 2 + v ^ 2)) ->
  c2 = l * ((u ^ 2 + v ^ 2) + 4 * u * s + (s ^ 2 + w ^ 2)) ->
  c3 = - l * (2 * u + 2 * s) -> c4 = l ->
  exists cs, List.length cs = 4%nat /\ split_roots (polyroots [c0; c1; c2; c3; c4]) = Some ([], cs).
Proof.
  intros Hl Hv Hw Hus E0 E1 E2 E3 E4.
  assert (Z1 : Reqb v 0 = false) by (apply Reqb_false; lra).
  assert (Z2 : Reqb (- v) 0 = false) by (apply Reqb_false; lra).
  assert (Z3 : Reqb w 0 = false) by (apply Reqb_false; lra).
  assert (Z4 : Reqb (- w) 0 = false) by (apply Reqb_false; lra).
  destruct (poly4_two_pairs HP l u v s w c0 c1 c2 c3 c4 Hl Hv Hw Hus E0 E1 E2 E3 E4) as [-> |[-> | ->]];
    eexists; (split; [|cbn [split_roots]; rnum; rewrite ?Z1, ?Z2, ?Z3, ?Z4; reflexivity]); reflexivity.
Qed.

(** lifting to checked reals *)
Lemma checked_polyroots_some (cs : list R) :
  polyroots (map Some cs) = map (fun z => (Some (fst z), Some (snd z))) (polyroots cs).
Proof.
  cbn [polyroots checked]. unfold checked_polyroots.
  assert (E : all_some (map Some cs) = Some cs).
  { clear HP. induction cs as [|c cs IH]; cbn [map all_some]; [reflexivity | now rewrite IH]. }
  now rewrite E.
Qed.
Lemma split_roots_some (rs : list (R * R)) :
  split_roots (map (fun z => (Some (fst z), Some (snd z))) rs) =
  match split_roots rs with
  | Some (xs, cs) => Some (map Some xs, map (fun z => (Some (fst z), Some (snd z))) cs)
  | None => None
  end.
Proof.
  induction rs as [|[re im] rs IH]; [reflexivity|]. cbn [map split_roots fst snd].
  rewrite IH. change (neqb (Some im) (nZ 0)) with (@neqb R RNum im (nZ 0)).
  destruct (neqb im (nZ 0)) as [[]|], (split_roots rs) as [[xs cs]|]; reflexivity.
Qed.
(** on exact reals the split is always decided *)
Lemma split_roots_total (rs : list (R * R)) : exists xs cs, split_roots rs = Some (xs, cs).
Proof.
  induction rs as [|[re im] rs [xs [cs IH]]]; [now exists [], []|]. cbn [split_roots]. rewrite IH.
  change (@neqb R RNum im (nZ 0)) with (Some (Reqb im 0)). destruct (Reqb im 0); eauto.
Qed.
Lemma radial_poly_some (a E L Q : R) :
  radial_poly (Some a) (Some E) (Some L) (Some Q) = map Some (radial_poly a E L Q).
Proof. reflexivity. Qed.
Lemma polar_poly_some (a E L Q : R) :
  polar_poly (Some a) (Some E) (Some L) (Some Q) = map Some (polar_poly a E L Q).
Proof. reflexivity. Qed.
End Roots.

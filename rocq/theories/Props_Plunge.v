(** * Properties C36, C37: the radial roots found from constants of motion and the
    classification of initial data *)
From Coq Require Import Reals Lra Lia ZArith String List Psatz Sorting.Sorted.
From Coquelicot Require Import Coquelicot.
From Verif Require Import Num Outcome External Checked ExternalSpec Spec Model_Units Model_Constants
  Model_Frequencies Model_InitialConditions P_Validation P_Poly P_Roots P_Quartic.
Import ListNotations.
Open Scope R_scope.

Section Roots.
Context {X : External R} (HP : polyroots_spec X).

Ltac coeffs :=
  cbn [map app repeat expand fold_right lin lin_aux];
  repeat (apply f_equal2; [apply injective_projections; unfold RtoC, Cmult, Cplus, Cminus, Copp; simpl; try ring|]);
  try reflexivity.
Ltac ssort :=
  repeat (apply SSorted_nil || apply SSorted_cons || apply List.Forall_nil || apply List.Forall_cons);
  unfold clex; simpl; lra.

Lemma split_cubic_pair c0 c1 c2 c3 r u v : c3 <> 0 -> real_and_pair c0 c1 c2 c3 r u v ->
  split_roots (polyroots [c0; c1; c2; c3; 0]) = Some ([r], [(u, - v); (u, v)]).
Proof.
  intros H (Hv & -> & -> & ->).
  assert (Z0 : Reqb 0 0 = true) by now apply Reqb_true.
  assert (Z1 : Reqb v 0 = false) by (apply Reqb_false; lra).
  assert (Z2 : Reqb (- v) 0 = false) by (apply Reqb_false; lra).
  destruct (Rlt_le_dec u r) as [Ha|Ha]; [|destruct (Rlt_le_dec r u) as [Hb|Hb]].
  - rewrite (HP _ [(u, -v); (u, v); (r, 0)]).
    + cbn [app split_roots]; rnum; rewrite ?Z0, ?Z1, ?Z2; reflexivity.
    + split; [exists c3, 1%nat; split; [assumption|]; coeffs|]. ssort.
  - rewrite (HP _ [(r, 0); (u, -v); (u, v)]).
    + cbn [app split_roots]; rnum; rewrite ?Z0, ?Z1, ?Z2; reflexivity.
    + split; [exists c3, 1%nat; split; [assumption|]; coeffs|]. ssort.
  - rewrite (HP _ [(u, -v); (r, 0); (u, v)]).
    + cbn [app split_roots]; rnum; rewrite ?Z0, ?Z1, ?Z2; reflexivity.
    + split; [exists c3, 1%nat; split; [assumption|]; coeffs|]. ssort.
Qed.

(** what the splitting of the radial roots gives, for every (a, E, L, Q) *)
Inductive radial_split (a E L Q : R) : list R -> list (R * R) -> Prop :=
| rs_real r1 r2 r3 r4 : r4 <= r3 -> r3 <= r2 -> r2 <= r1 -> E^2 <> 1 ->
    (forall r, radial_potential a E L Q r = (1 - E^2) * (r1 - r) * (r - r2) * (r - r3) * (r - r4)) ->
    radial_split a E L Q [r4; r3; r2; r1] []
| rs_pair r1 r2 u v : r1 <= r2 -> 0 < v -> E^2 <> 1 ->
    (forall r, radial_potential a E L Q r = (1 - E^2) * (r2 - r) * (r - r1) * ((r - u)^2 + v^2)) ->
    radial_split a E L Q [r1; r2] [(u, -v); (u, v)]
| rs_two_pairs u v s w cs : 0 < v -> 0 < w -> E^2 <> 1 -> List.length cs = 4%nat ->
    (forall r, radial_potential a E L Q r = - (1 - E^2) * ((r - u)^2 + v^2) * ((r - s)^2 + w^2)) ->
    radial_split a E L Q [] cs
| rs_three r1 r2 r3 : E^2 = 1 -> radial_split a E L Q [r3; r2; r1] []
| rs_one r u v : E^2 = 1 -> radial_split a E L Q [r] [(u, -v); (u, v)].

Lemma split_radial a E L Q : exists xs cs,
  split_roots (polyroots (radial_poly a E L Q)) = Some (xs, cs) /\ radial_split a E L Q xs cs.
Proof.
  unfold radial_poly. rnum.
  set (c0 := - a^2 * Q). set (c1 := _ - 4 * a * E * L). set (c2 := _ - a^2).
  assert (RP : forall r, radial_potential a E L Q r = c0 + c1 * r + c2 * r^2 + 2 * r^3 + (E^2 - 1) * r^4)
    by (intros r; unfold radial_potential, Delta, c0, c1, c2; ring).
  clearbody c0 c1 c2. destruct (Req_dec (E^2) 1) as [He|He].
  - replace (E^2 - 1) with 0 by lra.
    destruct (cubic_cases c0 c1 c2 2) as [(r1 & r2 & r3 & K1 & K2 & K3 & K4 & K5)|(r & u & v & K)]; [lra| |].
    + exists [r3; r2; r1], []. split; [|now constructor].
      rewrite (poly3_real HP 2 r1 r2 r3 c0 c1 c2 2 0); try assumption; try lra.
      apply (split_all_real [r3; r2; r1]).
    + exists [r], [(u, -v); (u, v)]. split; [|now constructor].
      apply (split_cubic_pair c0 c1 c2 2 r u v); [lra|assumption].
  - assert (Hl : E^2 - 1 <> 0) by lra.
    destruct (quartic_cases c0 c1 c2 2 (E^2 - 1) Hl) as
      [(r1 & r2 & r3 & r4 & K1 & K2 & K3 & K4 & K5 & K6 & K7)
      |[(r1 & r2 & u & v & K1 & K2 & K3 & K4 & K5 & K6)
      |(u & v & s & w & K0 & K1 & K2 & K3 & K4 & K5 & K6)]].
    + exists [r4; r3; r2; r1], []. split.
      * rewrite (poly4_real HP (E^2 - 1) r1 r2 r3 r4); try assumption; try reflexivity.
        apply (split_all_real [r4; r3; r2; r1]).
      * constructor; try assumption. intros r. rewrite RP, K4, K5, K6.
        replace (2 * r^3) with (- (E^2 - 1) * (r1 + r2 + r3 + r4) * r^3) by (rewrite <- K7; reflexivity). ring.
    + exists [r1; r2], [(u, -v); (u, v)]. split.
      * now apply (split_pair HP (E^2 - 1)).
      * constructor; try assumption. intros r. rewrite RP, K3, K4, K5.
        replace (2 * r^3) with (- (E^2 - 1) * (r1 + r2 + 2 * u) * r^3) by (rewrite <- K6; reflexivity). ring.
    + destruct (split_two_pairs HP (E^2 - 1) u v s w c0 c1 c2 2 (E^2 - 1)) as (cs & Hcs & Hs); auto.
      exists [], cs. split; [assumption|]. apply (rs_two_pairs _ _ _ _ u v s w); auto.
      intros r. rewrite RP, K3, K4, K5.
      replace (2 * r^3) with (- (E^2 - 1) * (2 * u + 2 * s) * r^3) by (rewrite <- K6; reflexivity). ring.
Qed.

Definition cpair (z : R * R) : option R * option R := (Some (fst z), Some (snd z)).
Lemma split_radial_checked a E L Q : exists xs cs,
  split_roots (polyroots (radial_poly (Some a) (Some E) (Some L) (Some Q)))
  = Some (map Some xs, map cpair cs) /\ radial_split a E L Q xs cs.
Proof.
  destruct (split_radial a E L Q) as (xs & cs & H & K). exists xs, cs. split; [|assumption].
  rewrite radial_poly_some, checked_polyroots_some, split_roots_some, H. reflexivity.
Qed.

(** with |a| <= 1 the radial potential is >= 0 at the outer horizon *)
Lemma potential_at_horizon a E L Q : a^2 <= 1 ->
  0 <= radial_potential a E L Q (1 + sqrt (1 - a^2)) /\ 0 <= radial_potential a E L Q (1 - sqrt (1 - a^2)).
Proof.
  intros Ha. assert (S : sqrt (1 - a^2) ^ 2 = 1 - a^2) by (apply pow2_sqrt; lra).
  unfold radial_potential, Delta. set (w := sqrt (1 - a^2)) in *. split.
  - replace ((1 + w)^2 - 2 * (1 + w) + a^2) with 0 by lra. rewrite Rmult_0_l, Rminus_0_r. apply pow2_ge_0.
  - replace ((1 - w)^2 - 2 * (1 - w) + a^2) with 0 by lra. rewrite Rmult_0_l, Rminus_0_r. apply pow2_ge_0.
Qed.
Lemma no_two_pairs a E L Q u v s w : a^2 <= 1 -> E^2 < 1 -> 0 < v -> 0 < w ->
  (forall r, radial_potential a E L Q r = - (1 - E^2) * ((r - u)^2 + v^2) * ((r - s)^2 + w^2)) -> False.
Proof.
  intros Ha He Hv Hw F. destruct (potential_at_horizon a E L Q Ha) as [P _]. rewrite F in P.
  set (r := 1 + _) in P. clearbody r.
  assert (A : 0 < (r - u)^2 + v^2) by (pose proof (pow2_ge_0 (r - u)); assert (0 < v^2) by (apply pow_lt; lra); lra).
  assert (B : 0 < (r - s)^2 + w^2) by (pose proof (pow2_ge_0 (r - s)); assert (0 < w^2) by (apply pow_lt; lra); lra).
  pose proof (Rmult_lt_0_compat _ _ A B) as C.
  pose proof (Rmult_lt_0_compat (1 - E^2) _ ltac:(lra) C). lra.
Qed.

(** ** C36 *)
(** whatever the call returns is the complete list of roots, in the documented order *)
Theorem C36_returned_roots :
  forall a E L Q rts,
  plunging_radial_roots (Some a) (Some E) (Some L) (Some Q) = Ret rts ->
  E^2 <> 1 /\
  ((exists r1 r2 r3 r4,
      rts = RealRoots (Some r1) (Some r2) (Some r3) (Some r4) /\
      (forall r, radial_potential a E L Q r = (1 - E^2) * (r1 - r) * (r - r2) * (r - r3) * (r - r4)) /\
      ((r4 <= r3 /\ r3 <= r2 /\ r2 <= r1 /\ r3 <= 1 - sqrt (1 - a^2)) \/
       (r2 <= r1 /\ r1 <= r4 /\ r4 <= r3 /\ 1 - sqrt (1 - a^2) < r1))) \/
   (exists r1 r2 u v,
      rts = ComplexRoots (Some r1) (Some r2) (Some u, Some (- v)) (Some u, Some v) /\
      (forall r, radial_potential a E L Q r = (1 - E^2) * (r2 - r) * (r - r1) * ((r - u)^2 + v^2)) /\
      r1 <= r2 /\ 0 < v)).
Proof.
  intros a E L Q rts H. unfold plunging_radial_roots in H.
  destruct (split_radial_checked a E L Q) as (xs & cs & Hs & K). rewrite Hs in H.
  destruct K as [r1 r2 r3 r4 O1 O2 O3 He F | r1 r2 u v O1 O2 He F | u v s w cs O1 O2 He Hc F | |];
    cbn [map cpair fst snd] in H; try discriminate.
  - split; [assumption|]. left. cbv zeta in H. cnum_in H.
    destruct (Rle_dec 0 (1 - a^2)) as [Ha|Ha].
    + rewrite csqrt_some in H by assumption. cbn [ifo] in H.
      match type of H with context [Rltb ?p ?q] => destruct (Rltb_spec p q) as [B|B] end.
      * exists r3, r4, r1, r2. split; [congruence|]. split; [intros r; rewrite F; ring|]. right. auto.
      * exists r1, r2, r3, r4. split; [congruence|]. split; [exact F|]. left. repeat split; auto; lra.
    + assert (N : csqrt (Some (1 - a^2)) = None) by (unfold csqrt; destruct (Rle_dec 0 (1 - a^2)); [contradiction|reflexivity]).
      rewrite N in H. discriminate.
  - unfold cpair in H. cbn [fst snd] in H. split; [assumption|]. right. exists r1, r2, u, v. split; [congruence|]. auto.
Qed.

(** the call succeeds for every bound particle, E^2 < 1 *)
Theorem C36_total :
  forall a E L Q, a^2 <= 1 -> E^2 < 1 ->
  exists rts, plunging_radial_roots (Some a) (Some E) (Some L) (Some Q) = Ret rts.
Proof.
  intros a E L Q Ha He. unfold plunging_radial_roots.
  destruct (split_radial_checked a E L Q) as (xs & cs & -> & K).
  destruct K as [r1 r2 r3 r4 O1 O2 O3 _ F | r1 r2 u v O1 O2 _ F | u v s w cs O1 O2 _ Hc F | |];
    cbn [map cpair fst snd]; [| | | lra | lra].
  - cbv zeta. cnum. rewrite csqrt_some by lra. cbn [ifo]. destruct (Rltb _ _); eexists; reflexivity.
  - eexists; reflexivity.
  - exfalso. exact (no_two_pairs a E L Q u v s w Ha He O1 O2 F).
Qed.

(** marginally bound particles are refused *)
Theorem C36_parabolic_refused :
  forall a E L Q, E^2 = 1 ->
  plunging_radial_roots (Some a) (Some E) (Some L) (Some Q) = Raise UnboundLocalError.
Proof.
  intros a E L Q He. unfold plunging_radial_roots.
  destruct (split_radial_checked a E L Q) as (xs & cs & -> & K).
  destruct K; try contradiction; reflexivity.
Qed.

(** ** C37 *)
Lemma split_four a E L Q r1 r2 r3 r4 : E^2 <> 1 -> r4 <= r3 -> r3 <= r2 -> r2 <= r1 ->
  (forall r, radial_potential a E L Q r = (1 - E^2) * (r1 - r) * (r - r2) * (r - r3) * (r - r4)) ->
  split_roots (polyroots (radial_poly (Some a) (Some E) (Some L) (Some Q)))
  = Some ([Some r4; Some r3; Some r2; Some r1], []).
Proof.
  intros He O1 O2 O3 F. rewrite radial_poly_some, checked_polyroots_some, split_roots_some.
  assert (S : split_roots (polyroots (radial_poly a E L Q)) = Some ([r4; r3; r2; r1], [])); [|now rewrite S].
  unfold radial_poly. rnum.
  assert (P : forall r, (- a^2 * Q) + (2 * L^2 + 2 * Q + 2 * a^2 * E^2 - 4 * a * E * L) * r
     + (a^2 * E^2 - L^2 - Q - a^2) * r^2 + 2 * r^3 + (E^2 - 1) * r^4 =
     (E^2 - 1) * (r1*r2*r3*r4) + (- (E^2 - 1) * (r1*r2*r3 + r1*r2*r4 + r1*r3*r4 + r2*r3*r4)) * r
     + ((E^2 - 1) * (r1*r2 + r1*r3 + r1*r4 + r2*r3 + r2*r4 + r3*r4)) * r^2
     + (- (E^2 - 1) * (r1 + r2 + r3 + r4)) * r^3 + (E^2 - 1) * r^4).
  { intros r. transitivity (radial_potential a E L Q r); [unfold radial_potential, Delta; ring|].
    rewrite F. ring. }
  apply quartic_coeffs in P. destruct P as (P0 & P1 & P2 & P3 & _).
  rewrite (poly4_real HP (E^2 - 1) r1 r2 r3 r4); try assumption; try lra.
  apply (split_all_real [r4; r3; r2; r1]).
Qed.
Lemma split_two a E L Q r1 r2 u v : E^2 <> 1 -> r1 <= r2 -> 0 < v ->
  (forall r, radial_potential a E L Q r = (1 - E^2) * (r2 - r) * (r - r1) * ((r - u)^2 + v^2)) ->
  split_roots (polyroots (radial_poly (Some a) (Some E) (Some L) (Some Q)))
  = Some ([Some r1; Some r2], [(Some u, Some (- v)); (Some u, Some v)]).
Proof.
  intros He O1 O2 F. rewrite radial_poly_some, checked_polyroots_some, split_roots_some.
  assert (S : split_roots (polyroots (radial_poly a E L Q)) = Some ([r1; r2], [(u, -v); (u, v)])); [|now rewrite S].
  unfold radial_poly. rnum.
  assert (P : forall r, (- a^2 * Q) + (2 * L^2 + 2 * Q + 2 * a^2 * E^2 - 4 * a * E * L) * r
     + (a^2 * E^2 - L^2 - Q - a^2) * r^2 + 2 * r^3 + (E^2 - 1) * r^4 =
     (E^2 - 1) * (r1 * r2 * (u ^ 2 + v ^ 2))
     + (- (E^2 - 1) * (2 * u * (r1 * r2) + (r1 + r2) * (u ^ 2 + v ^ 2))) * r
     + ((E^2 - 1) * (r1 * r2 + 2 * u * (r1 + r2) + (u ^ 2 + v ^ 2))) * r^2
     + (- (E^2 - 1) * (r1 + r2 + 2 * u)) * r^3 + (E^2 - 1) * r^4).
  { intros r. transitivity (radial_potential a E L Q r); [unfold radial_potential, Delta; ring|].
    rewrite F. ring. }
  apply quartic_coeffs in P. destruct P as (P0 & P1 & P2 & P3 & _).
  apply (split_pair HP (E^2 - 1)); try assumption; lra.
Qed.

(** r lies in [lo, hi] up to the tolerance *)
Definition within (lo r hi tol : R) : Prop := lo - tol <= r <= hi + tol.

(** four real roots: the exact meaning of the three possible answers *)
Theorem C37_four_real_roots :
  forall a E L Q t0 r0 th0 ph0 vel tol r1 r2 r3 r4,
  a^2 <= 1 -> E^2 <> 1 -> r4 <= r3 -> r3 <= r2 -> r2 <= r1 ->
  (forall r, radial_potential a E L Q r = (1 - E^2) * (r1 - r) * (r - r2) * (r - r3) * (r - r4)) ->
  let rm := 1 - sqrt (1 - a^2) in
  let answer := ic_is_stable (Some a) (Some t0, Some r0, Some th0, Some ph0) vel
                  (Some (Some E, Some L, Some Q)) (Some tol) in
  (answer = Ret true <-> rm < r2 /\ within r2 r0 r1 tol) /\
  (answer = Ret false <->
     (r2 < rm /\ within r2 r0 r1 tol) \/ (rm < r2 /\ ~ within r2 r0 r1 tol /\ within r4 r0 r3 tol)) /\
  (answer = Ret true \/ answer = Ret false \/ answer = Raise (ValueError msg_unphysical)).
Proof.
  intros a E L Q t0 r0 th0 ph0 vel tol r1 r2 r3 r4 Ha He O1 O2 O3 F. cbv zeta.
  unfold ic_is_stable. cbn [default bind].
  rewrite (split_four a E L Q r1 r2 r3 r4) by assumption.
  cbn [List.length Nat.eqb unpack4 bind]. cbv zeta. cnum. rewrite csqrt_some by lra.
  cbn [c2 oand]. unfold within. set (rm := 1 - sqrt (1 - a^2)).
  destruct (Rltb_spec r2 rm), (Rltb_spec rm r2), (Rleb_spec r0 (r1 + tol)), (Rleb_spec (r2 - tol) r0),
    (Rleb_spec r0 (r3 + tol)), (Rleb_spec (r4 - tol) r0);
  cbn [oand ifo]; (split; [|split]);
  try (split; [intros K; try discriminate K | intros K]); try tauto; try reflexivity; try lra; try (exfalso; lra).
Qed.

(** two complex roots: always a plunge *)
Theorem C37_two_complex_roots :
  forall a E L Q t0 r0 th0 ph0 vel tol r1 r2 u v,
  E^2 <> 1 -> r1 <= r2 -> 0 < v ->
  (forall r, radial_potential a E L Q r = (1 - E^2) * (r2 - r) * (r - r1) * ((r - u)^2 + v^2)) ->
  ic_is_stable (Some a) (Some t0, Some r0, Some th0, Some ph0) vel
    (Some (Some E, Some L, Some Q)) tol = Ret false.
Proof.
  intros a E L Q t0 r0 th0 ph0 vel tol r1 r2 u v He O1 O2 F. unfold ic_is_stable. cbn [default bind].
  now rewrite (split_two a E L Q r1 r2 u v).
Qed.

(** genuine initial data outside the inner horizon (R(r0) >= 0, E^2 < 1) are
    classified, unless the periastron sits exactly on the inner horizon *)
Theorem C37_real_data_are_classified :
  forall a E L Q t0 r0 th0 ph0 vel tol,
  a^2 <= 1 -> E^2 < 1 -> 0 <= tol -> 1 - sqrt (1 - a^2) < r0 -> 0 <= radial_potential a E L Q r0 ->
  (exists b, ic_is_stable (Some a) (Some t0, Some r0, Some th0, Some ph0) vel
    (Some (Some E, Some L, Some Q)) (Some tol) = Ret b) \/
  2 * E * (1 - sqrt (1 - a^2)) = a * L.
Proof.
  intros a E L Q t0 r0 th0 ph0 vel tol Ha He Ht Hr HR.
  destruct (split_radial a E L Q) as (xs & cs & _ & K).
  destruct K as [r1 r2 r3 r4 O1 O2 O3 _ F | r1 r2 u v O1 O2 _ F | u v s w cs O1 O2 _ Hc F | |]; try lra.
  - destruct (C37_four_real_roots a E L Q t0 r0 th0 ph0 vel tol r1 r2 r3 r4) as (T & N & _); auto; [lra|].
    set (rm := 1 - sqrt (1 - a^2)) in *.
    destruct (Req_dec r2 rm) as [Hrm|Hrm].
    + right. pose proof (F rm) as Fm. rewrite <- Hrm in Fm.
      replace ((1 - E^2) * (r1 - r2) * (r2 - r2) * (r2 - r3) * (r2 - r4)) with 0 in Fm by ring.
      unfold radial_potential in Fm. rewrite Hrm in Fm.
      assert (S : sqrt (1 - a^2) ^ 2 = 1 - a^2) by (apply pow2_sqrt; lra).
      assert (D : Delta a rm = 0) by (unfold Delta, rm; lra).
      assert (D2 : rm^2 + a^2 = 2 * rm) by (unfold Delta in D; lra).
      rewrite D, D2 in Fm. assert (Z : (E * (2 * rm) - a * L)^2 = 0) by lra.
      assert (E * (2 * rm) - a * L = 0); [|lra]. destruct (Req_dec (E * (2 * rm) - a * L) 0); [assumption|].
      exfalso. assert (0 < (E * (2 * rm) - a * L)^2) by now apply pow2_gt_0. lra.
    + left. rewrite F in HR.
      destruct (Rle_dec r2 r0) as [B|B].
      * destruct (Rle_dec r0 r1) as [B1|B1].
        -- destruct (Rtotal_order r2 rm) as [C|[C|C]]; [|contradiction|].
           ++ exists false. apply N. left. unfold within. lra.
           ++ exists true. apply T. unfold within. lra.
        -- exfalso. assert (0 < (1 - E^2) * (r0 - r1) * (r0 - r2) * (r0 - r3) * (r0 - r4))
             by (repeat apply Rmult_lt_0_compat; lra). lra.
      * destruct (Rle_dec r0 r3) as [B1|B1]; [destruct (Rle_dec r4 r0) as [B2|B2]|].
        -- destruct (Rle_dec (r2 - tol) r0) as [B3|B3].
           ++ exists true. apply T. unfold within. lra.
           ++ exists false. apply N. right. unfold within. lra.
        -- exfalso. assert (0 < (1 - E^2) * (r1 - r0) * (r2 - r0) * (r3 - r0) * (r4 - r0))
             by (repeat apply Rmult_lt_0_compat; lra). lra.
        -- exfalso. assert (0 < (1 - E^2) * (r1 - r0) * (r2 - r0) * (r0 - r3) * (r0 - r4))
             by (repeat apply Rmult_lt_0_compat; lra). lra.
  - left. exists false. eapply C37_two_complex_roots; eauto. lra.
  - exfalso. exact (no_two_pairs a E L Q u v s w Ha He O1 O2 F).
Qed.

(** the exception is real: a particle at r0 = 1 with R(r0) > 0 between the horizons
    that is refused as unphysical (a = 4/5, E = L = 1/2, Q = 0) *)
Theorem C37_exception :
  forall t0 th0 ph0 vel tol, 0 <= tol ->
  0 < radial_potential (4/5) (1/2) (1/2) 0 1 /\ 1 - sqrt (1 - (4/5)^2) < 1 /\
  ic_is_stable (Some (4/5)) (Some t0, Some 1, Some th0, Some ph0) vel
    (Some (Some (1/2), Some (1/2), Some 0)) (Some tol) = Raise (ValueError msg_unphysical).
Proof.
  intros t0 th0 ph0 vel tol Ht.
  assert (Sq : sqrt (1 - (4/5)^2) = 3/5).
  { replace (1 - (4/5)^2) with ((3/5)^2) by lra. apply sqrt_pow2. lra. }
  split; [unfold radial_potential, Delta; lra|]. split; [lra|].
  assert (Hw : sqrt (274/100) ^ 2 = 274/100) by (apply pow2_sqrt; lra).
  set (w := sqrt (274/100)) in *.
  assert (Hw1 : 165/100 < w < 166/100).
  { split; [apply Rnot_le_lt; intros K; assert (0 <= w) by apply sqrt_pos; nra|].
    apply Rnot_le_lt; intros K; nra. }
  destruct (C37_four_real_roots (4/5) (1/2) (1/2) 0 t0 1 th0 ph0 vel tol ((17/10 + w) / (3/2)) (2/5)
    ((17/10 - w) / (3/2)) 0) as (T & N & [A|[A|A]]); try lra.
  - intros r. unfold radial_potential, Delta. replace ((17/10 + w) / (3/2)) with (2/3 * (17/10 + w)) by field.
    replace ((17/10 - w) / (3/2)) with (2/3 * (17/10 - w)) by field.
    assert (Hw2 : w * w = 274/100) by lra.
    transitivity ((r - 2/5) * r * (- (3/4) * r^2 + 17/10 * r - 5/100)); [field|].
    transitivity ((1 - (1/2)^2) * (r - 2/5) * r * (- (r^2) + 4/3 * (17/10) * r - 4/9 * ((17/10)^2 - w*w)));
      [rewrite Hw2; field | field].
  - apply T in A. lra.
  - apply N in A. lra.
  - exact A.
Qed.
(** and a stable one: Schwarzschild, p = 49/4, e = 1/2, equatorial *)
Example C37_case :
  let E := sqrt (185/196) in E^2 = 185/196 /\
  (forall r, radial_potential 0 E (49/12) 0 r
     = (1 - E^2) * (49/2 - r) * (r - 49/6) * (r - 98/33) * (r - 0)) /\
  within (49/6) 10 (49/2) (1/10000).
Proof.
  cbv zeta. set (E := sqrt _). assert (HE : E^2 = 185/196) by (unfold E; rewrite pow2_sqrt; lra).
  split; [exact HE|]. split; [|unfold within; lra].
  intros r. unfold radial_potential, Delta. rewrite HE.
  transitivity (E^2 * r^4 - (r^2 - 2*r) * (r^2 + (49/12)^2)); [ring|]. rewrite HE. field.
Qed.
End Roots.
Print Assumptions C37_exception.
Print Assumptions C36_returned_roots.
Print Assumptions C37_four_real_roots.
Print Assumptions C37_real_data_are_classified.

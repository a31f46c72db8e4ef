(** * C87: apex_from_constants and constants_of_motion disagree about the orientation for negative spin

    constants_of_motion reverses the orbit when the spin is negative, apex_from_constants does not: for a < 0 the
    round trip is exact when L is negated in between, and never works otherwise. *)
From Coq Require Import Reals Lra Lia ZArith String List.
From Coquelicot Require Import Coquelicot.
From Verif Require Import Num Outcome External Checked ExternalSpec Spec Model_Constants.
From Verif Require Import P_Validation Props_Validation SepPoly Props_Separatrix P_Bounds P_Roots P_Constants Props_Constants Props_Stability Props_Stability3 P_Traj3 Props_Restart Props_Frequencies Props_Plunge.
Import ListNotations.
Open Scope R_scope.

Section S.
Context {X : External R} (HR : root_spec X).
Lemma radial_poly_reverse a E L Q : radial_poly a E (- L) Q = radial_poly (- a) E L Q.
Proof. unfold radial_poly. rnum. repeat (f_equal; try ring). Qed.
Lemma polar_poly_reverse a E L Q : polar_poly a E (- L) Q = polar_poly (- a) E L Q.
Proof. unfold polar_poly. rnum. repeat (f_equal; try ring). Qed.

Theorem C87_reversed_round_trip_partial (HP : polyroots_spec X) a p e x E L Q : a < 0 -> e < 1 ->
  constants_of_motion (Some a) (Some p) (Some e) (Some x) = Ret (Some E, Some L, Some Q) ->
  apex_from_constants (Some a) (Some E) (Some (- L)) (Some Q) = Ret (Some a, Some p, Some e, Some x).
Proof.
  intros Ha He H. rewrite constants_std in H.
  assert (S1 : spin_sign a = -1) by (unfold spin_sign; destruct (Rlt_dec a 0); lra). rewrite S1, Rabs_left in H by exact Ha.
  pose proof (C17_apex_inverts_constants HR HP (- a) p e (x * -1) E L Q ltac:(lra) He H) as K.
  unfold apex_from_constants in K |- *. rewrite radial_poly_some in K |- *. rewrite radial_poly_reverse.
  destruct (real_of_roots (polyroots (map Some (radial_poly (- a) E L Q)))) as [rs| |]; cbn [bind] in K |- *; try discriminate.
  destruct (unpack4 rs) as [[[[r4 r3] r2] r1]| |]; cbn [bind] in K |- *; try discriminate.
  assert (PP : polar_roots_of (Some a) (Some E) (Some (- L)) (Some Q) = polar_roots_of (Some (- a)) (Some E) (Some L) (Some Q)).
  { unfold polar_roots_of. rewrite !polar_poly_some, polar_poly_reverse.
    change (neqb (Some a) (nZ 0)) with (Some (Reqb a 0)). change (neqb (Some (- a)) (nZ 0)) with (Some (Reqb (- a) 0)). rewrite !Reqb_false by lra. reflexivity. }
  rewrite PP. destruct (polar_roots_of (Some (- a)) (Some E) (Some L) (Some Q)) as [[zm zp]| |]; cbn [bind] in K |- *; try discriminate.
  apply Ret_inj in K. apply pair_equal_spec in K as [K KX]. apply pair_equal_spec in K as [K KE]. apply pair_equal_spec in K as [_ KP].
  rewrite KP, KE. do 2 f_equal.
  assert (SG : nsign (Some (- L)) = c1 Ropp (nsign (Some L))).
  { cnum. cbn [c1]. f_equal. unfold Rsgn. destruct (Rlt_dec 0 (- L)), (Rlt_dec 0 L), (Rlt_dec L 0), (Rlt_dec (- L) 0); try lra. }
  rewrite SG. cnum. cnum_in KX. destruct (csqrt _) as [w|]; cbn [c1 c2] in KX |- *; [|discriminate]. f_equal. assert (KY : Rsgn L * w = x * -1) by congruence. lra.
Qed.

Theorem C87_refuted_negative_spin (HP : polyroots_spec X) a p e x E L Q : a < 0 -> e < 1 -> x <> 0 ->
  constants_of_motion (Some a) (Some p) (Some e) (Some x) = Ret (Some E, Some L, Some Q) ->
  forall a' x', apex_from_constants (Some a) (Some E) (Some L) (Some Q) <> Ret (a', Some p, Some e, x').
Proof.
  intros Ha He Hx H a' x' K.
  pose proof (constants_general HR a p e x E L Q H) as (C1 & _ & _ & _ & _ & C6 & C7 & _ & EP).
  specialize (C1 He). assert (S1 : spin_sign a = -1) by (unfold spin_sign; destruct (Rlt_dec a 0); lra). rewrite S1 in *.
  assert (NL : L <> 0). { destruct (Rtotal_order x 0) as [N|[N|N]]; [specialize (C6 ltac:(lra)); lra | lra | specialize (C7 ltac:(lra)); lra]. }
  destruct (constants_bounds HR _ _ _ _ _ _ _ H) as (_ & He0 & _ & Hq1 & _).
  unfold apex_from_constants, real_of_roots in K. destruct (split_radial_checked HP a E L Q) as (xs & cs & SP & SR). rewrite SP in K.
  destruct SR as [q1 q2 q3 q4 _ _ _ _ F | q1 q2 u v _ _ _ _ | u v s w cs _ _ _ LC _ | |]; cbn [map bind unpack4] in K; try discriminate;
    [|destruct cs; cbn [map bind unpack4] in K; discriminate].
  assert (I1 : radial_potential a E L Q q1 = 0) by (rewrite F; ring).
  destruct (polar_roots_of (Some a) (Some E) (Some L) (Some Q)) as [[zm zp]| |]; cbn [bind] in K; try discriminate.
  apply Ret_inj in K. apply pair_equal_spec in K as [K _]. apply pair_equal_spec in K as [K KE]. apply pair_equal_spec in K as [_ KP].
  cnum_in KP. cnum_in KE. apply cdiv_inv' in KE as (u & v & U & V & NV & KE). apply cdiv_inv' in KP as (u' & v' & U' & V' & NV' & KP).
  assert (u = q1 - q2) by congruence. assert (v = q1 + q2) by congruence. assert (u' = 2 * q1 * q2) by congruence. assert (v' = q1 + q2) by congruence. subst u v u' v'.
  assert (R1 : q1 = p / (1 - e)). { apply (Rmult_eq_reg_r (1 - e)); [|lra]. replace (p / (1 - e) * (1 - e)) with p by (field; lra). rewrite KP, KE. field. exact NV. }
  assert (P0 : 0 < q1).
  { rewrite R1. assert (0 < p) by (apply (Rmult_lt_reg_r (/ (1 + e))); [apply Rinv_0_lt_compat; lra | unfold Rdiv in Hq1; lra]). apply Rdiv_lt_0_compat; lra. }
  rewrite <- R1 in C1. rewrite Rabs_left in C1 by exact Ha. unfold radial_potential, Delta in C1, I1.
  assert (Z : 8 * a * E * L * q1 = 0) by lra.
  repeat (apply Rmult_integral in Z as [Z|Z]; try lra).
Qed.
(** an orbit that meets the hypotheses *)
Example C87_case (HX : SpecElliptic.special_spec X) : exists E L Q, constants_of_motion (Some (-1/2)) (Some 20) (Some (1/2)) (Some (1/2)) = Ret (Some E, Some L, Some Q) /\ L < 0.
Proof.
  rewrite constants_std. assert (S1 : spin_sign (-1/2) = -1) by (unfold spin_sign; destruct (Rlt_dec (-1/2) 0); lra). rewrite S1, Rabs_left by lra.
  replace (- (-1/2)) with (1/2) by field. replace (1/2 * -1) with (-1/2) by field.
  destruct (far_retrograde HX HR (1/2) 20 (1/2) (-1/2)) as (E & L & Q & _ & _ & _ & _ & HC & _); try lra. exists E, L, Q. split; [exact HC|].
  destruct (constants_correct HR (1/2) 20 (1/2) (-1/2) E L Q ltac:(lra) HC) as (_ & _ & _ & _ & _ & _ & T & _). apply T. lra.
Qed.
End S.
Print Assumptions C87_reversed_round_trip_partial.
Print Assumptions C87_refuted_negative_spin.

(** * Property C17: apex_from_constants inverts constants_of_motion *)
From Coq Require Import Reals Lra ZArith String List Psatz.
From Coquelicot Require Import Coquelicot.
From Verif Require Import Num Outcome External Checked ExternalSpec Spec Model_Units Model_Constants
  P_Validation SepPoly Props_Separatrix P_Bounds P_Poly P_Roots P_Schmidt P_Constants Props_Constants
  P_Stability P_Stability2 P_Stability3 P_Stability4 Props_Stability.
Import ListNotations.
Open Scope R_scope.

Section S.
Context {X : External R} (HX : root_spec X) (HP : polyroots_spec X).

Lemma real_of_roots_some (cs xs : list R) : polyroots cs = map (fun x => (x, 0)) xs ->
  real_of_roots (polyroots (map Some cs)) = Ret (map Some xs).
Proof.
  intros H. rewrite checked_polyroots_some. unfold real_of_roots.
  rewrite split_roots_some. rewrite H, split_all_real. reflexivity.
Qed.

Lemma constants_sorted_roots a p e x E L Q : 0 <= a -> e < 1 ->
  constants_of_motion (Some a) (Some p) (Some e) (Some x) = Ret (Some E, Some L, Some Q) ->
  exists r3 r4, 0 <= r4 <= 1 - sqrt (1 - a^2) /\ 1 + sqrt (1 - a^2) <= r3 < p / (1 + e) /\ p / (1 + e) <= p / (1 - e) /\
  real_of_roots (polyroots (radial_poly (Some a) (Some E) (Some L) (Some Q))) =
    Ret (map Some [r4; r3; p / (1 + e); p / (1 - e)]).
Proof.
  intros Ha He1 H0.
  destruct (C15_roots_defined HX a p e x E L Q None H0 He1 ltac:(auto)) as (r1 & r2 & r3 & r4 & _ & -> & -> & R4 & R3 & R21 & HF).
  destruct (C23_bound_orbits HX a p e x E L Q H0 He1) as (HE & HQ & _).
  pose proof (sqrt_pos (1 - a^2)) as S0. rewrite Rabs_right in HF by lra.
  exists r3, r4. refine (conj R4 (conj R3 (conj R21 _))).
  rewrite radial_poly_some. apply real_of_roots_some.
  set (r1 := p / (1 - e)) in *. set (r2 := p / (1 + e)) in *. clearbody r1 r2.
  pose proof (HF 0) as F0. pose proof (HF 1) as F1. pose proof (HF (-1)) as F2.
  pose proof (HF 2) as F3. pose proof (HF (-2)) as F4. unfold radial_potential, Delta in *.
  cbn [map]. unfold radial_poly. rnum.
  apply (poly4_real HP (E^2 - 1)); try lra. nra.
Qed.

Lemma constants_polar_roots a p e x E L Q : 0 <= a -> e < 1 ->
  constants_of_motion (Some a) (Some p) (Some e) (Some x) = Ret (Some E, Some L, Some Q) ->
  exists zp, polar_roots_of (Some a) (Some E) (Some L) (Some Q) = Ret (Some (1 - x^2), zp).
Proof.
  intros Ha He1 H0.
  destruct (orbit_equations HX a p e x E L Q Ha He1 H0) as (y & HR & HQ & HL & E1 & E2 & B1 & B2 & EP).
  destruct (C23_bound_orbits HX a p e x E L Q H0 He1) as (HE & HQ0 & _).
  pose proof (constants_correct HX a p e x E L Q Ha H0) as (_ & _ & _ & _ & _ & L1 & L2 & L3 & _).
  destruct (constants_bounds HX _ _ _ _ _ _ _ H0) as (_ & He & _ & Hq1 & _).
  unfold polar_roots_of. rewrite polar_poly_some.
  set (l := y + a * x * E) in *.
  change (neqb (Some a) (nZ 0)) with (Some (Reqb a 0)).
  destruct (Reqb_spec a 0) as [->|Ha0]; cbn [ifo].
  - assert (l <> 0).
    { intros K. rewrite K in *. assert (y = 0) by (unfold l in K; lra).
      rewrite H in E2. apply (f_equal (fun u => u)) in E2. revert E2. unfold P_.
      replace (0^2 * (1 - x^2) / (p / (1 + e))^2) with 0 by (unfold Rdiv; ring).
      pose proof (cc_ge e ltac:(lra)) as Hc. intros E2.
      assert (0 < 2 * (p / (1 + e)) * (cc e - 0) / (cc e + 1)); [|lra].
      apply Rdiv_lt_0_compat; [|lra]. apply Rmult_lt_0_compat; lra. }
    assert (L2' : 0 < l^2) by now apply pow2_gt_0.
    assert (EQ : polyroots (polar_poly 0 E L Q) = map (fun x => (x, 0)) [1 - x^2]).
    { cbn [map]. unfold polar_poly. rnum. apply (poly1_real HP (- (l^2))); rewrite ?HQ, ?HL; try ring. lra. }
    rewrite (real_of_roots_some _ _ EQ). cbn [bind map]. eauto.
  - assert (A2 : 0 < a^2) by (apply pow_lt; lra). assert (EE : 0 < 1 - E^2) by nra.
    assert (EQ : polyroots (polar_poly a E L Q) = map (fun x => (x, 0)) [1 - x^2; 1 + l^2 / (a^2 * (1 - E^2))]).
    { cbn [map]. unfold polar_poly. rnum. apply (poly2_real HP (a^2 * (1 - E^2))); rewrite ?HQ, ?HL.
      - apply Rgt_not_eq. apply Rmult_lt_0_compat; lra.
      - assert (0 <= x^2) by apply pow2_ge_0.
        assert (0 <= l^2 / (a^2 * (1 - E^2))); [|lra].
        apply Rmult_le_pos; [apply pow2_ge_0|]. left. apply Rinv_0_lt_compat. apply Rmult_lt_0_compat; lra.
      - field. split; lra.
      - field. split; lra.
      - ring. }
    rewrite (real_of_roots_some _ _ EQ). cbn [bind map unpack2]. eauto.
Qed.

(** every accepted non-parabolic orbit with non-negative spin, polar and equatorial ones included *)
Theorem C17_apex_inverts_constants : forall a p e x E L Q, 0 <= a -> e < 1 ->
  constants_of_motion (Some a) (Some p) (Some e) (Some x) = Ret (Some E, Some L, Some Q) ->
  apex_from_constants (Some a) (Some E) (Some L) (Some Q) = Ret (Some a, Some p, Some e, Some x).
Proof.
  intros a p e x E L Q Ha He1 H0.
  destruct (constants_sorted_roots a p e x E L Q Ha He1 H0) as (r3 & r4 & _ & _ & R21 & RR).
  destruct (constants_polar_roots a p e x E L Q Ha He1 H0) as (zp & PR).
  destruct (constants_bounds HX _ _ _ _ _ _ _ H0) as (_ & He & _ & Hq1 & _).
  pose proof (constants_correct HX a p e x E L Q Ha H0) as (_ & _ & _ & _ & _ & L1 & L2 & L3 & _).
  unfold apex_from_constants. rewrite RR. cbn [bind map unpack4]. rewrite PR. cbn [bind].
  assert (Hpp : p <> 0) by (intros ->; unfold Rdiv in Hq1; rewrite Rmult_0_l in Hq1; lra).
  set (r1 := p / (1 - e)) in *. set (r2 := p / (1 + e)) in *.
  assert (S0 : r1 + r2 <> 0) by lra.
  cnum. rewrite !(cdiv_some _ _ S0). cbv beta iota.
  replace (1 - (1 - x^2)) with (x^2) by ring. rewrite csqrt_some by apply pow2_ge_0.
  change (nsign (Some L)) with (Some (Rsgn L)). cbv beta iota.
  apply f_equal. repeat apply f_equal2; try reflexivity; apply f_equal.
  - unfold r1, r2 in *. field. repeat split; try lra; try assumption.
  - unfold r1, r2 in *. field. repeat split; try lra; try assumption.
  - rewrite <- Rsqr_pow2, sqrt_Rsqr_abs.
    destruct (Rtotal_order x 0) as [K|[K|K]].
    + rewrite Rsgn_neg, Rabs_left by auto. ring.
    + rewrite K, Rabs_R0. ring.
    + rewrite Rsgn_pos, Rabs_right by (auto || lra). ring.
Qed.
End S.

(** the hypotheses of C17, C23 and C15 hold for a circular equatorial orbit around a spinning
    hole (constants in Props_Constants.constants_example), and those of C21 for every spin *)
Example stability_example (X : External R) (HX : root_spec X) (HP : polyroots_spec X) :
  let E := 113 / (16 * sqrt 53) in
  let L := 1009 / (32 * sqrt 53) in
  apex_from_constants (Some (1/2)) (Some E) (Some L) (Some 0) = Ret (Some (1/2), Some 16, Some 0, Some 1) /\
  0 < E < 1 /\ exists s, separatrix (1/2) (1/4) (1/3) = Ret s.
Proof.
  cbv zeta. pose proof (constants_example X HX) as H. cbv zeta in H.
  split; [apply (C17_apex_inverts_constants HX HP); lra || exact H|].
  split; [apply (C23_bound_orbits HX) in H; [apply H|lra]|].
  destruct (separatrix_total HX (1/2) (1/4) (1/3)) as [s [Hs _]]; try lra. eauto.
Qed.

(** * C95: along circular equatorial orbits energy and angular momentum grow outwards, and dE = Omega dL *)
From Coq Require Import Reals Lra Lia ZArith String List.
From Coquelicot Require Import Coquelicot.
From Verif Require Import Num Outcome External Checked ExternalSpec.
From Verif Require Import Model_Constants Model_Frequencies Model_Stable.
From Verif Require Import Spec SpecElliptic Elliptic P_Validation Props_Validation P_Bounds P_Constants Props_Constants.
From Verif Require Import Props_Stability Props_Finite Props_Frequencies Props_Future Props_Restart Props_Circular Props_Continuity.
Open Scope R_scope.

(** energy and |angular momentum| as functions of z = sqrt p, with [a] standing for x a *)
Definition cD (a z : R) : R := z^4 - 3 * z^2 + 2 * a * z.
Definition cf (a z : R) : R := z^4 - 6 * z^2 + 8 * a * z - 3 * a^2.
Definition cE (a z : R) : R := (z^4 - 2 * z^2 + a * z) / (z^2 * sqrt (cD a z)).
Definition cL (a z : R) : R := z * (z^4 - 2 * a * z + a^2) / (z^2 * sqrt (cD a z)).
Definition crate (a z : R) : R := cf a z / (2 * z^2 * (cD a z * sqrt (cD a z))).

Section Calc.
Context (a : R).
Lemma sq_derive y : 0 < cD a y -> is_derive (fun z => sqrt (cD a z)) y ((2 * y^3 - 3 * y + a) / sqrt (cD a y)).
Proof.
  intros H. assert (S0 : 0 < sqrt (cD a y)) by now apply sqrt_lt_R0.
  replace ((2 * y^3 - 3 * y + a) / sqrt (cD a y)) with ((4 * y^3 - 6 * y + 2 * a) / (2 * sqrt (cD a y))) by (field; lra).
  apply (is_derive_sqrt (cD a)); [|exact H]. unfold cD. auto_derive; [trivial|]. ring.
Qed.
Lemma cE_dz y : y <> 0 -> 0 < cD a y -> is_derive (cE a) y (cf a y / (y * (cD a y * sqrt (cD a y)))).
Proof.
  intros N H. assert (S0 : 0 < sqrt (cD a y)) by now apply sqrt_lt_R0. assert (SS : sqrt (cD a y) ^2 = cD a y) by (apply pow2_sqrt; lra).
  pose proof (sq_derive y H) as D. unfold cE. set (sq := fun z => sqrt (cD a z)) in *.
  change (is_derive (fun z => (z^4 - 2 * z^2 + a * z) / (z^2 * sq z)) y (cf a y / (y * (cD a y * sq y)))).
  assert (D' : is_derive sq y ((2*y^3-3*y+a)/sq y)) by exact D. clear D. rename D' into D.
  change (sqrt (cD a y)) with (sq y) in *. assert (Y2 : 0 < y^2) by now apply pow2_gt_0.
  assert (K : cf a y = (3 * y^2 - 2) * (sq y)^2 - 3 * (y^3 - 2 * y + a)^2) by (rewrite SS; unfold cf, cD; ring).
  rewrite K. rewrite <- SS at 1. clear K. assert (Q : sq y ^2 = y^4 - 3 * y^2 + 2 * a * y) by (rewrite SS; reflexivity). clear SS. clearbody sq.
  auto_derive; [split; [eexists; exact D | split; [|trivial]]; apply Rgt_not_eq, Rmult_lt_0_compat; lra|].
  rewrite (is_derive_unique (fun x : R => sq x) y _ D). set (s := sq y) in *. clearbody s.
  match goal with |- ?u = ?v => change (@eq R u v) end.
  assert (G : 3 * y * (y^3 - 2 * y + a) = s^2 + (2 * y^4 - 3 * y^2 + a * y)) by (rewrite Q; ring).
  transitivity (((4 * y^3 - 4 * y + a) * y * s^2 - (y^3 - 2 * y + a) * (2 * y * s^2 + y^2 * (2 * y^3 - 3 * y + a))) / (y^3 * (s^2 * s))); [field; lra|].
  transitivity (((3 * y^2 - 2) * y * s^2 - (y^3 - 2 * y + a) * (s^2 + (2 * y^4 - 3 * y^2 + a * y))) / (y^2 * (s^2 * s))); [field; lra|].
  rewrite <- G. field. repeat split; lra.
Qed.
Lemma cL_dz y : y <> 0 -> 0 < cD a y -> is_derive (cL a) y ((y^3 + a) * (cf a y / (y * (cD a y * sqrt (cD a y))))).
Proof.
  intros N H. assert (S0 : 0 < sqrt (cD a y)) by now apply sqrt_lt_R0. assert (SS : sqrt (cD a y) ^2 = cD a y) by (apply pow2_sqrt; lra).
  pose proof (sq_derive y H) as D. unfold cL. set (sq := fun z => sqrt (cD a z)) in *.
  change (is_derive (fun z => z * (z^4 - 2 * a * z + a^2) / (z^2 * sq z)) y ((y^3 + a) * (cf a y / (y * (cD a y * sq y))))).
  assert (D' : is_derive sq y ((2*y^3-3*y+a)/sq y)) by exact D. clear D. rename D' into D.
  change (sqrt (cD a y)) with (sq y) in *. assert (Y2 : 0 < y^2) by now apply pow2_gt_0.
  assert (K : (y^3 + a) * cf a y * y = (3 * y^4 - a^2) * (sq y)^2 - (y^4 - 2 * a * y + a^2) * (2 * y^4 - 3 * y^2 + a * y)) by (rewrite SS; unfold cf, cD; ring).
  replace ((y^3 + a) * (cf a y / (y * (cD a y * sq y)))) with (((y^3 + a) * cf a y * y) / (y^2 * (cD a y * sq y))) by (field; repeat split; lra).
  rewrite K. rewrite <- SS at 1. clear K. assert (Q : sq y ^2 = y^4 - 3 * y^2 + 2 * a * y) by (rewrite SS; reflexivity). clear SS. clearbody sq.
  auto_derive; [split; [eexists; exact D | split; [|trivial]]; apply Rgt_not_eq, Rmult_lt_0_compat; lra|].
  rewrite (is_derive_unique (fun x : R => sq x) y _ D). set (s := sq y) in *. clearbody s.
  match goal with |- ?u = ?v => change (@eq R u v) end. field. lra.
Qed.

(** outside any point where the orbit is stable *)
Lemma outwards s s1 : -1 < a < 1 -> 1 < s1 -> 0 < cD a s1 -> 0 < cf a s1 -> s1 <= s -> 0 < cD a s /\ 0 < cf a s.
Proof.
  intros Ha H1 HD Hf Hs. split.
  - assert (G1 : 0 < s1^3 - 3 * s1 + 2 * a).
    { apply Rnot_le_lt. intros K. assert (0 <= s1 * - (s1^3 - 3 * s1 + 2 * a)) by (apply Rmult_le_pos; lra). unfold cD in HD. nra. }
    replace (cD a s) with (s * ((s1^3 - 3 * s1 + 2 * a) + (s - s1) * (s^2 + s * s1 + s1^2 - 3))) by (unfold cD; ring).
    apply Rmult_lt_0_compat; [lra|]. assert (0 <= (s - s1) * (s^2 + s * s1 + s1^2 - 3)) by (apply Rmult_le_pos; nra). lra.
  - set (f1 := 4 * s1^3 - 12 * s1 + 8 * a).
    assert (F1 : 0 < f1).
    { assert (Z : f1 * (s1 - 1) = cf a s1 + (1 - a) * (5 - 3 * a) + (s1 - 1)^2 * (1 + 2 * s1 + 3 * s1^2 - 6)) by (unfold f1, cf; ring).
      assert (0 <= (1 - a) * (5 - 3 * a)) by (apply Rmult_le_pos; lra).
      assert (0 <= (s1 - 1)^2 * (1 + 2 * s1 + 3 * s1^2 - 6)) by (apply Rmult_le_pos; nra).
      apply Rnot_le_lt. intros K. assert (0 <= - f1 * (s1 - 1)) by (apply Rmult_le_pos; lra). lra. }
    replace (cf a s) with (cf a s1 + f1 * (s - s1) + (s - s1)^2 * (s^2 + 2 * s1 * s + 3 * s1^2 - 6)) by (unfold cf, f1; ring).
    assert (0 <= f1 * (s - s1)) by (apply Rmult_le_pos; lra).
    assert (0 <= (s - s1)^2 * (s^2 + 2 * s1 * s + 3 * s1^2 - 6)) by (apply Rmult_le_pos; nra). lra.
Qed.
Lemma cE_cL_increase s1 s2 : -1 < a < 1 -> 1 < s1 -> 0 < cD a s1 -> 0 < cf a s1 -> s1 < s2 -> cE a s1 < cE a s2 /\ cL a s1 < cL a s2.
Proof.
  intros Ha H1 HD Hf Hs.
  assert (O : forall s, s1 <= s <= s2 -> s <> 0 /\ 0 < cD a s /\ 0 < cf a s / (s * (cD a s * sqrt (cD a s))) /\ 0 < s^3 + a).
  { intros s Bs. destruct (outwards s s1 Ha H1 HD Hf (proj1 Bs)) as (D & F). refine (conj _ (conj D (conj _ _))); [lra| |].
    - apply Rdiv_lt_0_compat; [exact F|]. apply Rmult_lt_0_compat; [lra|]. apply Rmult_lt_0_compat; [exact D|]. now apply sqrt_lt_R0.
    - assert (1 < s) by lra. assert (1 < s * s) by nra. assert (1 < s * (s * s)) by nra. replace (s^3) with (s * (s * s)) by ring. lra. }
  assert (M : forall f g, (forall s, s1 <= s <= s2 -> is_derive f s (g s)) -> (forall s, s1 <= s <= s2 -> 0 < g s) -> f s1 < f s2).
  { intros f g D P. destruct (MVT_gen f s1 s2 g) as (s & Bs & Es).
    - intros s. rewrite Rmin_left, Rmax_right by lra. intros; apply D; lra.
    - intros s. rewrite Rmin_left, Rmax_right by lra. intros Bs. apply continuity_pt_filterlim.
      apply (ex_derive_continuous f). eexists. apply D. exact Bs.
    - rewrite Rmin_left, Rmax_right in Bs by lra. assert (0 < g s * (s2 - s1)) by (apply Rmult_lt_0_compat; [now apply P | lra]). lra. }
  split.
  - apply (M _ (fun s => cf a s / (s * (cD a s * sqrt (cD a s))))); intros s Bs; destruct (O s Bs) as (A1 & A2 & A3 & A4); [now apply cE_dz | exact A3].
  - apply (M _ (fun s => (s^3 + a) * (cf a s / (s * (cD a s * sqrt (cD a s)))))); intros s Bs; destruct (O s Bs) as (A1 & A2 & A3 & A4);
      [now apply cL_dz | now apply Rmult_lt_0_compat].
Qed.
End Calc.

Section S.
Context {X : External R} (HX : special_spec X) (HR : root_spec X).

Lemma mino_of_fundamental a p e x wr wth wph :
  fundamental_frequencies (Some a) (Some p) (Some e) (Some x) = Ret (Some wr, Some wth, Some wph) ->
  exists ur uth uph gam, mino_frequencies (Some a) (Some p) (Some e) (Some x) = Ret (Some ur, Some uth, Some uph, Some gam).
Proof.
  unfold fundamental_frequencies, mino_frequencies. intros H.
  destruct (constants_of_motion (Some a) (Some p) (Some e) (Some x)) as [c| |]; [cbn [bind] in *|discriminate|discriminate].
  destruct (r_frequency (Some a) (Some p) (Some e) (Some x) (Some c)) as [ur| |]; [cbn [bind] in *|discriminate|discriminate].
  destruct (theta_frequency (Some a) (Some p) (Some e) (Some x) (Some c)) as [uth| |]; [cbn [bind] in *|discriminate|discriminate].
  destruct (phi_frequency (Some a) (Some p) (Some e) (Some x) (Some c) (Some ur) (Some uth)) as [uph| |]; [cbn [bind] in *|discriminate|discriminate].
  destruct (gamma (Some a) (Some p) (Some e) (Some x) (Some c) (Some ur) (Some uth)) as [gam| |]; [cbn [bind] in *|discriminate|discriminate].
  apply Ret_inj in H. apply pair_equal_spec in H as [H H3]. apply pair_equal_spec in H as [H1 H2].
  destruct ur as [ur|]; [|discriminate]. destruct uth as [uth|]; [|discriminate]. destruct uph as [uph|]; [|discriminate]. destruct gam as [gam|]; [|discriminate].
  now exists ur, (Rabs uth), uph, gam.
Qed.

(** the constants of every accepted circular equatorial orbit *)
Lemma circ_std a p x E L Q : 0 <= a -> x = 1 \/ x = -1 ->
  constants_of_motion (Some a) (Some p) (Some 0) (Some x) = Ret (Some E, Some L, Some Q) ->
  let c := x * a in let s := sqrt p in
  a < 1 /\ 1 < p /\ 0 < cD c s /\ 0 < cf c s /\ E = cE c s /\ L = x * cL c s.
Proof.
  intros Ha Hx HC c s. destruct (constants_inv _ _ _ _ _ _ _ Ha HC) as [HCK _].
  destruct (accepted_bounds HR a p 0 x Ha HCK) as (Ha1 & He & _ & Hr2 & HD & _ & _).
  assert (He1 : 0 < 1) by lra.
  destruct (C15_roots_defined HR a p 0 x E L Q (Some (Some E, Some L, Some Q)) HC He1 (or_intror eq_refl))
    as (s1 & s2 & s3 & s4 & _ & Q1 & Q2 & R4 & R3 & R21 & F).
  destruct (C23_bound_orbits HR a p 0 x E L Q HC He1) as (HE & HQ & _).
  rewrite (Rabs_pos_eq a Ha) in F.
  replace (p / (1 + 0)) with p in Q2 by field. replace (p / (1 - 0)) with p in Q1 by field.
  pose proof (C12_equatorial a p 0 x E L Q Hx HC) as Q0.
  assert (SQ : 0 < sqrt (1 - a^2)) by (apply sqrt_lt_R0; nra).
  assert (SS : sqrt (1 - a^2) ^2 = 1 - a^2) by (apply pow2_sqrt; nra).
  assert (P1 : 1 + sqrt (1 - a^2) < p) by lra.
  assert (DP : 0 < Delta a p) by (unfold Delta; nra).
  assert (PP : 0 < E * (p^2 + a^2) - a * L).
  { apply (P_pos a E L Q s1 s2 s3 s4); try assumption; try lra; [nra|]. rewrite Q2. exact DP. }
  destruct (C13_turning_points HR a p 0 x E L Q HC) as (_ & _ & T & _). rewrite (Rabs_pos_eq a Ha) in T. destruct (T eq_refl) as (T1 & T2).
  assert (H2 : 2 * p * E * (E * (p^2 + a^2) - a * L) = (p - 1) * (p^2 + (L - a * E)^2) + p * Delta a p).
  { assert (D : is_derive (radial_potential a E L Q) p
     (4 * E * p * (E * (p^2 + a^2) - a * L) - (2 * p - 2) * (p^2 + (L - a * E)^2 + Q) - Delta a p * (2 * p))).
    { unfold radial_potential, Delta. auto_derive; [trivial|]. ring. }
    pose proof (is_derive_unique _ _ _ D) as U1. pose proof (is_derive_unique _ _ _ T2) as U2. rewrite U1, Q0 in U2. lra. }
  assert (H1 : (E * (p^2 + a^2) - a * L)^2 = Delta a p * (p^2 + (L - a * E)^2)).
  { unfold radial_potential in T1. rewrite Q0 in T1. lra. }
  destruct (circular_algebra a E L p ltac:(lra) ltac:(lra) DP PP H1 H2) as (w' & u & W2 & U0 & UU & PU & YU & EU & LU & S1 & S2).
  set (w := x * s).
  assert (SG : spin_sign a = 1) by (unfold spin_sign; destruct (Rlt_dec a 0); lra).
  destruct (C14_polar_turning_point HR a p 0 x E L Q HC) as (_ & X1 & X2 & _). rewrite SG, Rmult_1_r in X1, X2.
  assert (w' = w) as ->.
  { unfold w. destruct Hx as [-> | ->]; [rewrite S1 by (apply X1; lra) | rewrite S2 by (apply X2; lra)]; unfold s; ring. }
  assert (s0 : 0 < s) by (apply sqrt_lt_R0; lra). assert (s2' : s^2 = p) by (apply pow2_sqrt; lra).
  assert (X2' : x^2 = 1) by (destruct Hx as [-> | ->]; ring).
  assert (CW : c * s = a * w) by (unfold c, w; ring).
  assert (CC : c^2 = a^2) by (unfold c; rewrite Rpow_mult_distr, X2'; ring).
  assert (DZ : cD c s = p^2 - 3 * p + 2 * a * w).
  { unfold cD. replace (2 * c * s) with (2 * (c * s)) by ring. rewrite CW, <- s2'. ring. }
  rewrite <- DZ in UU.
  assert (U2 : 0 < u^2) by (apply pow_lt; lra). assert (P2 : 0 < p^2) by (apply pow_lt; lra).
  assert (ZP : 0 < cD c s). { apply Rnot_le_lt. intros K. assert (0 <= u^2 * - cD c s) by (apply Rmult_le_pos; lra). lra. }
  assert (SD : 0 < sqrt (cD c s)) by now apply sqrt_lt_R0. assert (SD2 : sqrt (cD c s) ^2 = cD c s) by (apply pow2_sqrt; lra).
  assert (EUU : u = p / sqrt (cD c s)).
  { assert (I : (u * sqrt (cD c s))^2 = p^2) by (rewrite Rpow_mult_distr, SD2; exact UU).
    assert (0 < u * sqrt (cD c s)) by now apply Rmult_lt_0_compat.
    assert (u * sqrt (cD c s) = p) by nra. apply (Rmult_eq_reg_r (sqrt (cD c s))); [|lra]. rewrite H0. field. lra. }
  refine (conj _ (conj _ (conj ZP (conj _ (conj _ _))))); [lra | lra | | |].
  - assert (W0 : w <> 0) by (intros K; rewrite K in W2; lra).
    assert (V : (1 - E^2) * (p - s3) * (p - s4) = - (radial_potential a E L 0 (p + 1) + radial_potential a E L 0 (p - 1)) / 2 - (1 - E^2)).
    { rewrite Q0 in F. rewrite !F, Q1, Q2. field. }
    assert (V0 : 0 < (1 - E^2) * (p - s3) * (p - s4)).
    { apply Rmult_lt_0_compat; [apply Rmult_lt_0_compat|]; [nra | lra | lra]. }
    rewrite V, EU, LU in V0. unfold radial_potential, Delta in V0.
    assert (UN : 1 - u^2 * (p^2 - 3 * p + 2 * a * w) / p^2 = 0) by (rewrite <- DZ, UU; field; lra).
    set (S0 := ((p + 1)^2 - 2 * (p + 1) + a^2) * (p + 1)^2 / 2 + ((p - 1)^2 - 2 * (p - 1) + a^2) * (p - 1)^2 / 2 - 1).
    match type of V0 with 0 < ?lhs => assert (I : lhs = u^2 * p * (1 - 6 / p + 8 * a * w / p^2 - 3 * a^2 / p^2) + S0 * (1 - u^2 * (p^2 - 3 * p + 2 * a * w) / p^2)) end.
    { unfold S0. clear - W0 W2. rewrite <- W2. clearbody w. field. exact W0. }
    rewrite I, UN in V0.
    assert (CF : cf c s = p^2 * (1 - 6 / p + 8 * a * w / p^2 - 3 * a^2 / p^2)).
    { unfold cf. replace (8 * c * s) with (8 * (c * s)) by ring. rewrite CW, CC, <- s2'. field. lra. }
    rewrite CF. apply Rmult_lt_0_compat; [exact P2|].
    apply Rnot_le_lt. intros K. assert (0 <= (u^2 * p) * - (1 - 6 / p + 8 * a * w / p^2 - 3 * a^2 / p^2)) by (apply Rmult_le_pos; [apply Rmult_le_pos|]; lra). lra.
  - rewrite EU, EUU. unfold cE. rewrite CW. replace (s^4) with ((s^2)^2) by ring. rewrite s2'. field. lra.
  - rewrite LU, EUU. unfold cL, w. replace (2 * c * s) with (2 * (c * s)) by ring. rewrite CW, CC. unfold w. replace (s^4) with ((s^2)^2) by ring. rewrite s2'. field. lra.
Qed.
Lemma circ a p x E L Q : x = 1 \/ x = -1 ->
  constants_of_motion (Some a) (Some p) (Some 0) (Some x) = Ret (Some E, Some L, Some Q) ->
  let c := x * a in let s := sqrt p in
  -1 < c < 1 /\ 1 < s /\ s^2 = p /\ 0 < cD c s /\ 0 < cf c s /\ E = cE c s /\ L = x * spin_sign a * cL c s.
Proof.
  intros Hx HC c s. rewrite constants_std in HC.
  assert (Hy : x * spin_sign a = 1 \/ x * spin_sign a = -1). { unfold spin_sign. destruct (Rlt_dec a 0), Hx as [-> | ->]; lra. }
  assert (YB : x * spin_sign a * Rabs a = c).
  { unfold c, spin_sign. destruct (Rlt_dec a 0); [rewrite Rabs_left by lra | rewrite Rabs_pos_eq by lra]; ring. }
  destruct (circ_std _ _ _ _ _ _ (Rabs_pos a) Hy HC) as (A1 & P1 & A2). rewrite YB in A2. fold s in A2. destruct A2 as (A2 & A3 & A4 & A5).
  refine (conj _ (conj _ (conj _ (conj A2 (conj A3 (conj A4 A5)))))).
  - rewrite <- YB. pose proof (Rabs_pos a). destruct Hy as [-> | ->]; lra.
  - unfold s. rewrite <- sqrt_1. apply sqrt_lt_1; lra.
  - apply pow2_sqrt; lra.
Qed.
Lemma cL_pos c s : -1 < c < 1 -> 1 < s -> 0 < cD c s -> 0 < cL c s.
Proof.
  intros Hc Hs HD. unfold cL. apply Rdiv_lt_0_compat.
  - apply Rmult_lt_0_compat; [lra|]. assert (1 < s * s) by nra. assert (s < s * (s * s)) by nra. assert (s * s < s * (s * (s * s))) by nra.
    replace (s^4) with (s * (s * (s * s))) by ring. nra.
  - apply Rmult_lt_0_compat; [apply pow_lt; lra | now apply sqrt_lt_R0].
Qed.

(** ** C95 (monotonicity): of two accepted circular equatorial orbits of the same spin and
    direction, the wider one has the larger energy and the larger angular momentum *)
Theorem C95_grows_outwards a x p1 E1 L1 Q1 p2 E2 L2 Q2 : x = 1 \/ x = -1 ->
  constants_of_motion (Some a) (Some p1) (Some 0) (Some x) = Ret (Some E1, Some L1, Some Q1) ->
  constants_of_motion (Some a) (Some p2) (Some 0) (Some x) = Ret (Some E2, Some L2, Some Q2) ->
  p1 < p2 -> E1 < E2 /\ Rabs L1 < Rabs L2.
Proof.
  intros Hx H1 H2 Hp.
  destruct (circ _ _ _ _ _ _ Hx H1) as (A & B1 & C1 & D1 & F1 & -> & ->). destruct (circ _ _ _ _ _ _ Hx H2) as (_ & B2 & C2 & D2 & F2 & -> & ->).
  assert (Sl : sqrt p1 < sqrt p2) by (apply sqrt_lt_1; nra).
  destruct (cE_cL_increase _ _ _ A B1 D1 F1 Sl) as (I1 & I2). split; [exact I1|].
  rewrite !Rabs_mult. assert (Y : Rabs x * Rabs (spin_sign a) = 1).
  { rewrite <- Rabs_mult. unfold spin_sign. destruct (Rlt_dec a 0), Hx as [-> | ->];
      match goal with |- Rabs ?t = 1 => first [replace t with 1 by ring; apply Rabs_R1 | replace t with (-1) by ring; rewrite Rabs_left; lra] end. }
  rewrite Y, !Rmult_1_l, !Rabs_pos_eq by (left; now apply cL_pos). exact I2.
Qed.
Corollary C95_no_two_orbits_share_an_energy a x p1 E1 L1 Q1 p2 E2 L2 Q2 : x = 1 \/ x = -1 ->
  constants_of_motion (Some a) (Some p1) (Some 0) (Some x) = Ret (Some E1, Some L1, Some Q1) ->
  constants_of_motion (Some a) (Some p2) (Some 0) (Some x) = Ret (Some E2, Some L2, Some Q2) ->
  (E1 = E2 \/ L1 = L2) -> p1 = p2.
Proof.
  intros Hx H1 H2 K. destruct (Rtotal_order p1 p2) as [H|[H|H]]; [|assumption|]; exfalso.
  - destruct (C95_grows_outwards _ _ _ _ _ _ _ _ _ _ Hx H1 H2 H). destruct K as [K|K]; [|rewrite K in *]; lra.
  - destruct (C95_grows_outwards _ _ _ _ _ _ _ _ _ _ Hx H2 H1 H). destruct K as [K|K]; [|rewrite K in *]; lra.
Qed.

(** ** C95 (first law): E and L are differentiable along the family and dE = Omega dL, Omega the
    azimuthal frequency the package returns *)
Lemma diff_quotients (g : R -> R) p v (pn : nat -> R) : is_derive g p v -> (forall n, pn n <> p) -> is_lim_seq pn p ->
  is_lim_seq (fun n => (g (pn n) - g p) / (pn n - p)) v.
Proof.
  intros D N Lm. apply is_derive_Reals in D.
  intros P HP. apply is_lim_seq_spec in Lm. destruct HP as [eps HP].
  destruct (D (pos eps) (cond_pos eps)) as [del Hd]. destruct (Lm del) as [M HM]. exists M. intros n Hn. apply HP.
  change (Rabs ((g (pn n) - g p) / (pn n - p) - v) < pos eps).
  specialize (Hd (pn n - p) (Rminus_eq_contra _ _ (N n)) (HM n Hn)). replace (p + (pn n - p)) with (pn n) in Hd by ring. exact Hd.
Qed.
Theorem C95_first_law a x p E L Q wr wth W : x = 1 \/ x = -1 ->
  constants_of_motion (Some a) (Some p) (Some 0) (Some x) = Ret (Some E, Some L, Some Q) ->
  fundamental_frequencies (Some a) (Some p) (Some 0) (Some x) = Ret (Some wr, Some wth, Some W) ->
  exists E' L', 0 < E' /\ E' = W * L' /\
  forall pn En Ln Qn : nat -> R, (forall n, pn n <> p) -> is_lim_seq pn p ->
  (forall n, constants_of_motion (Some a) (Some (pn n)) (Some 0) (Some x) = Ret (Some (En n), Some (Ln n), Some (Qn n))) ->
  is_lim_seq (fun n => (En n - E) / (pn n - p)) E' /\ is_lim_seq (fun n => (Ln n - L) / (pn n - p)) L'.
Proof.
  intros Hx HC HW.
  destruct (mino_of_fundamental _ _ _ _ _ _ _ HW) as (ur & uth & uph & gam & HF).
  destruct (C69_circular_equatorial HX HR a p x ur uth uph gam Hx HF) as (_ & _ & _ & wr' & wth' & FW & _).
  rewrite HW in FW. apply Ret_inj in FW. assert (FW' : W = x * spin_sign a / (p * sqrt p + x * a)) by congruence. clear FW. rename FW' into FW.
  destruct (circ _ _ _ _ _ _ Hx HC) as (A & B & C & D & F & -> & ->). set (c := x * a) in *. set (s := sqrt p) in *.
  set (v := cf c s / (s * (cD c s * sqrt (cD c s)))). set (y := x * spin_sign a).
  assert (HW' : W = y / (s^3 + c)) by (rewrite FW; fold s c y; rewrite <- C; f_equal; ring).
  assert (Y2 : y * y = 1). { unfold y, spin_sign. destruct (Rlt_dec a 0), Hx as [-> | ->]; ring. }
  assert (S3 : 0 < s^3 + c). { assert (1 < s * s) by nra. assert (1 < s * (s * s)) by nra. replace (s^3) with (s * (s * s)) by ring. lra. }
  assert (Ds : is_derive sqrt p (/ (2 * s))). { apply is_derive_Reals, derivable_pt_lim_sqrt. nra. }
  exists (/ (2 * s) * v), (y * (/ (2 * s) * ((s^3 + c) * v))). refine (conj _ (conj _ _)).
  - apply Rmult_lt_0_compat; [apply Rinv_0_lt_compat; lra|]. unfold v. apply Rdiv_lt_0_compat; [exact F|].
    apply Rmult_lt_0_compat; [lra|]. apply Rmult_lt_0_compat; [exact D | now apply sqrt_lt_R0].
  - rewrite HW'. transitivity ((y * y) * (/ (2 * s) * v)); [rewrite Y2; ring|]. field. lra.
  - intros pn En Ln Qn N Lm HCn.
    assert (DE : is_derive (fun q => cE c (sqrt q)) p (/ (2 * s) * v)).
    { apply (is_derive_comp (cE c) sqrt p); [|exact Ds]. apply cE_dz; [fold s; lra | exact D]. }
    assert (DL : is_derive (fun q => cL c (sqrt q)) p (/ (2 * s) * ((s^3 + c) * v))).
    { apply (is_derive_comp (cL c) sqrt p); [|exact Ds]. apply cL_dz; [fold s; lra | exact D]. }
    split.
    + apply (is_lim_seq_ext (fun n => (cE c (sqrt (pn n)) - cE c (sqrt p)) / (pn n - p))).
      { intros n. destruct (circ _ _ _ _ _ _ Hx (HCn n)) as (_ & _ & _ & _ & _ & -> & _). reflexivity. }
      now apply (diff_quotients (fun q => cE c (sqrt q))).
    + apply (is_lim_seq_ext (fun n => y * ((cL c (sqrt (pn n)) - cL c (sqrt p)) / (pn n - p)))).
      { intros n. destruct (circ _ _ _ _ _ _ Hx (HCn n)) as (_ & _ & _ & _ & _ & _ & ->). fold c s y. unfold Rdiv. ring. }
      apply (is_lim_seq_scal_l _ y (Finite _)). now apply (diff_quotients (fun q => cL c (sqrt q))).
Qed.

(** the hypotheses are met: retrograde circular orbits around a hole of spin 1/2, and the
    sequence p_n = 16 + 1/(n+1) *)
Example C95_case : exists E L Q wr wth W En Ln Qn,
  constants_of_motion (Some (1/2)) (Some 16) (Some 0) (Some (-1)) = Ret (Some E, Some L, Some Q) /\
  fundamental_frequencies (Some (1/2)) (Some 16) (Some 0) (Some (-1)) = Ret (Some wr, Some wth, Some W) /\
  (forall n, constants_of_motion (Some (1/2)) (Some (16 + / (INR n + 1))) (Some 0) (Some (-1)) = Ret (Some (En n), Some (Ln n), Some (Qn n))) /\
  is_lim_seq (fun n => 16 + / (INR n + 1)) 16 /\ (forall n, E < En n).
Proof.
  destruct (far_retrograde HX HR (1/2) 16 0 (-1)) as (E & L & Q & ur & uth & uph & gam & HC & HF); try lra.
  destruct (C65_fundamental_frequencies HX HR _ _ _ _ _ _ _ _ HF) as (_ & FF & _).
  assert (P : forall n, 0 < / (INR n + 1)) by (intros n; apply Rinv_0_lt_compat; pose proof (pos_INR n); lra).
  assert (HN : forall n, exists En Ln Qn, constants_of_motion (Some (1/2)) (Some (16 + / (INR n + 1))) (Some 0) (Some (-1)) = Ret (Some En, Some Ln, Some Qn)).
  { intros n. specialize (P n). destruct (far_retrograde HX HR (1/2) (16 + / (INR n + 1)) 0 (-1)) as (E' & L' & Q' & _ & _ & _ & _ & HC' & _); try lra. now exists E', L', Q'. }
  set (g := fun n => match constants_of_motion (Some (1/2)) (Some (16 + / (INR n + 1))) (Some 0) (Some (-1)) with Ret (Some u, Some v, Some w) => (u, v, w) | _ => (0, 0, 0) end).
  exists E, L, Q, (ur / gam), (uth / gam), (uph / gam), (fun n => fst (fst (g n))), (fun n => snd (fst (g n))), (fun n => snd (g n)).
  refine (conj HC (conj FF (conj _ (conj _ _)))).
  - intros n. unfold g. destruct (HN n) as (u & v & w & K). rewrite K. reflexivity.
  - replace (Finite 16) with (Finite (16 + 0)) by (f_equal; ring). apply is_lim_seq_plus'; [apply is_lim_seq_const|].
    apply (is_lim_seq_inv _ p_infty); [|discriminate]. apply (is_lim_seq_ext (fun n => INR (S n))); [intros n; apply S_INR|].
    apply -> (is_lim_seq_incr_1 INR). apply is_lim_seq_INR.
  - intros n. unfold g. destruct (HN n) as (u & v & w & K). rewrite K. cbn [fst snd].
    apply (C95_grows_outwards _ _ _ _ _ _ _ _ _ _ (or_intror eq_refl) HC K). specialize (P n). lra.
Qed.
End S.

(** * C69: circular equatorial orbits have the textbook energy, angular momentum and frequencies *)
From Coq Require Import Reals Lra Lia ZArith String List.
From Coquelicot Require Import Coquelicot.
From Verif Require Import Num Outcome External Checked ExternalSpec.
From Verif Require Import Model_Constants Model_Frequencies Model_Stable Model_Orbit.
From Verif Require Import Spec SpecElliptic Elliptic P_Validation Props_Validation P_Bounds P_Constants Props_Constants.
From Verif Require Import P_Radial P_Polar P_Traj P_Traj2 P_Traj3 P_Traj4 Props_Trajectory Props_Trajectory2.
From Verif Require Import Props_Stability Props_Finite Props_Frequencies Props_Units Props_Future Props_Restart Props_Symmetry.
Import ListNotations.
Open Scope R_scope.

(** the algebra of circular equatorial orbits (Bardeen, Press, Teukolsky 1972) *)
Lemma circular_algebra a E L p : 0 <= a < 1 -> 1 < p -> 0 < Delta a p ->
  let P := E * (p^2 + a^2) - a * L in let Y := L - a * E in
  0 < P -> P^2 = Delta a p * (p^2 + Y^2) ->
  2 * p * E * P = (p - 1) * (p^2 + Y^2) + p * Delta a p ->
  exists w u, w^2 = p /\ 0 < u /\ u^2 * (p^2 - 3 * p + 2 * a * w) = p^2 /\
  P = u * Delta a p /\ Y = (w - a) * u /\
  E = u * (p^2 - 2 * p + a * w) / p^2 /\ L = u * w * (p^2 - 2 * a * w + a^2) / p^2 /\
  (0 < L -> w = sqrt p) /\ (L < 0 -> w = - sqrt p).
Proof.
  intros Ha Hp HD P Y HP H1 H2. set (D := Delta a p) in *.
  assert (DD : D = p^2 - 2 * p + a^2) by reflexivity.
  assert (EP : E * p^2 = P + a * Y) by (unfold P, Y; ring).
  (* (a P + Y D)^2 = p P^2 *)
  assert (H3 : 2 * (P^2 + a * Y * P) = p * ((p - 1) * (p^2 + Y^2) + p * D)).
  { rewrite <- H2. replace (p * (2 * p * E * P)) with (2 * P * (E * p^2)) by ring. rewrite EP. ring. }
  assert (H4 : (a * P + Y * D)^2 = p * P^2).
  { assert (D * ((p^2 + Y^2) * (p - a^2) - (2 * (P^2 + a * Y * P) - 2 * P^2) - Y^2 * D) = p * P^2 - (a * P + Y * D)^2).
    { replace (D * ((p^2 + Y^2) * (p - a^2) - (2 * (P^2 + a * Y * P) - 2 * P^2) - Y^2 * D)) with
        ((D * (p^2 + Y^2)) * (p - a^2) - 2 * a * Y * P * D - Y^2 * D^2) by ring. rewrite <- H1. ring. }
    rewrite H3, H1 in H.
    assert (Z : (p^2 + Y^2) * (p - a^2) - (p * ((p - 1) * (p^2 + Y^2) + p * D) - 2 * (D * (p^2 + Y^2))) - Y^2 * D = 0) by (rewrite DD; ring).
    rewrite Z, <- H1 in H. lra. }
  set (u := P / D). assert (U0 : 0 < u) by (apply Rdiv_lt_0_compat; assumption).
  assert (PU : P = u * D) by (unfold u; field; lra).
  set (q := sqrt p). assert (Q2 : q^2 = p) by (apply pow2_sqrt; lra). assert (Q0 : 1 < q) by (rewrite <- sqrt_1; apply sqrt_lt_1; lra).
  assert (W : exists w, w^2 = p /\ a * u + Y = w * u /\ (w = q \/ w = - q)).
  { assert (Z : (a * u + Y - q * u) * (a * u + Y + q * u) = 0).
    { assert (D^2 * ((a * u + Y)^2 - p * u^2) = 0).
      { replace (D^2 * ((a * u + Y)^2 - p * u^2)) with ((a * (u * D) + Y * D)^2 - p * (u * D)^2) by ring. rewrite <- PU. lra. }
      apply Rmult_integral in H as [H|H]; [exfalso; assert (0 < D^2) by (apply pow_lt; lra); lra|].
      rewrite <- Q2 in H. replace ((a * u + Y - q * u) * (a * u + Y + q * u)) with ((a * u + Y)^2 - q^2 * u^2) by ring. exact H. }
    apply Rmult_integral in Z as [Z|Z].
    - exists q. repeat split; [exact Q2 | lra | now left].
    - exists (- q). repeat split; [rewrite <- Q2; ring | lra | now right]. }
  destruct W as (w & W2 & WY & WQ). assert (YU : Y = (w - a) * u) by lra.
  exists w, u.
  assert (EU : E = u * (p^2 - 2 * p + a * w) / p^2).
  { apply (Rmult_eq_reg_r (p^2)); [|apply Rgt_not_eq, pow_lt; lra]. rewrite EP, PU, YU, DD. field. lra. }
  assert (LU : L = u * w * (p^2 - 2 * a * w + a^2) / p^2).
  { replace L with (Y + a * E) by (unfold Y; ring). rewrite YU, EU. rewrite <- W2. field. intros K. rewrite K in W2. lra. }
  assert (POS : 0 < p^2 - 2 * a * w + a^2).
  { assert (q < p) by (rewrite <- Q2; nra). destruct WQ as [-> | ->]; nra. }
  assert (SG : 0 < u * (p^2 - 2 * a * w + a^2) / p^2).
  { apply Rdiv_lt_0_compat; [apply Rmult_lt_0_compat; lra | apply pow_lt; lra]. }
  assert (LW : L = w * (u * (p^2 - 2 * a * w + a^2) / p^2)) by (rewrite LU; field; lra).
  refine (conj W2 (conj U0 (conj _ (conj PU (conj YU (conj EU (conj LU (conj _ _)))))))).
  - rewrite PU, YU in H1.
    assert (Z : D * (u^2 * D - (p^2 + ((w - a) * u)^2)) = 0) by lra.
    apply Rmult_integral in Z as [Z|Z]; [lra|].
    replace (u^2 * (p^2 - 3 * p + 2 * a * w)) with (u^2 * D - ((w - a) * u)^2 + u^2 * (w^2 - p)) by (rewrite DD; ring). rewrite W2. lra.
  - intros K. destruct WQ as [Z|Z]; [exact Z|]. exfalso. rewrite LW, Z in K.
    assert (0 < q * (u * (p^2 - 2 * a * - q + a^2) / p^2)) by (rewrite Z in SG; apply Rmult_lt_0_compat; lra). lra.
  - intros K. destruct WQ as [Z|Z]; [|exact Z]. exfalso. rewrite LW, Z in K.
    assert (0 < q * (u * (p^2 - 2 * a * q + a^2) / p^2)) by (rewrite Z in SG; apply Rmult_lt_0_compat; lra). lra.
Qed.

(** the average rate of a uniformly growing function *)
Lemma uniform_rate (f : R -> R) c g C : (forall l, is_derive f l c) -> (forall l, Rabs (f l - g * l) <= C) -> g = c.
Proof.
  intros D B. assert (Fl : forall l, f l = f 0 + c * l).
  { apply (same_ode _ _ (fun _ => c)); [exact D| |ring]. intros l. auto_derive; [trivial|]. ring. }
  assert (C0 : 0 <= C) by (pose proof (Rabs_pos (f 0 - g * 0)); specialize (B 0); lra).
  pose proof (B 0) as B0. apply Rabs_le_between in B0.
  destruct (Rtotal_order g c) as [H|[H|H]]; [|assumption|]; exfalso.
  - set (l := (2 * C + 1) / (c - g)). assert ((c - g) * l = 2 * C + 1) by (unfold l; field; lra).
    pose proof (B l) as B1. rewrite Fl in B1. apply Rabs_le_between in B1. lra.
  - set (l := (2 * C + 1) / (g - c)). assert ((g - c) * l = 2 * C + 1) by (unfold l; field; lra).
    pose proof (B l) as B1. rewrite Fl in B1. apply Rabs_le_between in B1. lra.
Qed.

Section S.
Context {X : External R} (HX : special_spec X) (HR : root_spec X).

(** circular: r is constant; equatorial: theta is pi/2 *)
Theorem C69_degenerate_motion a p e x ur uth uph gam : 0 <= a ->
  mino_frequencies (Some a) (Some p) (Some e) (Some x) = Ret (Some ur, Some uth, Some uph, Some gam) ->
  forall qt qr qth qph t r theta phi,
  runs_as (stable_trajectory (Some a) (Some p) (Some e) (Some x) (Some qt, Some qr, Some qth, Some qph) None "natural" "natural")
    t r theta phi ->
  (e = 0 -> forall l, r l = p) /\ (x^2 = 1 -> forall l, theta l = PI / 2) /\
  (e = 0 -> x^2 = 1 -> forall l, t l = qt + gam * l /\ phi l = qph + uph * l).
Proof.
  intros Ha HF qt qr qth qph t r theta phi H.
  assert (RC : e = 0 -> forall l, r l = p).
  { intros -> l. destruct (C25_bound_motion HX HR _ _ _ _ _ _ _ _ Ha HF _ _ _ _ _ _ _ _ H l) as (B & _).
    replace (p / (1 + 0)) with p in B by field. replace (p / (1 - 0)) with p in B by field. lra. }
  assert (TC : x^2 = 1 -> forall l, theta l = PI / 2).
  { intros Hx l. destruct (C25_bound_motion HX HR _ _ _ _ _ _ _ _ Ha HF _ _ _ _ _ _ _ _ H l) as (_ & B).
    rewrite Hx, Rminus_diag_eq, sqrt_0, acos_0 in B by reflexivity. lra. }
  refine (conj RC (conj TC _)). intros He Hx.
  destruct (mino_facts HX HR a p e x ur uth uph gam Ha HF) as (E & L & Q & r1 & r2 & r3 & r4 & zp & beta & a2s & FA).
  pose proof (of_constants _ _ _ _ _ _ _ _ _ _ _ _ _ _ _ _ _ _ FA) as HC.
  pose proof (C29_time_and_azimuth_equations HX HR _ _ _ _ _ _ _ _ Ha HF _ _ _ _ _ _ _ _ H E L Q HC) as D.
  destruct (C30_long_time_averages HX HR _ _ _ _ _ _ _ _ Ha HF _ _ _ _ _ _ _ _ H) as (_ & _ & C & B).
  assert (D1 : forall l, is_derive t l (dt_dlambda a E L p (PI / 2))). { intros l. destruct (D l) as (_ & _ & D1 & _). now rewrite RC, TC in D1 by assumption. }
  assert (D2 : forall l, is_derive phi l (dphi_dlambda a E L p (PI / 2))). { intros l. destruct (D l) as (_ & _ & _ & D3). now rewrite RC, TC in D3 by assumption. }
  rewrite (uniform_rate _ _ _ C D1 (fun l => proj1 (B l))), (uniform_rate _ _ _ C D2 (fun l => proj2 (B l))).
  destruct (runs_as_unique _ _ _ _ _ _ _ _ _ H (trajectory_runs HX _ _ _ _ _ _ _ _ _ _ _ _ _ _ _ _ _ _ FA qt qr qth qph HF) 0) as (T0 & _ & _ & P0).
  unfold st, sph in T0, P0. rewrite !Rmult_0_r, !Rplus_0_l in T0, P0.
  intros l. split; revert l.
  - apply (same_ode _ _ (fun _ => dt_dlambda a E L p (PI / 2))); [exact D1| |lra]. intros l. auto_derive; [trivial|]. ring.
  - apply (same_ode _ _ (fun _ => dphi_dlambda a E L p (PI / 2))); [exact D2| |lra]. intros l. auto_derive; [trivial|]. ring.
Qed.

Lemma circular_std a p x ur uth uph gam : 0 <= a -> x = 1 \/ x = -1 ->
  mino_frequencies (Some a) (Some p) (Some 0) (Some x) = Ret (Some ur, Some uth, Some uph, Some gam) ->
  let w := x * sqrt p in let Z := p^2 - 3 * p + 2 * a * w in
  0 < Z /\ 0 < p /\ w^2 = p /\
  exists u, 0 < u /\ u^2 * Z = p^2 /\
  constants_of_motion (Some a) (Some p) (Some 0) (Some x)
    = Ret (Some (u * (p^2 - 2 * p + a * w) / p^2), Some (u * w * (p^2 - 2 * a * w + a^2) / p^2), Some 0) /\
  gam = u * (p^2 + a * w) /\ uph = u * w /\
  ur^2 = u^2 * p * (1 - 6 / p + 8 * a * w / p^2 - 3 * a^2 / p^2) /\
  uth^2 = u^2 * p * (1 - 4 * a * w / p^2 + 3 * a^2 / p^2).
Proof.
  intros Ha Hx HF w Z.
  destruct (mino_facts HX HR a p 0 x ur uth uph gam Ha HF) as (E & L & Q & r1 & r2 & r3 & r4 & zp & beta & a2s & FA).
  pose proof (of_constants _ _ _ _ _ _ _ _ _ _ _ _ _ _ _ _ _ _ FA) as HC.
  destruct (constants_inv _ _ _ _ _ _ _ Ha HC) as [HCK _].
  destruct (accepted_bounds HR a p 0 x Ha HCK) as (Ha1 & He & _ & Hr2 & HD & _ & _).
  assert (He1 : 0 < 1) by lra.
  destruct (C15_roots_defined HR a p 0 x E L Q (Some (Some E, Some L, Some Q)) HC He1 (or_intror eq_refl))
    as (s1 & s2 & s3 & s4 & _ & Q1 & Q2 & R4 & R3 & R21 & F).
  destruct (C23_bound_orbits HR a p 0 x E L Q HC He1) as (HE & HQ & _).
  rewrite (Rabs_pos_eq a Ha) in F.
  replace (p / (1 + 0)) with p in Q2 by field. replace (p / (1 - 0)) with p in Q1 by field.
  pose proof (C12_equatorial a p 0 x E L Q Hx HC) as Q0.
  assert (SQ : 0 < sqrt (1 - a^2)) by (apply sqrt_lt_R0; nra).
  assert (SS : sqrt (1 - a^2) ^2 = 1 - a^2) by (apply pow2_sqrt; nra).
  assert (P1 : 1 + sqrt (1 - a^2) < p) by lra.
  assert (DP : 0 < Delta a p) by (unfold Delta; nra).
  assert (PP : 0 < E * (p^2 + a^2) - a * L).
  { apply (P_pos a E L Q s1 s2 s3 s4); try assumption; try lra; [nra|]. rewrite Q2. exact DP. }
  destruct (C13_turning_points HR a p 0 x E L Q HC) as (_ & _ & T & _). rewrite (Rabs_pos_eq a Ha) in T. destruct (T eq_refl) as (T1 & T2).
  assert (H2 : 2 * p * E * (E * (p^2 + a^2) - a * L) = (p - 1) * (p^2 + (L - a * E)^2) + p * Delta a p).
  { assert (D : is_derive (radial_potential a E L Q) p
     (4 * E * p * (E * (p^2 + a^2) - a * L) - (2 * p - 2) * (p^2 + (L - a * E)^2 + Q) - Delta a p * (2 * p))).
    { unfold radial_potential, Delta. auto_derive; [trivial|]. ring. }
    pose proof (is_derive_unique _ _ _ D) as U1. pose proof (is_derive_unique _ _ _ T2) as U2. rewrite U1, Q0 in U2. lra. }
  assert (H1 : (E * (p^2 + a^2) - a * L)^2 = Delta a p * (p^2 + (L - a * E)^2)).
  { unfold radial_potential in T1. rewrite Q0 in T1. lra. }
  destruct (circular_algebra a E L p ltac:(lra) ltac:(lra) DP PP H1 H2) as (w' & u & W2 & U0 & UU & PU & YU & EU & LU & S1 & S2).
  assert (SX : 0 < x * L) by (destruct FA; assumption).
  assert (w' = w) as ->.
  { unfold w. destruct Hx as [-> | ->]; [rewrite S1 by lra | rewrite S2 by lra]; ring. }
  assert (ZP : 0 < Z). { fold Z in UU. assert (0 < p^2) by (apply pow_lt; lra). assert (0 < u^2) by (apply pow_lt; lra).
    apply Rnot_le_lt. intros K. assert (0 <= u^2 * - Z) by (apply Rmult_le_pos; lra). lra. }
  refine (conj ZP (conj _ (conj W2 _))); [lra|]. exists u. refine (conj U0 (conj UU (conj _ _))).
  { rewrite HC, EU, LU, Q0. reflexivity. }
  destruct (trajectory_defined HX HR a p 0 x ur uth uph gam Ha HF 0 0 0 0) as (t & r & th & ph & H).
  destruct (C69_degenerate_motion a p 0 x ur uth uph gam Ha HF _ _ _ _ _ _ _ _ H) as (RC & TC & _).
  assert (X2 : x^2 = 1) by (destruct Hx as [-> | ->]; ring).
  pose proof (C29_time_and_azimuth_equations HX HR _ _ _ _ _ _ _ _ Ha HF _ _ _ _ _ _ _ _ H E L Q HC) as D.
  destruct (C30_long_time_averages HX HR _ _ _ _ _ _ _ _ Ha HF _ _ _ _ _ _ _ _ H) as (_ & _ & C & B).
  assert (D1 : forall l, is_derive t l (dt_dlambda a E L p (PI / 2))). { intros l. destruct (D l) as (_ & _ & D1 & _). now rewrite RC, TC in D1 by (assumption || reflexivity). }
  assert (D2 : forall l, is_derive ph l (dphi_dlambda a E L p (PI / 2))). { intros l. destruct (D l) as (_ & _ & _ & D3). now rewrite RC, TC in D3 by (assumption || reflexivity). }
  rewrite (uniform_rate _ _ _ C D1 (fun l => proj1 (B l))), (uniform_rate _ _ _ C D2 (fun l => proj2 (B l))).
  assert (W0 : w <> 0) by (intros K; rewrite K in W2; lra).
  assert (LE : L = a * E + (w - a) * u) by lra.
  refine (conj _ (conj _ (conj _ _))).
  - unfold dt_dlambda. rewrite sin_PI2, PU. replace (L - a * E * 1^2) with ((w - a) * u) by lra. field. lra.
  - unfold dphi_dlambda. rewrite sin_PI2, PU. replace (L / 1^2 - a * E) with ((w - a) * u) by (rewrite LE; field). field. lra.
  - destruct FA as [_ _ _ _ _ _ G1 G2 _ _ GR Gs _ _ _ _ _ _ _ _ _ _ _ _ _ _ _ _ Gu _ _ _].
    replace (p / (1 + 0)) with p in G2 by field. replace (p / (1 - 0)) with p in G1 by field. subst r1 r2.
    assert (K0 : kr2 p p r3 r4 = 0) by (unfold kr2, Rdiv; rewrite Rminus_diag_eq by reflexivity; ring).
    rewrite K0, (proj1 ellK_E_0) in Gu.
    assert (G : ur^2 = sr2 (1 - E^2) p p r3 r4).
    { rewrite Gu. pose proof PI_RGT_0. replace (PI * sqrt (sr2 (1 - E^2) p p r3 r4) / (2 * (PI / 2))) with (sqrt (sr2 (1 - E^2) p p r3 r4)) by (field; lra).
      apply pow2_sqrt. lra. }
    rewrite G. unfold sr2.
    assert (V : (1 - E^2) * (p - r3) * (p - r4) = - (radial_potential a E L 0 (p + 1) + radial_potential a E L 0 (p - 1)) / 2 - (1 - E^2)).
    { rewrite Q0 in GR. rewrite !GR. field. }
    rewrite V, EU, LU. unfold radial_potential, Delta.
    assert (UN : 1 - u^2 * (p^2 - 3 * p + 2 * a * w) / p^2 = 0) by (rewrite UU; field; lra).
    set (S0 := ((p + 1)^2 - 2 * (p + 1) + a^2) * (p + 1)^2 / 2 + ((p - 1)^2 - 2 * (p - 1) + a^2) * (p - 1)^2 / 2 - 1).
    match goal with |- ?lhs = ?rhs => assert (I : lhs = rhs + S0 * (1 - u^2 * (p^2 - 3 * p + 2 * a * w) / p^2)) end.
    { unfold S0. clear - W0 W2. rewrite <- W2. clearbody w. field. exact W0. }
    rewrite I, UN. ring.
  - destruct FA as [_ _ _ _ _ _ _ _ _ _ _ _ _ _ _ _ _ _ _ _ _ Gb _ GB _ _ _ _ _ Gu _ _].
    assert (X0 : 1 - x^2 = 0) by lra. rewrite X0 in GB, Gu.
    replace (kt2 (a^2 * (1 - E^2)) 0 beta) with 0 in Gu by (unfold kt2; field; lra).
    rewrite (proj1 ellK_E_0) in Gu.
    assert (G : uth^2 = beta).
    { rewrite Gu. pose proof PI_RGT_0. replace (PI * sqrt beta / (2 * (PI / 2))) with (sqrt beta) by (field; lra). apply pow2_sqrt. lra. }
    rewrite G, GB, EU, LU.
    assert (UN : 1 - u^2 * (p^2 - 3 * p + 2 * a * w) / p^2 = 0) by (rewrite UU; field; lra).
    match goal with |- ?lhs = ?rhs => assert (I : lhs = rhs + a^2 * (1 - u^2 * (p^2 - 3 * p + 2 * a * w) / p^2)) end.
    { clear - W0 W2. rewrite <- W2. clearbody w. field. exact W0. }
    rewrite I, UN. ring.
Qed.

(** ** C69: Bardeen-Press-Teukolsky energy and angular momentum, Kepler's third law and the epicyclic
    frequencies.  [q] is p^(3/2); for a < 0 the sign of the returned azimuthal quantities
    refers to the direction of the spin (see C10). *)
Theorem C69_circular_equatorial a p x ur uth uph gam : x = 1 \/ x = -1 ->
  mino_frequencies (Some a) (Some p) (Some 0) (Some x) = Ret (Some ur, Some uth, Some uph, Some gam) ->
  let q := p * sqrt p in let y := x * spin_sign a in let N := 1 - 3 / p + 2 * x * a / q in
  0 < p /\ 0 < N /\
  constants_of_motion (Some a) (Some p) (Some 0) (Some x)
    = Ret (Some ((1 - 2 / p + x * a / q) / sqrt N), Some (y * sqrt p * (1 - 2 * x * a / q + a^2 / p^2) / sqrt N), Some 0) /\
  exists wr wth,
  fundamental_frequencies (Some a) (Some p) (Some 0) (Some x) = Ret (Some wr, Some wth, Some (y / (q + x * a))) /\
  0 < wr /\ wr^2 = (1 - 6 / p + 8 * x * a / q - 3 * a^2 / p^2) / (q + x * a)^2 /\
  0 < wth /\ wth^2 = (1 - 4 * x * a / q + 3 * a^2 / p^2) / (q + x * a)^2.
Proof.
  intros Hx HF q y N.
  destruct (C65_fundamental_frequencies HX HR a p 0 x ur uth uph gam HF) as (G0 & FF & O1 & O2 & _).
  rewrite mino_std in HF. rewrite constants_std. fold y in HF |- *.
  assert (Hy : y = 1 \/ y = -1). { unfold y, spin_sign. destruct (Rlt_dec a 0), Hx as [-> | ->]; lra. }
  assert (YB : y * Rabs a = x * a).
  { unfold y, spin_sign. destruct (Rlt_dec a 0); [rewrite Rabs_left by lra | rewrite Rabs_pos_eq by lra]; ring. }
  assert (B2 : a^2 = Rabs a ^2) by (symmetry; apply pow2_abs).
  destruct (circular_std (Rabs a) p y ur uth uph gam (Rabs_pos a) Hy HF) as (ZP & Pp & W2 & u & U0 & UU & HC & EG & EP & ER & ET).
  set (b := Rabs a) in *. clearbody b. set (s := sqrt p) in *. assert (S2 : s^2 = p) by (apply pow2_sqrt; lra).
  assert (S0 : 0 < s) by (apply sqrt_lt_R0; lra).
  assert (Q0 : 0 < q) by (unfold q; apply Rmult_lt_0_compat; assumption).
  assert (Y2 : y^2 = 1) by (destruct Hy as [-> | ->]; ring).
  replace (2 * x * a) with (2 * (y * b)) by (rewrite YB; ring).
  replace (x * a) with (y * b) by exact YB.
  replace (8 * x * a) with (8 * (y * b)) by (rewrite YB; ring). replace (4 * x * a) with (4 * (y * b)) by (rewrite YB; ring).
  assert (NZ : p^2 - 3 * p + 2 * b * (y * s) = p^2 * (1 - 3 / p + 2 * (y * b) / q)).
  { unfold q. rewrite <- S2. clearbody s. field. lra. }
  assert (N' : N = 1 - 3 / p + 2 * (y * b) / q) by (unfold N; now replace (2 * x * a) with (2 * (y * b)) by (rewrite YB; ring)).
  clearbody N. rewrite <- N' in NZ. rewrite NZ in ZP, UU.
  assert (P2 : 0 < p^2) by (apply pow_lt; lra).
  assert (NP : 0 < N). { apply Rnot_le_lt. intros K. assert (0 <= p^2 * - N) by (apply Rmult_le_pos; lra). lra. }
  assert (SN : 0 < sqrt N) by now apply sqrt_lt_R0. assert (SN2 : sqrt N ^2 = N) by (apply pow2_sqrt; lra).
  assert (EU : u = 1 / sqrt N).
  { assert (I : (u * sqrt N)^2 = 1^2). { replace ((u * sqrt N)^2) with (u^2 * sqrt N ^2) by ring. rewrite SN2.
      apply (Rmult_eq_reg_l (p^2)); lra. }
    assert (u * sqrt N = 1). { assert (0 < u * sqrt N) by now apply Rmult_lt_0_compat. nra. }
    apply (Rmult_eq_reg_r (sqrt N)); [|lra]. rewrite H. field. lra. }
  refine (conj Pp (conj NP (conj _ _))).
  - rewrite HC, EU.
    assert (I1 : 1 / sqrt N * (p^2 - 2 * p + b * (y * s)) / p^2 = (1 - 2 / p + y * b / q) / sqrt N)
      by (unfold q; rewrite <- S2; clearbody s; field; lra).
    assert (I2 : 1 / sqrt N * (y * s) * (p^2 - 2 * b * (y * s) + b^2) / p^2 = y * s * (1 - 2 * (y * b) / q + a^2 / p^2) / sqrt N)
      by (unfold q; rewrite B2; rewrite <- S2; clearbody s; field; lra).
    rewrite I1, I2. reflexivity.
  - assert (GG : gam = u * s * (q + y * b)) by (rewrite EG; unfold q; rewrite <- S2; ring).
    assert (QY : 0 < q + y * b). { apply Rnot_le_lt. intros K. assert (0 < u * s) by now apply Rmult_lt_0_compat.
      assert (0 <= u * s * - (q + y * b)) by (apply Rmult_le_pos; lra). lra. }
    exists (ur / gam), (uth / gam). refine (conj _ (conj O1 (conj _ (conj O2 _)))).
    + rewrite FF, EP, GG. do 3 f_equal. field. lra.
    + replace ((ur / gam)^2) with (ur^2 / gam^2) by (field; lra). rewrite ER, GG, B2. unfold q in *. 
      rewrite <- S2. rewrite <- S2 in QY. clearbody s. field. lra.
    + replace ((uth / gam)^2) with (uth^2 / gam^2) by (field; lra). rewrite ET, GG, B2. unfold q in *. 
      rewrite <- S2. rewrite <- S2 in QY. clearbody s. field. lra.
Qed.

(** concrete cases: the prograde orbit of radius 16 around a hole of spin 1/2 goes round once
    in 2 pi (64 + 1/2), the retrograde one in 2 pi (64 - 1/2) *)
Example C69_case : exists wr wth wr' wth',
  fundamental_frequencies (Some (1/2)) (Some 16) (Some 0) (Some 1) = Ret (Some wr, Some wth, Some (1 / (129/2))) /\
  fundamental_frequencies (Some (1/2)) (Some 16) (Some 0) (Some (-1)) = Ret (Some wr', Some wth', Some (-1 / (127/2))).
Proof.
  assert (S4 : sqrt 16 = 4). { replace 16 with (4^2) by ring. apply sqrt_pow2. lra. }
  assert (SG : spin_sign (1/2) = 1) by (unfold spin_sign; destruct (Rlt_dec (1/2) 0); lra).
  destruct (far_retrograde HX HR (1/2) 16 0 (-1)) as (E & L & Q & ur & uth & uph & gam & _ & HF); try lra.
  destruct (C69_circular_equatorial _ _ _ _ _ _ _ (or_intror eq_refl) HF) as (_ & _ & _ & wr' & wth' & W' & _).
  destruct (C54_example X HR) as (K1 & K2 & K3). rewrite check_constants_some in K1.
  destruct (C54_every_accepted_orbit HX HR (1/2) 16 0 1 ltac:(lra) ltac:(lra) ltac:(lra) K1 K2) as (E1 & L1 & Q1 & HC & _ & _ & FR).
  destruct FR as (ur1 & uth1 & uph1 & gam1 & HF1 & _).
  { pose proof (constants_example X HR) as HC'. rewrite HC in HC'. apply Ret_inj in HC'.
    assert (E1 = 113 / (16 * sqrt 53)) as -> by congruence. assert (L1 = 1009 / (32 * sqrt 53)) as -> by congruence. exact K3. }
  destruct (C69_circular_equatorial _ _ _ _ _ _ _ (or_introl eq_refl) HF1) as (_ & _ & _ & wr & wth & W & _).
  rewrite SG, S4 in W, W'. exists wr, wth, wr', wth'. rewrite W, W'. split; do 3 f_equal; lra.
Qed.
End S.
Print Assumptions C69_circular_equatorial.

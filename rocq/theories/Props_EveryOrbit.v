(** * C67: Orbit accepts every generic bound-energy initial condition outside the horizon,
      classifies it correctly and starts there *)
From Coq Require Import Reals Lra Lia ZArith String List.
From Coquelicot Require Import Coquelicot.
From Verif Require Import Num Outcome External Checked ExternalSpec.
From Verif Require Import Model_Units Model_Constants Model_Frequencies Model_Spacetime Model_InitialConditions Model_Stable Model_Plunge Model_Orbit.
From Verif Require Import Spec SpecElliptic Elliptic P_Spacetime Props_Spacetime P_Validation Props_Validation P_Bounds P_Constants Props_Constants Props_Finite.
From Verif Require Import Props_Trajectory Props_Phases Props_Plunge Props_Plunge2 Props_RealPlunge Props_PlungePhases Props_RealPhases Props_Apex Props_AllBound.
Import ListNotations.
Open Scope R_scope.

(** the particle can fall from r0 to the outer horizon without meeting a radial barrier *)
Definition falls_in (a E L Q r0 : R) : Prop :=
  forall s, 1 + sqrt (1 - a^2) <= s <= r0 -> 0 <= radial_potential a E L Q s.
(** genericity: the two middle ones of four real roots are not closer than the tolerance
    (i.e. not on, or almost on, the separatrix) *)
Definition off_separatrix (a E L Q : R) : Prop := forall s1 s2 s3 s4,
  (forall r, radial_potential a E L Q r = (1 - E^2) * (s1 - r) * (r - s2) * (r - s3) * (r - s4)) ->
  s4 <= s3 -> s3 <= s2 -> s2 <= s1 -> s3 + tol < s2.
Definition two_complex_roots (a E L Q : R) : Prop := exists r1 r2 u v, r1 <= r2 /\ 0 < v /\
  forall r, radial_potential a E L Q r = (1 - E^2) * (r2 - r) * (r - r1) * ((r - u)^2 + v^2).

Section Signs.
Context (c s1 s2 s3 s4 : R) (Hc : 0 < c) (O4 : s4 <= s3) (O3 : s3 < s2) (O2 : s2 <= s1).
Notation W r := (c * (s1 - r) * (r - s2) * (r - s3) * (r - s4)).
Lemma neg_above r : s1 < r -> W r < 0.
Proof. intros K. assert (0 < c * (r - s1) * (r - s2) * (r - s3) * (r - s4)) by (repeat apply Rmult_lt_0_compat; lra). lra. Qed.
Lemma neg_middle r : s3 < r < s2 -> W r < 0.
Proof. intros K. assert (0 < c * (s1 - r) * (s2 - r) * (r - s3) * (r - s4)) by (repeat apply Rmult_lt_0_compat; lra). lra. Qed.
Lemma neg_below r : r < s4 -> W r < 0.
Proof. intros K. assert (0 < c * (s1 - r) * (s2 - r) * (s3 - r) * (s4 - r)) by (repeat apply Rmult_lt_0_compat; lra). lra. Qed.
Lemma pos_outer r : s2 <= r <= s1 -> 0 <= W r.
Proof. intros K. repeat apply Rmult_le_pos; lra. Qed.
Lemma pos_inner r : s4 <= r <= s3 -> 0 <= W r.
Proof. intros K. assert (0 <= c * (s1 - r) * (s2 - r) * (s3 - r) * (r - s4)) by (repeat apply Rmult_le_pos; lra). lra. Qed.
Lemma where_nonneg r : 0 <= W r -> s2 <= r <= s1 \/ s4 <= r <= s3.
Proof.
  intros K. destruct (Rlt_dec s1 r) as [A|A]; [pose proof (neg_above r A); lra|].
  destruct (Rlt_dec r s4) as [B|B]; [pose proof (neg_below r B); lra|].
  destruct (Rle_dec s2 r); [left; lra|]. destruct (Rle_dec r s3); [right; lra|]. pose proof (neg_middle r ltac:(lra)). lra.
Qed.
End Signs.

Lemma between_horizons a E L Q r : 0 <= Q -> 1 - sqrt (1 - a^2) < r < 1 + sqrt (1 - a^2) -> 0 <= 1 - a^2 -> 0 < r ->
  0 < radial_potential a E L Q r.
Proof.
  intros HQ Hr H1 H0. assert (S : sqrt (1 - a^2) ^2 = 1 - a^2) by (apply pow2_sqrt; lra).
  assert (D : Delta a r < 0) by (unfold Delta; nra).
  unfold radial_potential. pose proof (pow2_ge_0 (E * (r^2 + a^2) - a * L)). pose proof (pow2_ge_0 (L - a * E)).
  assert (0 < r^2) by (apply pow_lt; lra).
  assert (0 < - Delta a r * (r^2 + (L - a * E)^2 + Q)) by (apply Rmult_lt_0_compat; lra). lra.
Qed.

Section S.
Context {X : External R} (HX : special_spec X) (HR : root_spec X) (HP : polyroots_spec X).

Theorem C67_every_initial_condition :
  forall a E L Q t0 r0 th0 ph0 dt dr dth dph M mu,
  0 < a < 1 -> 0 < th0 < PI -> 1 + sqrt (1 - a^2) < r0 ->
  kerr_line_element a r0 th0 dt dr dth dph = -1 ->
  let pos := (Some t0, Some r0, Some th0, Some ph0) in
  let vel := (Some dt, Some dr, Some dth, Some dph) in
  constants_from_initial_conditions (Some a) pos vel = Ret (Some E, Some L, Some Q) ->
  0 < E -> E^2 < 1 -> L <> 0 ->
  (* genericity *)
  not_marginal a E L -> off_separatrix a E L Q -> (Q = 0 -> ~ two_complex_roots a E L Q) ->
  (0 < L -> forall p e x, apex_from_constants (Some a) (Some E) (Some L) (Some Q) = Ret (Some a, Some p, Some e, Some x) ->
     ~ exceptional a p e x) ->
  exists o, Orbit_init (Some a) pos vel M mu = Ret o /\
  o_a o = Some a /\ o_E o = Some E /\ o_L o = Some L /\ o_Q o = Some Q /\
  (o_stable o = false <-> falls_in a E L Q r0) /\
  exists r theta, coordinates (Orbit_trajectory o None "natural" "natural") r theta /\
  Rabs (r 0 - r0) < tol /\ Rabs (theta 0 - th0) < tol /\
  ((forall s, radial_potential a E L Q s = 0 -> tol <= Rabs (r0 - s)) -> r 0 = r0 /\ is_derive r 0 (Sigma a r0 th0 * dr)) /\
  ((forall s, polar_turning a E L Q s -> tol <= Rabs (th0 - s)) -> theta 0 = th0 /\ is_derive theta 0 (Sigma a r0 th0 * dth)).
Proof.
  intros a E L Q t0 r0 th0 ph0 dt dr dth dph M mu Ha Hth Hr0 HN pos vel HI HE HE1 HL NM OS QR NX.
  pose proof tol_pos as TP.
  assert (A2 : 0 < a^2 < 1) by nra. assert (SQ : 0 < sqrt (1 - a^2)) by (apply sqrt_lt_R0; lra).
  assert (SS : sqrt (1 - a^2) ^2 = 1 - a^2) by (apply pow2_sqrt; lra).
  set (w := sqrt (1 - a^2)) in *.
  assert (W1 : w < 1) by nra.
  pose proof (sin_gt_0 th0 (proj1 Hth) (proj2 Hth)) as S0.
  assert (HD : Delta a r0 <> 0) by (apply Rgt_not_eq; unfold Delta; nra).
  assert (HS : Sigma a r0 th0 <> 0).
  { apply Rgt_not_eq. unfold Sigma. assert (0 < r0^2) by (apply pow_lt; lra). pose proof (pow2_ge_0 (a * cos th0)).
    replace (a^2 * cos th0 ^ 2) with ((a * cos th0)^2) by ring. lra. }
  destruct (C07_allowed_region a t0 r0 th0 ph0 dt dr dth dph HS HD ltac:(lra)) as (E' & L' & Q' & K & PT & RP & _).
  unfold pos, vel in HI. rewrite HI in K. apply Ret_inj in K. assert (E = E' /\ L = L' /\ Q = Q') as (<- & <- & <-) by (repeat split; congruence). clear K.
  specialize (RP HN).
  assert (HQ : 0 <= Q) by (apply (carter_nonneg a E L Q th0 HE1); lra).
  destruct (potential_at_horizon a E L Q ltac:(lra)) as (PH & PM). fold w in PH, PM.
  assert (c0 : 0 < 1 - E^2) by lra.
  assert (HOR : Delta a (1 - w) = 0 /\ Delta a (1 + w) = 0) by (unfold Delta; split; nra). destruct HOR as [DM DP].
  assert (NPM : radial_potential a E L Q (1 - w) <> 0).
  { intros Z. apply (NM (1 - w) DM). unfold radial_potential in Z. rewrite DM in Z. unfold Delta in DM.
    replace ((1 - w)^2 + a^2) with (2 * (1 - w)) in Z by lra.
    assert (Z' : E * (2 * (1 - w)) - a * L = 0). { destruct (Req_dec (E * (2 * (1 - w)) - a * L) 0) as [|N]; [assumption|]. apply pow2_gt_0 in N. lra. } lra. }
  destruct (C36_total HP a E L Q ltac:(lra) HE1) as (rts & HRt).
  destruct (C36_returned_roots HP a E L Q rts HRt) as (_ & [(r1 & r2 & r3 & r4 & -> & F & O)|(r1 & r2 & u & v & -> & F & O & Hv)]).
  - (* four real roots s4 <= s3 < s2 <= s1 *)
    fold w in O.
    assert (exists s1 s2 s3 s4, (forall r, radial_potential a E L Q r = (1 - E^2) * (s1 - r) * (r - s2) * (r - s3) * (r - s4)) /\
      s4 <= s3 /\ s3 + tol < s2 /\ s2 <= s1 /\
      ((s3 <= 1 - w /\ s1 = r1 /\ s2 = r2 /\ s3 = r3 /\ s4 = r4) \/ (1 - w < s3 /\ s3 = r1 /\ s4 = r2 /\ s1 = r3 /\ s2 = r4)))
      as (s1 & s2 & s3 & s4 & FS & O4 & O3 & O2 & CS).
    { destruct O as [(K1 & K2 & K3 & K4)|(K1 & K2 & K3 & K4)].
      - exists r1, r2, r3, r4. pose proof (OS r1 r2 r3 r4 F K1 K2 K3). repeat split; try assumption. left. auto.
      - exists r3, r4, r1, r2. assert (F' : forall r, radial_potential a E L Q r = (1 - E^2) * (r3 - r) * (r - r4) * (r - r1) * (r - r2)) by (intros r; rewrite F; ring).
        pose proof (OS r3 r4 r1 r2 F' K1 K2 K3). repeat split; try assumption. right. auto. }
    assert (RC : forall q1 q2 q3 q4, q1 = r1 -> q2 = r2 -> q3 = r3 -> q4 = r4 -> q1 <> q4 -> q2 <> q3 -> real_plunge a E L Q q1 q2 q3 q4).
    { intros q1 q2 q3 q4 -> -> -> -> N1 N2. split; [exact HRt | auto]. }
    clear OS F O.
    rename RC into RC'.
    assert (O3' : s3 < s2) by lra.
    rewrite FS in RP, PH, PM, NPM.
    pose proof (where_nonneg _ _ _ _ _ c0 O4 O3' O2 r0 RP) as WR.
    pose proof (where_nonneg _ _ _ _ _ c0 O4 O3' O2 (1 + w) PH) as WP.
    pose proof (where_nonneg _ _ _ _ _ c0 O4 O3' O2 (1 - w) PM) as WM.
    assert (NS : forall s, radial_potential a E L Q s = 0 -> s <> 1 - w). { intros s Z ->. rewrite FS in Z. contradiction. }
    assert (RT : radial_potential a E L Q s1 = 0 /\ radial_potential a E L Q s2 = 0 /\ radial_potential a E L Q s3 = 0 /\ radial_potential a E L Q s4 = 0) by (rewrite !FS; repeat split; ring).
    destruct RT as (T1 & T2 & T3 & T4). clear RP PH PM NPM.
    destruct (Rlt_dec (1 - w) s2) as [B|B].
    + (* the outer region is above the inner horizon, hence above the outer one *)
      assert (S2P : 1 + w < s2).
      { apply Rnot_le_lt. intros G. set (m := (Rmax s3 (1 - w) + s2) / 2).
        assert (Rmax s3 (1 - w) < s2) by (apply Rmax_lub_lt; lra). pose proof (Rmax_l s3 (1 - w)). pose proof (Rmax_r s3 (1 - w)).
        pose proof (between_horizons a E L Q m HQ) as PB. fold w in PB. unfold m in *.
        specialize (PB ltac:(lra) ltac:(lra) ltac:(lra)). rewrite FS in PB.
        pose proof (neg_middle _ s1 s2 s3 s4 c0 O4 O2 m). unfold m in *. lra. }
      destruct WR as [WR|WR].
      * assert (BR : bound_region a E L Q s1 s2 s3 s4) by (unfold bound_region; fold w; repeat split; try lra; exact FS).
        destruct (C64_every_bound_initial_condition HX HR HP a E L Q t0 r0 th0 ph0 dt dr dth dph s1 s2 s3 s4 M mu Ha Hth HN HI HE HE1 HL BR WR)
          as (o & p & e & x & HO & Q2 & Q1 & He & Hx & KK).
        { fold w; lra. }
        { intros L0. split; [|apply NX; exact L0]. fold w. apply NM. exact DP. }
        cbv zeta in KK. destruct KK as (A1 & A2' & A3 & A4 & A5 & A6 & A7 & t & r & theta & phi & RU & _ & _ & B1 & B2 & B3 & B4 & _).
        exists o. refine (conj HO (conj A2' (conj A4 (conj A5 (conj A6 (conj _ _)))))).
        { rewrite A1. split; [discriminate|]. intros G. exfalso. unfold falls_in in G. fold w in G.
          set (m := (Rmax s3 (1 + w) + s2) / 2). assert (Rmax s3 (1 + w) < s2) by (apply Rmax_lub_lt; lra). pose proof (Rmax_l s3 (1 + w)). pose proof (Rmax_r s3 (1 + w)).
          specialize (G m). unfold m in G. specialize (G ltac:(lra)). rewrite FS in G. pose proof (neg_middle _ s1 s2 s3 s4 c0 O4 O2 m). unfold m in *. lra. }
        exists r, theta. refine (conj _ (conj B1 (conj B2 (conj _ _)))).
        -- destruct RU as (U1 & U2 & U3 & U4 & EU & VU). exists U1, U2, U3, U4. split; [exact EU|]. intros l. destruct (VU l) as (_ & V2 & V3 & _). auto.
        -- intros AW. apply B3. split; apply AW; assumption.
        -- intros AW. apply B4.
           assert (X0 : x <> 0).
           { intros Z. destruct (C14_polar_turning_point HR a p e x E L Q A7) as (_ & _ & _ & Z'). apply HL, Z', Z. }
           assert (X2 : 0 < x^2) by (apply pow2_gt_0; exact X0). assert (X3 : 0 <= 1 - x^2 < 1) by (clear - X2 Hx; nra).
           assert (X4 : 0 <= sqrt (1 - x^2) < 1). { clear - X3. split; [apply sqrt_pos|]. apply Rlt_le_trans with (sqrt 1); [apply sqrt_lt_1; lra | rewrite sqrt_1; lra]. }
           assert (TH : 0 < acos (sqrt (1 - x^2)) < PI).
           { pose proof (acos_bound (sqrt (1 - x^2))) as AB. pose proof (cos_acos (sqrt (1 - x^2)) ltac:(lra)) as CA.
             split; apply Rnot_le_lt; intros G.
             - replace (acos (sqrt (1 - x^2))) with 0 in CA by lra. rewrite cos_0 in CA. lra.
             - replace (acos (sqrt (1 - x^2))) with PI in CA by lra. rewrite cos_PI in CA. lra. }
           assert (SI : sin (acos (sqrt (1 - x^2))) ^2 = x^2).
           { pose proof (sin2_cos2 (acos (sqrt (1 - x^2)))) as Z. unfold Rsqr in Z. rewrite (cos_acos (sqrt (1 - x^2))) in Z by lra.
             pose proof (sqrt_sqrt (1 - x^2) ltac:(lra)). lra. }
           split; apply AW; (split; [lra|]); apply (C14_theta_min HR a p e x E L Q _ A7 X0); [exact SI|].
           rewrite sin_PI_x. exact SI.
      * (* inner region, which reaches the outer horizon: returned reversed *)
        destruct CS as [(C1 & _)|(C1 & C2 & C3 & C4 & C5)]; [lra|].
        assert (RPL : real_plunge a E L Q s3 s4 s1 s2) by (apply RC'; auto; lra).
        destruct (C62_orbit_reproduces_initial_conditions HP HX a E L Q A2 HE1 HL HQ s3 s4 s1 s2 RPL t0 r0 th0 ph0 dt dr dth dph WR Hth HD HS HN HI NM ltac:(intros; lra) M mu)
          as (o & HO & A1 & A2' & A3 & A4 & A5 & A6 & _ & qr & qth & _ & _ & r & theta & CC & B1 & B2 & B3 & B4).
        exists o. refine (conj HO (conj A2' (conj A4 (conj A5 (conj A6 (conj _ _)))))).
        { split; [intros _ | auto]. intros s Hs. fold w in Hs. rewrite FS. apply pos_inner; lra. }
        exists r, theta. refine (conj CC (conj B1 (conj B2 (conj _ _)))).
        -- intros AW. apply B3. split; intros G; exfalso; [specialize (AW s3 T3) | specialize (AW s4 T4)]; lra.
        -- intros AW. apply B4. intros z Z G. specialize (AW z Z). lra.
    + (* the outer region contains both horizons *)
      assert (S2M : s2 < 1 - w) by (pose proof (NS s2 T2); lra).
      destruct CS as [(C1 & C2 & C3 & C4 & C5)|(C1 & _)]; [|lra].
      assert (WR' : s2 <= r0 <= s1) by lra.
      assert (RPL : real_plunge a E L Q s1 s2 s3 s4) by (apply RC'; auto; lra).
      destruct (C62_orbit_reproduces_initial_conditions HP HX a E L Q A2 HE1 HL HQ s1 s2 s3 s4 RPL t0 r0 th0 ph0 dt dr dth dph WR' Hth HD HS HN HI NM ltac:(intros; lra) M mu)
        as (o & HO & A1 & A2' & A3 & A4 & A5 & A6 & _ & qr & qth & _ & _ & r & theta & CC & B1 & B2 & B3 & B4).
      exists o. refine (conj HO (conj A2' (conj A4 (conj A5 (conj A6 (conj _ _)))))).
      { split; [intros _ | auto]. intros s Hs. fold w in Hs. rewrite FS. apply pos_outer; lra. }
      exists r, theta. refine (conj CC (conj B1 (conj B2 (conj _ _)))).
      * intros AW. apply B3. split; intros G; exfalso; [specialize (AW s1 T1) | specialize (AW s2 T2)]; lra.
      * intros AW. apply B4. intros z Z G. specialize (AW z Z). lra.
  - (* two complex roots *)
    assert (HQ' : 0 < Q).
    { destruct (Req_dec Q 0) as [Z|]; [|lra]. exfalso. apply (QR Z). exists r1, r2, u, v. auto. }
    assert (CP : complex_plunge a E L Q r1 r2) by (do 2 eexists; exact HRt).
    destruct (C59_orbit_reproduces_initial_conditions HP HX a E L Q r1 r2 t0 r0 th0 ph0 dt dr dth dph M mu ltac:(lra) ltac:(lra) HE1 HL HQ' CP Hth HD HS HN HI)
      as (o & HO & A1 & A2' & A3 & A4 & A5 & A6 & _ & qr & qth & _ & _ & r & theta & CC & B1 & B2 & B3 & B4).
    exists o. refine (conj HO (conj A2' (conj A4 (conj A5 (conj A6 (conj _ _)))))).
    { split; [intros _ | auto]. intros s Hs. fold w in Hs. rewrite F in RP, PH |- *.
      assert (V : 0 < v^2) by (apply pow_lt; lra).
      assert (Y : forall y, 0 <= (1 - E^2) * (r2 - y) * (y - r1) * ((y - u)^2 + v^2) -> r1 <= y <= r2).
      { intros y Hy. pose proof (pow2_ge_0 (y - u)). split; apply Rnot_lt_le; intros G.
        - assert (0 < (1 - E^2) * (r2 - y) * (r1 - y) * ((y - u)^2 + v^2)) by (repeat apply Rmult_lt_0_compat; lra). lra.
        - assert (0 < (1 - E^2) * (y - r2) * (y - r1) * ((y - u)^2 + v^2)) by (repeat apply Rmult_lt_0_compat; lra). lra. }
      apply Y in RP. apply Y in PH. pose proof (pow2_ge_0 (s - u)). repeat apply Rmult_le_pos; lra. }
    exists r, theta. refine (conj CC _). rewrite B1, B2.
    refine (conj _ (conj _ (conj (fun _ => conj eq_refl B3) (fun _ => conj eq_refl B4))));
      (replace (_ - _) with 0 by ring; rewrite Rabs_R0; lra).
Qed.

(** the hypotheses are met by the particle of [C62_case] at radius 2, and its constants are
    also those of a stable spherical orbit of radius 6 *)
Example C67_case : exists dt dr dth dph,
  0 < 1/2 < 1 /\ 0 < PI / 2 < PI /\ 1 + sqrt (1 - (1/2)^2) < 2 /\
  kerr_line_element (1/2) 2 (PI / 2) dt dr dth dph = -1 /\
  constants_from_initial_conditions (Some (1/2)) (Some 0, Some 2, Some (PI / 2), Some 0) (Some dt, Some dr, Some dth, Some dph)
    = Ret (Some (67/72), Some (403/144), Some (5/3)) /\
  not_marginal (1/2) (67/72) (403/144) /\ off_separatrix (1/2) (67/72) (403/144) (5/3) /\
  (forall p e x, apex_from_constants (Some (1/2)) (Some (67/72)) (Some (403/144)) (Some (5/3)) = Ret (Some (1/2), Some p, Some e, Some x) ->
     ~ exceptional (1/2) p e x).
Proof.
  destruct (C62_case HP) as (_ & _ & dt & dr & dth & dph & _ & _ & _ & NM & _ & _ & _ & _ & _ & _ & N & I).
  exists dt, dr, dth, dph. pose proof PI_RGT_0.
  assert (W2 : w_case^2 = (2028/695)^2 - 4 * (12/139)) by (apply pow2_sqrt; lra).
  assert (W0 : 0 <= w_case) by apply sqrt_pos.
  assert (WB : 284/100 < w_case < 288/100) by (clear - W0 W2; split; nra).
  set (r1 := (2028/695 + w_case) / 2). set (r2 := (2028/695 - w_case) / 2).
  assert (F : forall r, radial_potential (1/2) (67/72) (403/144) (5/3) r = (1 - (67/72)^2) * (6 - r) * (r - 6) * (r - r1) * (r - r2)).
  { intros r. unfold r1, r2. replace ((1 - (67/72)^2) * (6 - r) * (r - 6) * (r - (2028/695 + w_case) / 2) * (r - (2028/695 - w_case) / 2))
      with ((1 - (67/72)^2) * (- r^2 + 2028/695 * r - ((2028/695)^2 - w_case^2) / 4) * (r - 6) * (r - 6)) by field.
    rewrite W2. unfold radial_potential, Delta. field. }
  assert (B1 : 287/100 < r1 < 29/10) by (unfold r1; lra). assert (B2 : 0 < r2 < 4/100) by (unfold r2; lra).
  assert (SM : r1 + r2 = 2028/695) by (unfold r1, r2; lra). clearbody r1 r2.
  assert (SQ : sqrt (1 - (1/2)^2) < 9/10).
  { rewrite <- (sqrt_pow2 (9/10)) by lra. apply sqrt_lt_1_alt. lra. }
  assert (T : tol = 1/10000) by reflexivity.
  refine (conj _ (conj _ (conj _ (conj N (conj I (conj NM (conj _ _))))))); try lra.
  - intros s1 s2 s3 s4 FS O4 O3 O2.
    assert (c0 : 1 - (67/72)^2 = 695/5184) by field.
    assert (SUM : s1 + s2 + s3 + s4 = 12 + 2028/695).
    { pose proof (FS 0) as E0. pose proof (FS 1) as E1. pose proof (FS (-1)) as E2. pose proof (FS 2) as E3. pose proof (FS (-2)) as E4.
      unfold radial_potential, Delta in *. clear F. lra. }
    assert (RT : forall s, radial_potential (1/2) (67/72) (403/144) (5/3) s = 0 -> s = 6 \/ s = r1 \/ s = r2).
    { intros s Z. rewrite F in Z. apply Rmult_integral in Z as [Z|Z]; [|right; right; lra]. apply Rmult_integral in Z as [Z|Z]; [|right; left; lra].
      left. apply Rmult_integral in Z as [Z|Z]; [|lra]. apply Rmult_integral in Z as [Z|Z]; lra. }
    destruct (RT s1 ltac:(rewrite FS; ring)) as [Z1|[Z1|Z1]]; destruct (RT s2 ltac:(rewrite FS; ring)) as [Z2|[Z2|Z2]];
    destruct (RT s3 ltac:(rewrite FS; ring)) as [Z3|[Z3|Z3]]; destruct (RT s4 ltac:(rewrite FS; ring)) as [Z4|[Z4|Z4]]; lra.
  - intros p e x AP EX.
    assert (BR : bound_region (1/2) (67/72) (403/144) (5/3) 6 6 r1 r2).
    { refine (conj F _). pose proof (sqrt_pos (1 - (1/2)^2)). repeat split; lra. }
    destruct (C63_apex_of_bound_constants HR HP (1/2) (67/72) (403/144) (5/3) 6 6 r1 r2 ltac:(lra) ltac:(lra) ltac:(lra) ltac:(lra) BR)
      as (p' & e' & x' & AP' & He & Hx & Q2 & Q1 & _).
    rewrite AP in AP'. apply Ret_inj in AP'. assert (p = p' /\ e = e' /\ x = x') as (<- & <- & <-) by (repeat split; congruence).
    destruct EX as (_ & X0 & [(_ & K)|(K & _)]); [|lra]. rewrite Q1, Q2 in K.
    assert (X2 : 0 <= x^2 <= 1) by nra. destruct K as [K|K].
    + unfold on_static_limit in K. nra.
    + unfold light_ring in K. set (k := (1/2)^2 * (1 - x^2)) in K. assert (Bk : 0 <= k <= 1/4) by (unfold k; lra).
      replace ((1/2 * x)^2) with (1/4 * x^2) in K by field. clearbody k.
      assert (L1 : 1/3 <= 1 - 2 * 6 / (6^2 + k) - 2 * (6 * 6 - k) / ((6^2 + k) * (6 + 6))).
      { replace (1 - 2 * 6 / (6^2 + k) - 2 * (6 * 6 - k) / ((6^2 + k) * (6 + 6))) with ((36 + k - 12 - (36 - k) / 6) / (36 + k)) by (field; lra).
        assert (P : 36 + k > 0) by lra. apply (proj1 (Rle_div_r _ _ _ P)). lra. }
      assert (L2 : 8 * (1/4 * x^2) * (6 * 6 - k) / ((6^2 + k) * (6^2 + k) * (6 + 6)) <= 1/100).
      { assert (P : (6^2 + k) * (6^2 + k) * (6 + 6) > 0) by nra.
        apply (proj2 (Rle_div_l _ _ _ P)). assert (x^2 * (36 - k) <= 1 * 36) by (apply Rmult_le_compat; lra).
        assert (36 * 36 <= (6^2 + k) * (6^2 + k)) by (apply Rmult_le_compat; lra). lra. }
      rewrite <- K in L2. clear - L1 L2. set (y := 1 - _ - _) in *. clearbody y. nra.
Qed.
End S.
Print Assumptions C67_every_initial_condition.

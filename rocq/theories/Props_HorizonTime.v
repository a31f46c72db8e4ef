(** * C88: a plunging particle reaches the outer horizon in finite Mino time but infinite coordinate time *)
From Coq Require Import Reals Lra Lia ZArith String List.
From Coquelicot Require Import Coquelicot.
From Verif Require Import Num Outcome External Checked ExternalSpec Spec SpecElliptic Elliptic.
From Verif Require Import Model_Constants Model_Frequencies Model_Stable Model_Plunge P_Radial P_Traj Props_Trajectory Props_Plunge P_Plunge Props_Plunge2 Props_Plunge3 Props_RealPlunge Props_Future P_Horizon.
Open Scope R_scope.

(** what happens between a Mino time l0 outside the horizon and the next horizon crossing lH *)
Definition diverges_before (t : R -> R) (l0 lH s : R) : Prop :=
  (0 < s -> (forall l m, l0 <= l -> l < m -> m < lH -> t l < t m) /\ filterlim t (at_left lH) (Rbar_locally p_infty)) /\
  (s < 0 -> (forall l m, l0 <= l -> l < m -> m < lH -> t m < t l) /\ filterlim t (at_left lH) (Rbar_locally m_infty)).

Lemma horizon_both a E L Q (t r th : R -> R) l0 lH : a^2 < 1 -> 0 <= Q -> l0 < lH ->
  (forall l, exists d, is_derive r l d /\ d^2 = radial_potential a E L Q (r l)) ->
  (forall l, 0 < sin (th l) /\ 0 <= polar_potential a E L Q (th l)) ->
  (forall l, l0 <= l < lH -> is_derive t l (dt_dlambda a E L (r l) (th l))) ->
  (forall l, l0 <= l < lH -> rp a < r l) -> r lH = rp a -> 2 * E * rp a <> a * L ->
  diverges_before t l0 lH (dt_dlambda a E L (r l0) (th l0)).
Proof.
  intros Ha HQ HL Dr Hth Dt Out At HN. split; intros H0.
  - split; [intros l m; exact (hz_increasing a E L Q t r th l0 lH Ha HQ HL Dr Hth Dt Out At HN H0 l m) | exact (hz_diverges a E L Q t r th l0 lH Ha HQ HL Dr Hth Dt Out At HN H0)].
  - set (t' := fun l => - t l).
    assert (Dr' : forall l, exists d, is_derive r l d /\ d^2 = radial_potential a (- E) (- L) Q (r l)).
    { intros l. destruct (Dr l) as (d & D1 & D2). exists d. split; [exact D1|]. rewrite D2. unfold radial_potential. ring. }
    assert (Hth' : forall l, 0 < sin (th l) /\ 0 <= polar_potential a (- E) (- L) Q (th l)).
    { intros l. replace (polar_potential a (- E) (- L) Q (th l)) with (polar_potential a E L Q (th l)); [apply Hth|]. unfold polar_potential. replace ((- L)^2) with (L^2) by ring. replace ((- E)^2) with (E^2) by ring. reflexivity. }
    assert (Dt' : forall l, l0 <= l < lH -> is_derive t' l (dt_dlambda a (- E) (- L) (r l) (th l))).
    { intros l Hl. rewrite dt_reverse. apply (is_derive_opp t). exact (Dt l Hl). }
    assert (HN' : 2 * - E * rp a <> a * - L) by lra.
    assert (H0' : 0 < dt_dlambda a (- E) (- L) (r l0) (th l0)) by (rewrite dt_reverse; lra).
    split.
    + intros l m H1 H2 H3. pose proof (hz_increasing a (- E) (- L) Q t' r th l0 lH Ha HQ HL Dr' Hth' Dt' Out At HN' H0' l m H1 H2 H3) as K. unfold t' in K. lra.
    + pose proof (hz_diverges a (- E) (- L) Q t' r th l0 lH Ha HQ HL Dr' Hth' Dt' Out At HN' H0') as K.
      apply (filterlim_ext (fun l => - t' l)); [intros l; unfold t'; ring|].
      eapply filterlim_comp; [exact K|]. exact (filterlim_Rbar_opp p_infty).
Qed.
(** just before x, a function with a nonzero value or a nonzero slope at x does not vanish *)
Lemma punctured (f : R -> R) x d : is_derive f x d -> (f x = 0 -> d <> 0) -> exists w, 0 < w /\ forall y, x - w <= y < x -> f y <> 0.
Proof.
  intros D N. destruct (Req_dec (f x) 0) as [Z|Z].
  - specialize (N Z). apply is_derive_Reals in D. destruct (D (Rabs d)) as [[w W] K]; [now apply Rabs_pos_lt|]. cbn [pos] in K.
    exists (w / 2). split; [lra|]. intros y Hy F. specialize (K (y - x) ltac:(lra) ltac:(apply Rabs_def1; lra)).
    replace (x + (y - x)) with y in K by ring. rewrite F, Z in K. replace ((0 - 0) / (y - x) - d) with (- d) in K by (field; lra). rewrite Rabs_Ropp in K. lra.
  - assert (C : continuous (fun y => (f y)^2) x) by (apply (ex_derive_continuous (V := R_NormedModule)); auto_derive; exists d; exact D).
    destruct (C (fun y => 0 < y)) as [[w W] K]. { apply open_gt. now apply pow2_gt_0. }
    cbn [pos] in K. exists (w / 2). split; [lra|]. intros y Hy F.
    assert (G : 0 < (f y)^2). { apply K. unfold ball; simpl; unfold AbsRing_ball, abs, minus, plus, opp; simpl. apply Rabs_def1; lra. }
    rewrite F in G. simpl in G. lra.
Qed.
(** the azimuth in the frame corotating with the horizon stays finite: phi - t a / (2 r_+) has a
    finite limit, so (with t infinite) phi / t tends to the angular velocity of the horizon *)
Definition horizon_velocity (a : R) : R := a / (2 * (1 + sqrt (1 - a^2))).
Definition corotates (a : R) (t phi : R -> R) (lH : R) : Prop :=
  exists psi : R, filterlim (fun l => phi l - horizon_velocity a * t l) (at_left lH) (locally psi).

Lemma corotation a E L (t phi r th : R -> R) l0 lH : a^2 < 1 -> l0 < lH ->
  (forall l, exists d, is_derive r l d) -> (forall l, exists d, is_derive th l d) -> (forall l, 0 < sin (th l)) ->
  (forall l, l0 <= l < lH -> is_derive t l (dt_dlambda a E L (r l) (th l)) /\ is_derive phi l (dphi_dlambda a E L (r l) (th l))) ->
  (forall l, l0 <= l < lH -> rp a < r l) -> r lH = rp a -> corotates a t phi lH.
Proof.
  intros Ha HL Dr Dth Hth D Out At.
  assert (K : 0 < sqrt (1 - a^2)) by (apply sqrt_lt_R0; lra). assert (K2 : sqrt (1 - a^2) ^2 = 1 - a^2) by (apply pow2_sqrt; lra).
  unfold corotates, horizon_velocity. unfold rp in *. set (k := sqrt (1 - a^2)) in *. clearbody k.
  set (W := a / (2 * (1 + k))).
  set (G := fun l => - (W * ((E * (r l ^2 + a^2) - a * L) * (r l + (1 + k)) / (r l - (1 - k)))) + (L / sin (th l) ^2 - a * E) - W * (a * (L - a * E * sin (th l) ^2))).
  assert (EG : forall l, r l <> 1 - k -> continuous G l).
  { intros l N. destruct (Dr l) as [d1 D1]. destruct (Dth l) as [d2 D2]. specialize (Hth l). apply (ex_derive_continuous (V := R_NormedModule)). unfold G.
    auto_derive. assert (sin (th l) * (sin (th l) * 1) <> 0) by (apply Rgt_not_eq; rewrite Rmult_1_r; now apply Rmult_lt_0_compat).
    repeat split; try (now exists d1); try (now exists d2); try assumption. intros Z; apply N; lra. }
  assert (NB : exists e, 0 < e /\ forall l, lH - e < l < lH + e -> 1 - k < r l).
  { destruct (Dr lH) as [d1 D1]. assert (C : continuous r lH) by (apply (ex_derive_continuous (V := R_NormedModule) r lH); now exists d1).
    destruct (C (fun y => 1 - k < y)) as [[e E0] B]. { apply open_gt. rewrite At. lra. }
    exists e. split; [exact E0|]. intros l Hl. apply B. unfold ball; simpl; unfold AbsRing_ball, abs, minus, plus, opp; simpl. apply Rabs_def1; lra. }
  destruct NB as (e & E0 & NB).
  assert (POS : forall l, l0 <= l < lH + e -> 1 - k < r l).
  { intros l Hl. destruct (Rlt_dec l lH) as [C|C]; [specialize (Out l ltac:(lra)); lra | apply NB; lra]. }
  assert (EI : forall l, l0 <= l < lH + e -> ex_RInt G l0 l).
  { intros l Hl. apply (ex_RInt_continuous (V := R_CompleteNormedModule) G). intros z Hz. rewrite Rmin_left, Rmax_right in Hz by lra. apply EG. specialize (POS z ltac:(lra)). lra. }
  set (F := fun l => phi l - W * t l).
  assert (DF : forall l, l0 <= l < lH -> is_derive F l (G l)).
  { intros l Hl. destruct (D l Hl) as [D1 D2]. specialize (Out l Hl). specialize (Hth l).
    replace (G l) with (dphi_dlambda a E L (r l) (th l) - W * dt_dlambda a E L (r l) (th l)).
    - unfold F. auto_derive; [repeat split; eexists; eassumption|].
      match goal with |- context [Derive ?f l] => change (Derive f l) with (Derive phi l) end. match goal with |- context [1 * Derive phi l + - (W * (1 * Derive ?f l))] => change (Derive f l) with (Derive t l) end. rewrite (is_derive_unique t l _ D1), (is_derive_unique phi l _ D2). ring.
    - unfold G, dphi_dlambda, dt_dlambda. assert (DD : Delta a (r l) = (r l - (1 + k)) * (r l - (1 - k))) by (unfold Delta; replace (a^2) with (1 - k^2) by lra; ring). rewrite DD.
      assert (WA : a = W * ((1 + k)^2 + a^2)). { replace ((1 + k)^2 + a^2) with (2 * (1 + k)) by (replace (a^2) with (1 - k^2) by lra; ring). unfold W. field. lra. }
      set (P := E * (r l ^2 + a^2) - a * L). set (s2 := sin (th l) ^2). assert (S2 : s2 <> 0) by (unfold s2; apply Rgt_not_eq, pow_lt; exact Hth). clearbody P s2.
      replace (a / ((r l - (1 + k)) * (r l - (1 - k))) * P) with (W * ((1 + k)^2 + a^2) / ((r l - (1 + k)) * (r l - (1 - k))) * P) by (rewrite <- WA; reflexivity).
      clearbody W. match goal with |- ?u = ?v => change (@eq R u v) end. field. repeat split; try assumption; lra. }
  assert (FI : forall l, l0 <= l < lH -> F l = F l0 + RInt G l0 l).
  { intros l Hl. assert (I : is_RInt G l0 l (F l - F l0)).
    { apply (is_RInt_derive F G); intros z Hz; rewrite Rmin_left, Rmax_right in Hz by lra; [apply DF; lra | apply EG; specialize (Out z ltac:(lra)); lra]. }
    rewrite (is_RInt_unique _ _ _ _ I). ring. }
  exists (F l0 + RInt G l0 lH).
  apply (filterlim_ext_loc (fun l => F l0 + RInt G l0 l)).
  { exists (mkposreal (lH - l0) ltac:(lra)). intros l Hl Hlt. unfold ball in Hl; simpl in Hl; unfold AbsRing_ball, abs, minus, plus, opp in Hl; simpl in Hl. apply Rabs_def2 in Hl. symmetry. apply FI. lra. }
  apply (filterlim_filter_le_1 (F := locally lH)); [intros P HPr; apply filter_le_within; exact HPr|].
  assert (DI : is_derive (fun l => F l0 + RInt G l0 l) lH (0 + G lH)).
  { apply (is_derive_plus (V := R_NormedModule)); [apply (is_derive_const (V := R_NormedModule))|].
    apply (is_derive_RInt (V := R_NormedModule) G (RInt G l0) l0 lH); [|apply EG; rewrite At; lra].
    set (ep := Rmin e (lH - l0)). assert (EP : 0 < ep) by (apply Rmin_pos; lra). assert (EP1 : ep <= e) by apply Rmin_l. assert (EP2 : ep <= lH - l0) by apply Rmin_r.
    exists (mkposreal ep EP). intros l Hl. unfold ball in Hl; simpl in Hl; unfold AbsRing_ball, abs, minus, plus, opp in Hl; simpl in Hl. apply Rabs_def2 in Hl.
    apply (RInt_correct (V := R_CompleteNormedModule)). apply EI. lra. }
  exact (ex_derive_continuous (V := R_NormedModule) _ _ (ex_intro _ _ DI)).
Qed.
(** outside the horizon the coordinate time never stands still *)
Lemma dt_nonzero a E L Q r th : a^2 < 1 -> 0 <= Q -> 0 < sin th -> 0 <= polar_potential a E L Q th -> 0 <= radial_potential a E L Q r -> rp a < r ->
  dt_dlambda a E L r th <> 0.
Proof.
  intros Ha HQ Hs Hp Hr O. pose proof (hz_Dpos a Ha r O) as D. assert (K : 0 <= sqrt (1 - a^2)) by apply sqrt_pos. assert (R0 : 0 < r) by (unfold rp in O; lra).
  assert (R2 : 0 < r^2) by (apply pow_lt; lra).
  destruct (Rtotal_order 0 (E * (r^2 + a^2) - a * L)) as [P|[P|P]].
  - pose proof (dt_lower a E L Q r th D R0 Hs HQ P Hr Hp). lra.
  - exfalso. unfold radial_potential in Hr. rewrite <- P in Hr. assert (0 < Delta a r * (r^2 + (L - a * E)^2 + Q)). { apply Rmult_lt_0_compat; [exact D|]. pose proof (pow2_ge_0 (L - a * E)). lra. } lra.
  - assert (K1 : dt_dlambda a (- E) (- L) r th = - dt_dlambda a E L r th) by apply dt_reverse.
    assert (0 < dt_dlambda a (- E) (- L) r th); [|lra].
    assert (r^2 <= dt_dlambda a (- E) (- L) r th); [|lra]. apply (dt_lower a (- E) (- L) Q r th); try assumption; [lra| |].
    + replace (radial_potential a (- E) (- L) Q r) with (radial_potential a E L Q r) by (unfold radial_potential; ring). exact Hr.
    + replace (polar_potential a (- E) (- L) Q th) with (polar_potential a E L Q th); [exact Hp|]. unfold polar_potential. replace ((- L)^2) with (L^2) by ring. replace ((- E)^2) with (E^2) by ring. reflexivity.
Qed.

Lemma ratio_limit (w : R) (t phi : R -> R) (l0 lH s psi : R) : s <> 0 -> diverges_before t l0 lH s ->
  filterlim (fun l => phi l - w * t l) (at_left lH) (locally psi) -> filterlim (fun l => phi l / t l) (at_left lH) (locally w).
Proof.
  intros N (D1 & D2) F.
  assert (I : exists b : Rbar, (b = p_infty \/ b = m_infty) /\ filterlim t (at_left lH) (Rbar_locally b)).
  { destruct (Rtotal_order 0 s) as [S|[S|S]]; [exists p_infty; split; [now left | apply D1; lra] | lra | exists m_infty; split; [now right | apply D2; lra]]. }
  destruct I as (b & B & T).
  assert (NZ : at_left lH (fun l => t l <> 0)).
  { apply (T (fun y => y <> 0)). destruct B as [-> | ->]; exists 0; intros y Hy; lra. }
  assert (IN : filterlim (fun l => / t l) (at_left lH) (locally 0)).
  { eapply filterlim_comp; [exact T|]. destruct B as [-> | ->]; [exact (filterlim_Rbar_inv p_infty ltac:(discriminate)) | exact (filterlim_Rbar_inv m_infty ltac:(discriminate))]. }
  assert (PR : filterlim (fun l => (phi l - w * t l) * / t l) (at_left lH) (locally (psi * 0))).
  { refine (filterlim_comp_2 (G := locally psi) (H := locally 0) (fun l => phi l - w * t l) (fun l => / t l) Rmult F IN _). exact (filterlim_mult (K := R_AbsRing) psi 0). }
  assert (SM : filterlim (fun l => w + (phi l - w * t l) * / t l) (at_left lH) (locally (w + psi * 0))).
  { refine (filterlim_comp_2 (G := locally w) (H := locally (psi * 0)) (fun _ => w) _ Rplus (filterlim_const w) PR _). exact (filterlim_plus (K := R_AbsRing) (V := R_NormedModule) w (psi * 0)). }
  rewrite Rmult_0_r, Rplus_0_r in SM.
  refine (filterlim_ext_loc _ _ _ SM). apply (filter_imp (fun l => t l <> 0)); [|exact NZ]. intros l Hl. field. exact Hl.
Qed.

Section Plunge.
Context {X : External R} (HP : polyroots_spec X) (HX : special_spec X).
Context (a E L Q : R) (Ha : 0 < a^2 < 1) (HE : E^2 < 1) (HL : L <> 0) (HQ : 0 <= Q).
Context (r1 r2 : R) (qt qr qth qph : R).
Let outer : R := 1 + sqrt (1 - a^2).
Lemma outer_Delta : Delta a outer = 0.
Proof. unfold outer, Delta. pose proof (pow2_sqrt (1 - a^2) ltac:(lra)) as S. nra. Qed.
Lemma outside_Delta x : outer < x -> Delta a x <> 0.
Proof. intros K. apply Rgt_not_eq. unfold outer in K. apply (hz_Dpos a (proj2 Ha)). exact K. Qed.
(** the next time the radius reaches the horizon *)
Lemma next_crossing (r : R -> R) l0 : (forall l, exists d, is_derive r l d) -> outer < r l0 -> (exists l, l0 < l /\ r l <= outer) ->
  exists lH, l0 < lH /\ r lH = outer /\ forall l, l0 <= l < lH -> outer < r l.
Proof.
  intros D O (l1 & L1 & R1).
  destruct (first_crossing (fun l => r l - outer) l0 l1) as (lH & B & Z & K); try lra.
  - intros l. destruct (D l) as (d & K). apply (ex_derive_continuous (V := R_NormedModule)). auto_derive. exists d; exact K.
  - exists lH. split; [lra|]. split; [lra|]. intros l Hl. specialize (K l Hl). cbv beta in K. lra.
Qed.
Lemma late_phase u q c l0 : 0 < u -> exists l (k : Z), l0 < l /\ u * l + q = IZR k * (2 * PI) + c.
Proof.
  intros U. pose proof PI_RGT_0. destruct (archimed ((u * l0 + q - c) / (2 * PI))) as [A _]. set (k := up _) in *.
  exists ((IZR k * (2 * PI) + c - q) / u), k. split; [|field; lra].
  apply Rlt_div_r; [lra|]. assert (K : u * l0 + q - c < IZR k * (2 * PI)) by (apply (Rlt_div_l _ _ (2 * PI)); [lra | exact A]). lra.
Qed.

Lemma real_core r3 r4 r theta : real_plunge a E L Q r1 r2 r3 r4 -> not_marginal a E L -> r2 <> 0 ->
  coordinates (plunge_run a E L Q qt qr qth qph) r theta -> Delta a (r 0) <> 0 ->
  exists T1 T2 T3 T4, plunge_run a E L Q qt qr qth qph = Ret (T1, T2, T3, T4) /\
  forall l0, 1 + sqrt (1 - a^2) < r l0 ->
  exists lH, l0 < lH /\ r lH = 1 + sqrt (1 - a^2) /\ (forall l, l0 <= l < lH -> 1 + sqrt (1 - a^2) < r l) /\
  exists t phi, (forall l, l0 <= l < lH -> T1 (Some l) = Ret (Some (t l)) /\ T4 (Some l) = Ret (Some (phi l))) /\
  dt_dlambda a E L (r l0) (theta l0) <> 0 /\
  diverges_before t l0 lH (dt_dlambda a E L (r l0) (theta l0)) /\ corotates a t phi lH.
Proof.
  intros HC HN R2 HO D0.
  destruct (C58_time_and_azimuth_equations HP HX a E L Q Ha HE HL HQ r1 r2 r3 r4 HC qt qr qth qph r theta HN R2 HO D0) as (HH & T1 & T2 & T3 & T4 & t & phi & HR & _ & _ & HT).
  exists T1, T2, T3, T4. split; [exact HR|]. intros l0 O.
  destruct (C58_radial_and_polar_equations HP HX a E L Q Ha HE HL HQ r1 r2 r3 r4 HC qt qr qth qph) as (r' & th' & HO' & _ & _ & _ & _ & HK).
  assert (SAME : forall l, r' l = r l /\ th' l = theta l).
  { intros l. destruct (coords_real HP HX a E L Q Ha HE HL HQ r1 r2 r3 r4 HC qt qr qth qph r theta HO l) as [-> ->].
    exact (coords_real HP HX a E L Q Ha HE HL HQ r1 r2 r3 r4 HC qt qr qth qph r' th' HO' l). }
  assert (Dr : forall l, exists d, is_derive r l d /\ d^2 = radial_potential a E L Q (r l)).
  { intros l. destruct (HK l) as (_ & _ & _ & (d & D1 & D2) & _). exists d. destruct (SAME l) as [<- _]. split; [|exact D2]. apply (is_derive_ext r'); [intros s; apply SAME | exact D1]. }
  assert (Hth : forall l, 0 < sin (theta l) /\ 0 <= polar_potential a E L Q (theta l)).
  { intros l. destruct (HK l) as (_ & TB & _ & _ & (d & _ & D2)). destruct (SAME l) as [_ <-]. split; [apply sin_gt_0; lra|]. rewrite <- D2. apply pow2_ge_0. }
  destruct (next_crossing r l0) as (lH & B & AH & OUT).
  - intros l. destruct (Dr l) as (d & D & _). now exists d.
  - exact O.
  - destruct (real_signs HP a E L Q Ha HE HQ r1 r2 r3 r4 HC) as (_ & _ & _ & Hs & Hm & Hoo).
    destruct (late_phase (rur E r1 r2 r3 r4) qr 0 l0 (rur_pos HP a E L Q Ha HE HQ r1 r2 r3 r4 HC)) as (l & k & G1 & G2).
    exists l. split; [exact G1|]. destruct (coords_real HP HX a E L Q Ha HE HL HQ r1 r2 r3 r4 HC qt qr qth qph r theta HO l) as [-> _].
    unfold rlr. rewrite G2, Rplus_comm. rewrite (rho_shift HX r1 r2 r3 r4 Hm). rewrite (rho_0 HX E r1 r2 r3 r4 Hs Hm Hoo). left. apply HH. exact outer_Delta.
  - exists lH. split; [exact B|]. split; [exact AH|]. split; [exact OUT|]. exists t, phi.
    assert (TT : forall l, l0 <= l < lH -> _) by exact (fun l Hl => HT l (outside_Delta _ (OUT l Hl))).
    split; [intros l Hl; destruct (TT l Hl) as (K & _); exact (locally_singleton _ _ K)|].
    split; [apply (dt_nonzero a E L Q); [lra | assumption | apply Hth | apply Hth | destruct (Dr l0) as (d & _ & D2); rewrite <- D2; apply pow2_ge_0 | exact O]|]. split.
    + apply (horizon_both a E L Q); try assumption; [lra | intros l Hl; exact (proj1 (proj2 (TT l Hl))) | exact (HN _ outer_Delta)].
    + apply (corotation a E L t phi r theta l0 lH); try assumption; [lra | intros l; destruct (Dr l) as (d & K & _); now exists d | | intros l; apply Hth | intros l Hl; destruct (TT l Hl) as (_ & K1 & K2); now split].
      intros l. destruct (HK l) as (_ & _ & _ & _ & (d & D1 & _)). exists d. apply (is_derive_ext th'); [intros s; apply SAME | exact D1].
Qed.

Lemma complex_core r theta ur ut : complex_plunge a E L Q r1 r2 ->
  coordinates (plunge_run a E L Q qt qr qth qph) r theta ->
  plunging_mino_frequencies (Some a) (Some E) (Some L) (Some Q) = Ret (Some ur, Some ut) ->
  Delta a r1 <> 0 -> Delta a r2 <> 0 -> r1 + r2 <> 1 / (1 - E^2) ->
  (forall l, ur * l + qr = PI / 2 -> Delta a (r l) <> 0) ->
  clear_of_horizons a r ur 0 ->
  exists T1 T2 T3 T4, plunge_run a E L Q qt qr qth qph = Ret (T1, T2, T3, T4) /\
  forall l0, 1 + sqrt (1 - a^2) < r l0 ->
  exists lH, l0 < lH /\ r lH = 1 + sqrt (1 - a^2) /\ (forall l, l0 <= l < lH -> 1 + sqrt (1 - a^2) < r l) /\
  exists l1 t phi, l0 <= l1 < lH /\ (forall l, l1 <= l < lH -> T1 (Some l) = Ret (Some (t l)) /\ T4 (Some l) = Ret (Some (phi l))) /\
  dt_dlambda a E L (r l1) (theta l1) <> 0 /\
  diverges_before t l1 lH (dt_dlambda a E L (r l1) (theta l1)) /\ corotates a t phi lH.
Proof.
  intros HC HO HF N1 N2 N3 N4 CL.
  assert (Ha' : a <> 0) by (intros Z; rewrite Z in Ha; lra).
  destruct (C57_time_and_azimuth_equations HP HX a E L Q Ha' (proj2 Ha) HE HL HQ r1 r2 qt qr qth qph r theta ur ut HC HO HF N1 N2 N3 N4 CL) as (T1 & T2 & T3 & T4 & t & phi & HR & _ & _ & HT).
  exists T1, T2, T3, T4. split; [exact HR|]. intros l0 O.
  assert (U : 0 < ur).
  { destruct (C39_plunges_are_defined HP HX a E L Q Ha' HE HL HQ r1 r2 qt qr qth qph HC) as [(ur' & ut' & F & P1 & P2) _]. rewrite HF in F. assert (ur = ur') by congruence. lra. }
  pose proof (C40_radial_and_polar_equations HP HX a E L Q Ha' HE HL HQ r1 r2 qt qr qth qph r theta HC HO) as EQ.
  pose proof (C39_plunge_bounds HP HX a E L Q Ha' HE HL HQ r1 r2 qt qr qth qph r theta HC HO) as BD.
  assert (Dr : forall l, exists d, is_derive r l d /\ d^2 = radial_potential a E L Q (r l)).
  { intros l. destruct (EQ l) as (d & d' & D1 & _ & D2 & _). exists d. split; assumption. }
  assert (Hth : forall l, 0 < sin (theta l) /\ 0 <= polar_potential a E L Q (theta l)).
  { intros l. destruct (EQ l) as (d & d' & _ & _ & _ & _ & D2). destruct (BD l) as (_ & TB & _). split; [apply sin_gt_0; lra|]. rewrite <- D2. apply pow2_ge_0. }
  destruct (complex_plunge_inv HP a E L Q r1 r2 HC) as (u & v & R12 & V & _ & FA).
  assert (POS : forall h, 0 < (1 - E^2) * ((h - u)^2 + v^2)). { intros h. apply Rmult_lt_0_compat; [lra|]. pose proof (pow2_ge_0 (h - u)). assert (0 < v^2) by (apply pow_lt; lra). lra. }
  assert (R1 : r1 < outer).
  { assert (O1 : outer <> r1) by (intros Z; apply N1; rewrite <- Z; exact outer_Delta).
    pose proof (FA outer) as RO. unfold radial_potential in RO. rewrite outer_Delta in RO.
    apply Rnot_le_lt. intros K. assert (G : 0 < (r2 - outer) * (r1 - outer)) by (apply Rmult_lt_0_compat; lra).
    pose proof (pow2_ge_0 (E * (outer^2 + a^2) - a * L)) as SQ. pose proof (Rmult_lt_0_compat _ _ (POS outer) G). lra. }
  assert (RN : forall h, Delta a h = 0 -> radial_potential a E L Q h <> 0).
  { intros h Dh Z. rewrite FA in Z.
    assert (G : ((1 - E^2) * ((h - u)^2 + v^2)) * ((r2 - h) * (h - r1)) = 0) by lra.
    apply Rmult_integral in G. pose proof (POS h). destruct G as [G|G]; [lra|]. apply Rmult_integral in G as [G|G]; [apply N2 | apply N1]; [replace r2 with h by lra | replace r1 with h by lra]; exact Dh. }
  assert (HN : 2 * E * outer <> a * L).
  { intros Z. apply (RN outer outer_Delta). unfold radial_potential. rewrite outer_Delta. assert (W : outer^2 + a^2 = 2 * outer) by (pose proof outer_Delta as K; unfold Delta in K; lra).
    rewrite W. replace (E * (2 * outer) - a * L) with 0 by lra. ring. }
  destruct (next_crossing r l0) as (lH & B & AH & OUT).
  - intros l. destruct (Dr l) as (d & D & _). now exists d.
  - exact O.
  - destruct (late_phase ur qr 0 l0 U) as (l & k & G1 & G2). rewrite Rplus_0_r in G2. exists l. split; [exact G1|].
    destruct (C39_plunge_phases HP HX a E L Q Ha' HE HL HQ r1 r2 qt qr qth qph r theta ur ut HC HO HF l k) as (K & _). rewrite (K G2). lra.
  - exists lH. split; [exact B|]. split; [exact AH|]. split; [exact OUT|].
    destruct (Dr (lH + PI / ur)) as (d & D & D2).
    assert (DF : is_derive (fun l => Delta a (r (l + PI / ur))) lH ((2 * r (lH + PI / ur) - 2) * d)).
    { unfold Delta. auto_derive; [repeat split; exists d; exact D|]. match goal with |- context [Derive ?f (lH + PI / ur)] => change (Derive f (lH + PI / ur)) with (Derive r (lH + PI / ur)) end. rewrite (is_derive_unique r _ _ D). ring. }
    destruct (punctured (fun l => Delta a (r (l + PI / ur))) lH _ DF) as (e & E0 & HE1).
    { intros Z. cbv beta in Z. apply Rmult_integral_contrapositive. split.
      - intros K. replace (r (lH + PI / ur)) with 1 in Z by lra. unfold Delta in Z. lra.
      - intros K. apply (RN _ Z). rewrite <- D2, K. ring. }
    set (w := Rmin e (lH - l0)). assert (W : 0 < w /\ w <= e /\ w <= lH - l0) by (unfold w; split; [apply Rmin_pos; lra | split; [apply Rmin_l | apply Rmin_r]]). clearbody w.
    exists (lH - w), t, phi. split; [lra|].
    assert (TT : forall l, lH - w <= l < lH -> clear_of_horizons a r ur l).
    { intros l Hl. split; [apply outside_Delta, OUT; lra | apply HE1; lra]. }
    split; [intros l Hl; destruct (HT l (TT l Hl)) as (K & _); exact (locally_singleton _ _ K)|].
    split; [apply (dt_nonzero a E L Q); [lra | assumption | apply Hth | apply Hth | destruct (Dr (lH - w)) as (d1 & _ & D3); rewrite <- D3; apply pow2_ge_0 | apply OUT; lra]|]. split.
    + apply (horizon_both a E L Q); try assumption; [lra | lra | intros l Hl; exact (proj1 (proj2 (HT l (TT l Hl)))) | intros l Hl; apply OUT; lra].
    + apply (corotation a E L t phi r theta (lH - w) lH); try assumption; [lra | lra | intros l; destruct (Dr l) as (d1 & K & _); now exists d1 | | intros l; apply Hth | intros l Hl; destruct (HT l (TT l Hl)) as (_ & K1 & K2); now split | intros l Hl; apply OUT; lra].
      intros l. destruct (EQ l) as (d1 & d2 & _ & D3 & _). now exists d2.
Qed.

Theorem C88_real_plunge_reaches_horizon r3 r4 r theta : real_plunge a E L Q r1 r2 r3 r4 -> not_marginal a E L -> r2 <> 0 ->
  coordinates (plunge_run a E L Q qt qr qth qph) r theta -> Delta a (r 0) <> 0 ->
  exists T1 T2 T3 T4, plunge_run a E L Q qt qr qth qph = Ret (T1, T2, T3, T4) /\
  forall l0, 1 + sqrt (1 - a^2) < r l0 ->
  exists lH, l0 < lH /\ r lH = 1 + sqrt (1 - a^2) /\ (forall l, l0 <= l < lH -> 1 + sqrt (1 - a^2) < r l) /\
  exists t, (forall l, l0 <= l < lH -> T1 (Some l) = Ret (Some (t l))) /\
  dt_dlambda a E L (r l0) (theta l0) <> 0 /\ diverges_before t l0 lH (dt_dlambda a E L (r l0) (theta l0)).
Proof.
  intros H1 H2 H3 H4 H5. destruct (real_core r3 r4 r theta H1 H2 H3 H4 H5) as (T1 & T2 & T3 & T4 & HR & K). exists T1, T2, T3, T4. split; [exact HR|].
  intros l0 O. destruct (K l0 O) as (lH & B & AH & OUT & t & phi & TT & D0 & DV & _). exists lH. repeat split; try assumption; try apply OUT; try apply DV; try assumption.
  exists t. split; [intros l Hl; apply TT; exact Hl | split; [exact D0 | exact DV]].
Qed.

Theorem C88_complex_plunge_reaches_horizon r theta ur ut : complex_plunge a E L Q r1 r2 ->
  coordinates (plunge_run a E L Q qt qr qth qph) r theta ->
  plunging_mino_frequencies (Some a) (Some E) (Some L) (Some Q) = Ret (Some ur, Some ut) ->
  Delta a r1 <> 0 -> Delta a r2 <> 0 -> r1 + r2 <> 1 / (1 - E^2) ->
  (forall l, ur * l + qr = PI / 2 -> Delta a (r l) <> 0) ->
  clear_of_horizons a r ur 0 ->
  exists T1 T2 T3 T4, plunge_run a E L Q qt qr qth qph = Ret (T1, T2, T3, T4) /\
  forall l0, 1 + sqrt (1 - a^2) < r l0 ->
  exists lH, l0 < lH /\ r lH = 1 + sqrt (1 - a^2) /\ (forall l, l0 <= l < lH -> 1 + sqrt (1 - a^2) < r l) /\
  exists l1 t, l0 <= l1 < lH /\ (forall l, l1 <= l < lH -> T1 (Some l) = Ret (Some (t l))) /\
  dt_dlambda a E L (r l1) (theta l1) <> 0 /\ diverges_before t l1 lH (dt_dlambda a E L (r l1) (theta l1)).
Proof.
  intros H1 H2 H3 H4 H5 H6 H7 H8. destruct (complex_core r theta ur ut H1 H2 H3 H4 H5 H6 H7 H8) as (T1 & T2 & T3 & T4 & HR & K). exists T1, T2, T3, T4. split; [exact HR|].
  intros l0 O. destruct (K l0 O) as (lH & B & AH & OUT & l1 & t & phi & LL & TT & D0 & DV & _). exists lH. split; [exact B|]. split; [exact AH|]. split; [exact OUT|].
  exists l1, t. split; [exact LL|]. split; [intros l Hl; apply TT; exact Hl | split; [exact D0 | exact DV]].
Qed.

(** C91: corotation with the hole at the horizon *)
Theorem C91_real_plunge_corotates r3 r4 r theta : real_plunge a E L Q r1 r2 r3 r4 -> not_marginal a E L -> r2 <> 0 ->
  coordinates (plunge_run a E L Q qt qr qth qph) r theta -> Delta a (r 0) <> 0 ->
  exists T1 T2 T3 T4, plunge_run a E L Q qt qr qth qph = Ret (T1, T2, T3, T4) /\
  forall l0, 1 + sqrt (1 - a^2) < r l0 ->
  exists lH, l0 < lH /\ r lH = 1 + sqrt (1 - a^2) /\ (forall l, l0 <= l < lH -> 1 + sqrt (1 - a^2) < r l) /\
  exists t phi (psi : R), (forall l, l0 <= l < lH -> T1 (Some l) = Ret (Some (t l)) /\ T4 (Some l) = Ret (Some (phi l))) /\
  filterlim (fun l => phi l - a / (2 * (1 + sqrt (1 - a^2))) * t l) (at_left lH) (locally psi) /\
  filterlim (fun l => phi l / t l) (at_left lH) (locally (a / (2 * (1 + sqrt (1 - a^2))))).
Proof.
  intros H1 H2 H3 H4 H5. destruct (real_core r3 r4 r theta H1 H2 H3 H4 H5) as (T1 & T2 & T3 & T4 & HR & K). exists T1, T2, T3, T4. split; [exact HR|].
  intros l0 O. destruct (K l0 O) as (lH & B & AH & OUT & t & phi & TT & D0 & DV & psi & CO). exists lH. split; [exact B|]. split; [exact AH|]. split; [exact OUT|].
  exists t, phi, psi. split; [exact TT|]. split; [exact CO|]. exact (ratio_limit _ t phi l0 lH _ psi D0 DV CO).
Qed.

Theorem C91_complex_plunge_corotates r theta ur ut : complex_plunge a E L Q r1 r2 ->
  coordinates (plunge_run a E L Q qt qr qth qph) r theta ->
  plunging_mino_frequencies (Some a) (Some E) (Some L) (Some Q) = Ret (Some ur, Some ut) ->
  Delta a r1 <> 0 -> Delta a r2 <> 0 -> r1 + r2 <> 1 / (1 - E^2) ->
  (forall l, ur * l + qr = PI / 2 -> Delta a (r l) <> 0) ->
  clear_of_horizons a r ur 0 ->
  exists T1 T2 T3 T4, plunge_run a E L Q qt qr qth qph = Ret (T1, T2, T3, T4) /\
  forall l0, 1 + sqrt (1 - a^2) < r l0 ->
  exists lH, l0 < lH /\ r lH = 1 + sqrt (1 - a^2) /\ (forall l, l0 <= l < lH -> 1 + sqrt (1 - a^2) < r l) /\
  exists l1 t phi (psi : R), l0 <= l1 < lH /\ (forall l, l1 <= l < lH -> T1 (Some l) = Ret (Some (t l)) /\ T4 (Some l) = Ret (Some (phi l))) /\
  filterlim (fun l => phi l - a / (2 * (1 + sqrt (1 - a^2))) * t l) (at_left lH) (locally psi) /\
  filterlim (fun l => phi l / t l) (at_left lH) (locally (a / (2 * (1 + sqrt (1 - a^2))))).
Proof.
  intros H1 H2 H3 H4 H5 H6 H7 H8. destruct (complex_core r theta ur ut H1 H2 H3 H4 H5 H6 H7 H8) as (T1 & T2 & T3 & T4 & HR & K). exists T1, T2, T3, T4. split; [exact HR|].
  intros l0 O. destruct (K l0 O) as (lH & B & AH & OUT & l1 & t & phi & LL & TT & D0 & DV & psi & CO). exists lH. split; [exact B|]. split; [exact AH|]. split; [exact OUT|].
  exists l1, t, phi, psi. split; [exact LL|]. split; [exact TT|]. split; [exact CO|]. exact (ratio_limit _ t phi l1 lH _ psi D0 DV CO).
Qed.
End Plunge.

(** both theorems apply: the inclined plunges of C58_case and C57_case start their motion outside the outer horizon at some Mino time *)
Example C88_case {X : External R} (HP : polyroots_spec X) (HX : special_spec X) :
  (exists r1 r2 r theta l0, real_plunge (1/2) (67/72) (403/144) (5/3) r1 r2 6 6 /\ not_marginal (1/2) (67/72) (403/144) /\ r2 <> 0 /\
    coordinates (plunge_run (1/2) (67/72) (403/144) (5/3) 0 0 0 0) r theta /\ Delta (1/2) (r 0) <> 0 /\ 1 + sqrt (1 - (1/2)^2) < r l0) /\
  (exists r theta ur ut l0, complex_plunge (3/5) (3/5) (2/75) (2/9) (1/8) 3 /\
    coordinates (plunge_run (3/5) (3/5) (2/75) (2/9) 0 0 0 0) r theta /\
    plunging_mino_frequencies (Some (3/5)) (Some (3/5)) (Some (2/75)) (Some (2/9)) = Ret (Some ur, Some ut) /\
    Delta (3/5) (1/8) <> 0 /\ Delta (3/5) 3 <> 0 /\ 1/8 + 3 <> 1 / (1 - (3/5)^2) /\
    (forall l, ur * l + 0 = PI / 2 -> Delta (3/5) (r l) <> 0) /\ clear_of_horizons (3/5) r ur 0 /\ 1 + sqrt (1 - (3/5)^2) < r l0).
Proof.
  split.
  - destruct (C58_case HP HX) as (A1 & A2 & A3 & A4 & M & r1 & r2 & Z2 & C & r & theta & K & D).
    destruct (C58_radial_and_polar_equations HP HX _ _ _ _ A1 A2 A3 A4 r1 r2 6 6 C 0 0 0 0) as (r' & th' & K' & _ & _ & (l0 & L0) & _).
    destruct (C58_time_and_azimuth_equations HP HX _ _ _ _ A1 A2 A3 A4 r1 r2 6 6 C 0 0 0 0 r theta M Z2 K D) as (HH & _).
    exists r1, r2, r, theta, l0. refine (conj C (conj M (conj Z2 (conj K (conj D _))))).
    destruct (coords_real HP HX _ _ _ _ A1 A2 A3 A4 r1 r2 6 6 C 0 0 0 0 r theta K l0) as [-> _].
    destruct (coords_real HP HX _ _ _ _ A1 A2 A3 A4 r1 r2 6 6 C 0 0 0 0 r' th' K' l0) as [<- _]. rewrite L0.
    apply HH. exact (outer_Delta (1/2) A1).
  - destruct (C57_case HP HX) as (r & th & ur & ut & C & H & F & N1 & N2 & N12 & Nq & N0).
    assert (Ha : 3/5 <> 0) by lra. assert (HE : (3/5)^2 < 1) by lra. assert (HL : 2/75 <> 0) by lra. assert (HQ : 0 <= 2/9) by lra.
    destruct (C39_plunges_are_defined HP HX (3/5) (3/5) (2/75) (2/9) Ha HE HL HQ (1/8) 3 0 0 0 0 C) as [(ur' & ut' & F' & U & _) _].
    assert (U0 : 0 < ur) by (rewrite F in F'; assert (ur = ur') by congruence; lra).
    destruct (C39_plunge_phases HP HX (3/5) (3/5) (2/75) (2/9) Ha HE HL HQ (1/8) 3 0 0 0 0 r th ur ut C H F (PI / ur) 0) as (_ & Z2 & _).
    exists r, th, ur, ut, (PI / ur). refine (conj C (conj H (conj F (conj N1 (conj N2 (conj N12 (conj Nq (conj N0 _)))))))).
    rewrite Z2 by (field_simplify; lra). replace (1 - (3/5)^2) with ((4/5)^2) by field. rewrite sqrt_pow2; lra.
Qed.

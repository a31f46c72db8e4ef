(** * C81: the numerical four-velocity of a stable orbit converges to the analytic one, and its norm to -1 *)
From Coq Require Import Reals Lra Lia ZArith String List.
From Coquelicot Require Import Coquelicot.
From Verif Require Import Num Outcome External Checked ExternalSpec Spec SpecElliptic.
From Verif Require Import Model_Units Model_Constants Model_Frequencies Model_Spacetime Model_Stable Model_Orbit.
From Verif Require Import Props_Constants Props_Spacetime Props_Orbit Props_Trajectory Props_Restart Props_Constructors.
Open Scope R_scope.
Lemma lim_kerr a r th (f1 f2 f3 f4 : R -> R) (v1 v2 v3 v4 : R) :
  is_lim f1 0 v1 -> is_lim f2 0 v2 -> is_lim f3 0 v3 -> is_lim f4 0 v4 ->
  is_lim (fun dx => kerr_line_element a r th (f1 dx) (f2 dx) (f3 dx) (f4 dx)) 0 (kerr_line_element a r th v1 v2 v3 v4).
Proof.
  intros H1 H2 H3 H4.
  assert (SC : forall c (f : R -> R) v, is_lim f 0 (Finite v) -> is_lim (fun y => c * f y) 0 (Finite (c * v))).
  { intros c f v H. exact (is_lim_scal_l f c 0 v H). }
  assert (SQ : forall (f : R -> R) v, is_lim f 0 (Finite v) -> is_lim (fun y => f y ^2) 0 (Finite (v^2))).
  { intros f v H. apply (is_lim_ext (fun y => f y * f y)); [intros y; ring|]. replace (v^2) with (v * v) by ring.
    exact (is_lim_mult f f 0 v v H H I). }
  unfold kerr_line_element.
  apply (is_lim_plus' (fun dx => - (Delta a r / Sigma a r th) * (f1 dx - a * sin th ^2 * f4 dx) ^ 2
     + sin th ^ 2 / Sigma a r th * ((r ^ 2 + a ^ 2) * f4 dx - a * f1 dx) ^ 2 + Sigma a r th / Delta a r * f2 dx ^2) (fun dx => Sigma a r th * f3 dx ^2)); [|exact (SC _ _ _ (SQ _ _ H3))].
  apply (is_lim_plus' (fun dx => - (Delta a r / Sigma a r th) * (f1 dx - a * sin th ^2 * f4 dx) ^ 2
     + sin th ^ 2 / Sigma a r th * ((r ^ 2 + a ^ 2) * f4 dx - a * f1 dx) ^ 2) (fun dx => Sigma a r th / Delta a r * f2 dx ^2)); [|exact (SC _ _ _ (SQ _ _ H2))].
  apply (is_lim_plus' (fun dx => - (Delta a r / Sigma a r th) * (f1 dx - a * sin th ^2 * f4 dx) ^ 2) (fun dx => sin th ^ 2 / Sigma a r th * ((r ^ 2 + a ^ 2) * f4 dx - a * f1 dx) ^ 2)).
  - apply (SC _ (fun dx => (f1 dx - a * sin th^2 * f4 dx)^2)). apply (SQ (fun dx => f1 dx - a * sin th^2 * f4 dx)).
    apply (is_lim_minus' f1 (fun dx => a * sin th^2 * f4 dx)); [exact H1 | exact (SC _ _ _ H4)].
  - apply (SC _ (fun dx => ((r ^ 2 + a ^ 2) * f4 dx - a * f1 dx)^2)). apply (SQ (fun dx => (r ^ 2 + a ^ 2) * f4 dx - a * f1 dx)).
    apply (is_lim_minus' (fun dx => (r ^ 2 + a ^ 2) * f4 dx) (fun dx => a * f1 dx)); [exact (SC _ _ _ H4) | exact (SC _ _ _ H1)].
Qed.
Section S.
Context {X : External R} (HX : special_spec X) (HR : root_spec X).
Theorem C81_numerical_velocity_converges a p e x qt qr qth qph M mu ur uth uph gam o :
  mino_frequencies (Some a) (Some p) (Some e) (Some x) = Ret (Some ur, Some uth, Some uph, Some gam) ->
  StableOrbit_init (Some a) (Some p) (Some e) (Some x) (Some qt, Some qr, Some qth, Some qph) M mu = Ret o ->
  exists U1 U2 U3 U4, Orbit_four_velocity o None = Ret (U1, U2, U3, U4) /\
  exists n1 n2 n3 n4 n : R -> R -> R,
  (forall dx, dx <> 0 -> exists N1 N2 N3 N4 N,
     Orbit_numerical_four_velocity o (Some dx) None = Ret (N1, N2, N3, N4) /\
     Orbit_numerical_four_velocity_norm o (Some dx) None = Ret N /\
     forall l, N1 (Some l) = Ret (Some (n1 dx l)) /\ N2 (Some l) = Ret (Some (n2 dx l)) /\
               N3 (Some l) = Ret (Some (n3 dx l)) /\ N4 (Some l) = Ret (Some (n4 dx l)) /\ N (Some l) = Ret (Some (n dx l))) /\
  forall l, exists v1 v2 v3 v4 : R,
    U1 (Some l) = Ret (Some v1) /\ U2 (Some l) = Ret (Some v2) /\ U3 (Some l) = Ret (Some v3) /\ U4 (Some l) = Ret (Some v4) /\
    is_lim (fun dx => n1 dx l) 0 v1 /\ is_lim (fun dx => n2 dx l) 0 v2 /\
    is_lim (fun dx => n3 dx l) 0 v3 /\ is_lim (fun dx => n4 dx l) 0 v4 /\
    is_lim (fun dx => n dx l) 0 (-1).
Proof.
  intros HF HO.
  destruct (C66_stable_orbit HX HR a p e x qt qr qth qph M mu ur uth uph gam HF) as
    (o' & E & L & Q & r & theta & HO' & _ & Oa & _ & OE & OL & OQ & _ & _ & _ & Op & _ & _ & _ & _ & DG & _ & t & phi & RA & _ & _ & DTP).
  assert (o' = o) by (rewrite HO in HO'; apply Ret_inj in HO'; congruence). subst o'. clear HO'.
  destruct DG as (T1 & T2 & T3 & T4 & U1 & U2 & U3 & U4 & nrm & TR & FV & NR & TV & UV).
  destruct RA as (T1' & T2' & T3' & T4' & TR' & RV). rewrite TR in TR'. apply Ret_inj in TR'.
  apply pair_equal_spec in TR' as [TR' <-]. apply pair_equal_spec in TR' as [TR' <-]. apply pair_equal_spec in TR' as [<- <-].
  exists U1, U2, U3, U4. split; [exact FV|].
  assert (TRp : Orbit_trajectory o (Some (o_phases o)) "natural" "natural" = Ret (T1, T2, T3, T4)) by exact TR.
  assert (FVp : Orbit_four_velocity o (Some (o_phases o)) = Ret (U1, U2, U3, U4)) by exact FV.
  assert (NRV : forall l, nrm (Some l) = Ret (Some (-1)) -> forall v1 v2 v3 v4,
     U1 (Some l) = Ret (Some v1) -> U2 (Some l) = Ret (Some v2) -> U3 (Some l) = Ret (Some v3) -> U4 (Some l) = Ret (Some v4) ->
     norm (Some (Rabs a)) (Some (t l)) (Some (r l)) (Some (theta l)) (Some (phi l)) (Some v1, Some v2, Some v3, Some v4) = Some (-1)).
  { intros l Hn v1 v2 v3 v4 K1 K2 K3 K4. unfold Orbit_four_velocity_norm in NR. rewrite TRp in NR. cbn [bind] in NR. rewrite FVp in NR. cbn [bind] in NR.
    apply Ret_inj in NR. rewrite <- NR in Hn. rewrite K1, K2, K3, K4 in Hn. cbn [bind] in Hn. destruct (RV l) as (J1 & J2 & J3 & J4).
    rewrite J1, J2, J3, J4 in Hn. cbn [bind] in Hn. rewrite Oa in Hn. now apply Ret_inj in Hn. }
  assert (SD : forall l, Sigma (Rabs a) (r l) (theta l) <> 0 /\ Delta (Rabs a) (r l) <> 0).
  { intros l. destruct (UV l I) as (v1 & v2 & v3 & v4 & K1 & K2 & K3 & K4 & _ & _ & _ & _ & _ & Hn).
    pose proof (NRV l Hn v1 v2 v3 v4 K1 K2 K3 K4) as NN.
    split; intros Z; rewrite C02_norm_undefined_on_singularity in NN by tauto; discriminate. }
  set (S := fun l => Sigma (Rabs a) (r l) (theta l)) in *.
  exists (fun dx l => five_point t dx l / S l), (fun dx l => five_point r dx l / S l), (fun dx l => five_point theta dx l / S l), (fun dx l => five_point phi dx l / S l),
    (fun dx l => kerr_line_element (Rabs a) (r l) (theta l) (five_point t dx l / S l) (five_point r dx l / S l) (five_point theta dx l / S l) (five_point phi dx l / S l)).
  split.
  - intros dx Hdx.
    destruct (C42_numerical_four_velocity o (Rabs a) (o_phases o) T1 T2 T3 T4 t r theta phi Oa TRp
      ltac:(intros l; apply RV) ltac:(intros l; apply RV) ltac:(intros l; apply RV) ltac:(intros l; apply RV) dx Hdx) as (N1 & N2 & N3 & N4 & NE & NV).
    unfold Orbit_numerical_four_velocity_norm. rewrite TRp. cbn [bind].
    assert (NE' : Orbit_numerical_four_velocity o (Some dx) None = Ret (N1, N2, N3, N4)) by exact NE.
    rewrite NE. cbn [bind]. do 5 eexists. split; [exact NE'|]. split; [reflexivity|]. intros l.
    destruct (SD l) as [S0 D0]. destruct (NV l S0) as (K1 & K2 & K3 & K4). refine (conj K1 (conj K2 (conj K3 (conj K4 _)))).
    rewrite K1, K2, K3, K4. cbn [bind]. destruct (RV l) as (J1 & J2 & J3 & J4). rewrite J1, J2, J3, J4. cbn [bind]. rewrite Oa.
    f_equal. apply (C02_norm_is_kerr_line_element (Rabs a)); assumption.
  - intros l. destruct (UV l I) as (v1 & v2 & v3 & v4 & K1 & K2 & K3 & K4 & D2 & D3 & E1 & E4 & _ & Hn).
    exists v1, v2, v3, v4. refine (conj K1 (conj K2 (conj K3 (conj K4 _)))).
    destruct (SD l) as [S0 D0]. destruct (DTP l) as [D1 D4]. rewrite <- E1 in D1. rewrite <- E4 in D4.
    assert (LIM : forall (f : R -> R) (v : R), is_derive f l (Sigma (Rabs a) (r l) (theta l) * v) -> is_lim (fun dx => five_point f dx l / S l) 0 v).
    { intros f v D. pose proof (is_lim_scal_r _ (/ S l) _ _ (C42_converges f l _ D)) as C. cbn in C.
      replace (Sigma (Rabs a) (r l) (theta l) * v * / S l) with v in C by (unfold S; field; exact S0). exact C. }
    pose proof (LIM _ _ D1) as L1. pose proof (LIM _ _ D2) as L2. pose proof (LIM _ _ D3) as L3. pose proof (LIM _ _ D4) as L4.
    refine (conj L1 (conj L2 (conj L3 (conj L4 _)))).
    pose proof (NRV l Hn v1 v2 v3 v4 K1 K2 K3 K4) as NN. rewrite C02_norm_is_kerr_line_element in NN by assumption.
    assert (V : kerr_line_element (Rabs a) (r l) (theta l) v1 v2 v3 v4 = -1) by congruence. rewrite <- V.
    apply (lim_kerr (Rabs a) (r l) (theta l) (fun dx => five_point t dx l / S l) (fun dx => five_point r dx l / S l) (fun dx => five_point theta dx l / S l) (fun dx => five_point phi dx l / S l)); assumption.
Qed.
(** every orbit whose frequencies are defined meets the hypotheses, e.g. an eccentric, inclined, retrograde one *)
Theorem C81_case : exists ur uth uph gam o,
  mino_frequencies (Some (1/2)) (Some 20) (Some (1/2)) (Some (-1/2)) = Ret (Some ur, Some uth, Some uph, Some gam) /\
  StableOrbit_init (Some (1/2)) (Some 20) (Some (1/2)) (Some (-1/2)) (Some 0, Some 0, Some 0, Some 0) None None = Ret o.
Proof.
  destruct (far_retrograde HX HR (1/2) 20 (1/2) (-1/2)) as (E & L & Q & ur & uth & uph & gam & HC & HF); try lra.
  destruct (C66_stable_orbit HX HR (1/2) 20 (1/2) (-1/2) 0 0 0 0 None None ur uth uph gam HF) as (o & _ & _ & _ & _ & _ & HO & _).
  exists ur, uth, uph, gam, o. split; assumption.
Qed.
End S.

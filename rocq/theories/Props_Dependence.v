(** * C99: trajectories depend continuously on the orbit and on the initial phases *)
From Coq Require Import Reals Lra Lia String ClassicalEpsilon.
From Coquelicot Require Import Coquelicot.
From Verif Require Import Num Outcome External Checked ExternalSpec.
From Verif Require Import Model_Constants Model_Frequencies Model_Stable.
From Verif Require Import Spec SpecElliptic Elliptic P_Validation Props_Validation P_Bounds P_Schmidt P_Constants Props_Constants.
From Verif Require Import P_Radial P_Polar P_Traj P_Traj2 P_Traj3 P_Traj4 Props_Trajectory Props_Frequencies.
From Verif Require Import SpecGeodesic P_Geodesic Props_Geodesic Props_Symmetry Props_Restart Props_Continuity Props_FreqContinuity P_Gronwall.
Open Scope R_scope.

Record mot := mkMot { mE : R; mL : R; mQ : R; mr : R -> R; mvr : R -> R; mz : R -> R; mvz : R -> R }.
Definition rc1 (a E L Q : R) : R := 2 * E * (E * a^2 - a * L) - ((L - a * E)^2 + Q) - a^2.
Definition zc1 (a E L Q : R) : R := - (Q + L^2 + a^2 * (1 - E^2)).
Definition zc3 (a E : R) : R := 2 * (a^2 * (1 - E^2)).

Record motion_ok {X : External R} (a p e x ur uth : R) (m : mot) : Prop := {
  mo_c : constants_of_motion (Some a) (Some p) (Some e) (Some x) = Ret (Some (mE m), Some (mL m), Some (mQ m));
  mo_u : 0 < ur /\ 0 < uth /\ x <> 0 /\ -1 <= x <= 1 /\ 0 <= a < 1 /\ 0 <= e < 1;
  mo_r : forall l, is_derive (mr m) l (mvr m l);
  mo_vr : forall l, is_derive (mvr m) l (cubic ((mL m - a * mE m)^2 + mQ m) (rc1 a (mE m) (mL m) (mQ m)) 3 (2 * mE m ^2 - 2) (mr m l));
  mo_r0 : mr m 0 = p / (1 + e); mo_vr0 : mvr m 0 = 0;
  mo_rb : forall l, p / (1 + e) <= mr m l <= p / (1 - e);
  mo_D : 1 < p / (1 + e) /\ 0 < Delta a (p / (1 + e));
  mo_z : forall l, is_derive (mz m) l (mvz m l);
  mo_vz : forall l, is_derive (mvz m) l (cubic 0 (zc1 a (mE m) (mL m) (mQ m)) 0 (zc3 a (mE m)) (mz m l));
  mo_z0 : mz m 0 = sqrt (1 - x^2); mo_vz0 : mvz m 0 = 0;
  mo_zb : forall l, - sqrt (1 - x^2) <= mz m l <= sqrt (1 - x^2);
  mo_run : forall qt qr qth qph t r theta phi,
    runs_as (stable_trajectory (Some a) (Some p) (Some e) (Some x) (Some qt, Some qr, Some qth, Some qph) None "natural" "natural") t r theta phi ->
    t 0 = qt /\ phi 0 = qph /\ forall l, r l = mr m (l + qr / ur) /\ theta l = acos (mz m (l + qth / uth)) /\
    is_derive t l (dt_dlambda a (mE m) (mL m) (r l) (theta l)) /\ is_derive phi l (dphi_dlambda a (mE m) (mL m) (r l) (theta l))
}.

Section Motion.
Context {X : External R} (HX : special_spec X) (HR : root_spec X).
Lemma motion a p e x ur uth uph gam : 0 <= a ->
  mino_frequencies (Some a) (Some p) (Some e) (Some x) = Ret (Some ur, Some uth, Some uph, Some gam) -> exists m, motion_ok a p e x ur uth m.
Proof.
  intros Ha HF.
  destruct (mino_facts HX HR a p e x ur uth uph gam Ha HF) as (E & L & Q & r1 & r2 & r3 & r4 & zp & beta & a2s & F).
  pose proof (of_constants _ _ _ _ _ _ _ _ _ _ _ _ _ _ _ _ _ _ F) as HC.
  destruct (constants_inv _ _ _ _ _ _ _ Ha HC) as [HCK _].
  destruct (accepted_bounds HR _ _ _ _ Ha HCK) as (Ha1 & _ & Hx & Hr2 & HD & _ & _).
  set (rr := sr ur r1 r2 r3 r4 0). set (vv := svr ur r1 r2 r3 r4 0). set (tt := sth a x uth E beta 0). set (wv := svth a x uth E beta 0).
  assert (UR : 0 < ur). { destruct F. rewrite of_ur. pose proof PI_RGT_0. pose proof (K_pos _ _ _ _ of_kr). apply Rdiv_lt_0_compat; [|lra]. apply Rmult_lt_0_compat; [lra | now apply sqrt_lt_R0]. }
  assert (UT : 0 < uth). { destruct F. rewrite of_uth. pose proof PI_RGT_0. pose proof (Kt_pos _ _ _ _ of_z of_kt). apply Rdiv_lt_0_compat; [|lra]. apply Rmult_lt_0_compat; [lra | now apply sqrt_lt_R0]. }
  assert (Dr : forall l, is_derive rr l (vv l)).
  { intros l. unfold rr, vv, svr. apply comp_lin. exact (fr_derive HX _ _ _ _ _ _ _ _ _ _ _ _ _ _ _ _ _ _ F _). }
  assert (Dt : forall l, is_derive tt l (wv l)).
  { intros l. unfold tt, wv, svth. apply comp_lin. exact (fth_derive HX _ _ _ _ _ _ _ _ _ _ _ _ _ _ _ _ _ _ F _). }
  assert (Dv : forall l, is_derive vv l (radial_force a E L Q (rr l))) by (intros l; exact (svr_derive HX _ _ _ _ _ _ _ _ _ _ _ _ _ _ _ _ _ _ F 0 l)).
  assert (Dw : forall l, is_derive wv l (polar_force a E L (tt l))) by (intros l; exact (svth_derive HX _ _ _ _ _ _ _ _ _ _ _ _ _ _ _ _ _ _ F 0 l)).
  assert (Sn : forall l, 0 < sin (tt l)) by (intros l; exact (sth_sin_pos _ _ _ _ _ _ _ _ _ _ _ _ _ _ _ _ _ _ F 0 l)).
  assert (V2 : forall l, vv l ^2 = radial_potential a E L Q (rr l)).
  { intros l. pose proof (ur_w _ _ _ _ _ _ _ _ _ _ _ _ _ _ _ _ _ _ F) as W. destruct F. rewrite of_R. apply (rho_ode _ _ _ _ _ of_s of_kr of_ord). exact W. }
  assert (W2 : forall l, wv l ^2 = polar_potential a E L Q (tt l)).
  { intros l. pose proof (uth_w _ _ _ _ _ _ _ _ _ _ _ _ _ _ _ _ _ _ F) as W. pose proof (Sn l) as S. destruct F.
    unfold wv, svth. rewrite (th_ode _ _ _ of_z of_b of_kt _ _ _ _ W).
    change (th (1 - x^2) (psi_t a E (1 - x^2) beta) (uth * l + 0)) with (tt l).
    unfold polar_potential. pose proof (of_Z (cos (tt l)^2)) as Z. unfold polar_polynomial in Z. rewrite <- Z.
    replace (1 - cos (tt l) ^ 2) with (sin (tt l) ^ 2) by (rewrite cos2_sin2; ring). field. lra. }
  pose proof (trajectory_runs HX _ _ _ _ _ _ _ _ _ _ _ _ _ _ _ _ _ _ F 0 0 0 0 HF) as R0.
  assert (P0 : rr 0 = p / (1 + e) /\ tt 0 = acos (sqrt (1 - x^2))).
  { destruct (C26_phases HX HR a p e x ur uth uph gam Ha HF _ _ _ _ _ _ _ _ R0 0 0) as (K1 & _ & K2 & _). split; [apply K1 | apply K2]; simpl; ring. }
  assert (SQ : 0 <= sqrt (1 - x^2) < 1).
  { destruct F. split; [apply sqrt_pos|]. apply Rlt_le_trans with (sqrt 1); [apply sqrt_lt_1; lra | rewrite sqrt_1; lra]. }
  assert (BT : forall l, - sqrt (1 - x^2) <= cos (tt l) <= sqrt (1 - x^2)).
  { intros l. destruct F. unfold tt, sth, fth. rewrite cos_th by exact of_z. now apply cth_bound. }
  exists (mkMot E L Q rr vv (fun l => cos (tt l)) (fun l => - sin (tt l) * wv l)).
  constructor; cbn [mE mL mQ mr mvr mz mvz].
  - exact HC.
  - destruct F. tauto.
  - exact Dr.
  - intros l. match goal with |- is_derive _ _ ?v => replace v with (radial_force a E L Q (rr l)); [apply Dv|] end. unfold radial_force, cubic, rc1, Delta. ring.
  - apply P0.
  - pose proof (V2 0) as V. rewrite (proj1 P0) in V. destruct F. rewrite of_R, <- of_r2, Rminus_eq_0 in V.
    apply Rsqr_0_uniq. unfold Rsqr. replace (vv 0 * vv 0) with (vv 0 ^2) by ring. rewrite V. ring.
  - intros l. apply (C25_bound_motion HX HR _ _ _ _ _ _ _ _ Ha HF _ _ _ _ _ _ _ _ R0 l).
  - tauto.
  - intros l. auto_derive; [now exists (wv l)|]. rewrite (is_derive_unique (fun x : R => tt x) _ _ (Dt l)). ring.
  - intros l. match goal with |- is_derive _ _ ?v => replace v with (- cos (tt l) * wv l * wv l - sin (tt l) * polar_force a E L (tt l)) end.
    + auto_derive; [refine (conj _ (conj _ I)); [now exists (wv l) | eexists; apply Dw]|].
      rewrite (is_derive_unique (fun x : R => tt x) _ _ (Dt l)), (is_derive_unique (fun x : R => wv x) _ _ (Dw l)). ring.
    + replace (- cos (tt l) * wv l * wv l) with (- cos (tt l) * wv l ^2) by ring. rewrite W2. unfold polar_potential, polar_force, cubic, zc1, zc3.
      pose proof (Sn l) as S. set (s := sin (tt l)) in *. set (c := cos (tt l)) in *. assert (SC : s^2 = 1 - c^2) by (unfold s, c; pose proof (sin2_cos2 (tt l)) as U; unfold Rsqr in U; lra).
      apply (Rmult_eq_reg_r (s^2)); [|apply pow_nonzero; lra].
      transitivity (- c * (Q * s^2 - c^2 * (a^2 * (1 - E^2) * s^2 + L^2)) - (a^2 * (1 - E^2) * s^2 * c * s^2 + L^2 * c)); [field; lra|]. rewrite SC. ring.
  - rewrite (proj2 P0). apply cos_acos. lra.
  - pose proof (W2 0) as W. rewrite (proj2 P0) in W. unfold polar_potential in W. rewrite cos_acos in W by lra.
    assert (S0 : sin (acos (sqrt (1 - x^2))) ^2 = x^2). { pose proof (Sn 0) as S. rewrite (proj2 P0) in S. pose proof (sin2_cos2 (acos (sqrt (1 - x^2)))) as U. unfold Rsqr in U. rewrite cos_acos in U by lra.
      assert (sqrt (1 - x^2) * sqrt (1 - x^2) = 1 - x^2) by (apply sqrt_sqrt; destruct F; lra). lra. }
    rewrite S0 in W. destruct F. rewrite pow2_sqrt in W by lra. pose proof (of_Z (1 - x^2)) as Z. rewrite Rminus_eq_0, Rmult_0_l in Z. unfold polar_polynomial in Z.
    assert (XX : x^2 <> 0) by (apply pow_nonzero; tauto).
    assert (WW : wv 0 ^2 = 0). { rewrite W. apply (Rmult_eq_reg_r (x^2)); [|exact XX]. rewrite Rmult_0_l, <- Z. field. tauto. }
    assert (wv 0 = 0) by (apply Rsqr_0_uniq; unfold Rsqr; lra). rewrite H. ring.
  - exact BT.
  - intros qt qr qth qph t r theta phi H.
    pose proof (trajectory_runs HX _ _ _ _ _ _ _ _ _ _ _ _ _ _ _ _ _ _ F qt qr qth qph HF) as R1.
    pose proof (runs_as_unique _ _ _ _ _ _ _ _ _ H R1) as EQ.
    pose proof (C29_time_and_azimuth_equations HX HR a p e x ur uth uph gam Ha HF _ _ _ _ _ _ _ _ H E L Q HC) as TA.
    assert (I1 : t 0 = qt) by (rewrite (proj1 (EQ 0)); unfold st; rewrite !Rmult_0_r, !Rplus_0_l, Rplus_0_r; ring).
    assert (I2 : phi 0 = qph) by (rewrite (proj2 (proj2 (proj2 (EQ 0)))); unfold sph; rewrite !Rmult_0_r, !Rplus_0_l, Rplus_0_r; ring).
    refine (conj I1 (conj I2 _)). intros l. destruct (EQ l) as (_ & E2 & E3 & _). destruct (TA l) as (_ & _ & K1 & K2).
    refine (conj _ (conj _ (conj K1 K2))).
    + rewrite E2. unfold rr, sr. f_equal. field. lra.
    + rewrite E3. assert (EE : sth a x uth E beta qth l = tt (l + qth / uth)) by (unfold tt, sth; f_equal; field; lra). rewrite EE.
      symmetry. apply acos_cos. pose proof (acos_bound (cth (1 - x^2) (psi_t a E (1 - x^2) beta) (uth * (l + qth / uth) + 0))) as B. exact B.
Qed.
End Motion.

Lemma acos_derive c : -1 < c < 1 -> derivable_pt_lim acos c (-1 / sqrt (1 - c²)).
Proof. intros H. apply (derive_pt_eq_1 acos c _ (derivable_pt_acos c H)). apply derive_pt_acos. Qed.
Lemma acos_lipschitz s u v : 0 <= s < 1 -> Rabs u <= s -> Rabs v <= s -> Rabs (acos u - acos v) <= / sqrt (1 - s^2) * Rabs (u - v).
Proof.
  intros Hs Hu Hv. apply Rabs_le_between in Hu. apply Rabs_le_between in Hv.
  destruct (MVT_gen acos v u (fun c => - / sqrt (1 - c²))) as (c & C & ->).
  - intros c C. apply is_derive_Reals. unfold Rmin, Rmax in C. destruct (Rle_dec v u).
    + replace (- / sqrt (1 - c²)) with (-1 / sqrt (1 - c²)) by (unfold Rdiv; ring). apply acos_derive. lra.
    + replace (- / sqrt (1 - c²)) with (-1 / sqrt (1 - c²)) by (unfold Rdiv; ring). apply acos_derive. lra.
  - intros c C. apply derivable_continuous_pt. exists (-1 / sqrt (1 - c²)). apply acos_derive. unfold Rmin, Rmax in C. destruct (Rle_dec v u); lra.
  - rewrite Rabs_mult. apply Rmult_le_compat_r; [apply Rabs_pos|]. rewrite Rabs_Ropp.
    assert (c² <= s^2). { unfold Rsqr. unfold Rmin, Rmax in C. destruct (Rle_dec v u); nra. }
    assert (0 < sqrt (1 - s^2)) by (apply sqrt_lt_R0; nra). assert (sqrt (1 - s^2) <= sqrt (1 - c²)) by (apply sqrt_le_1_alt; lra).
    rewrite Rabs_pos_eq by (left; apply Rinv_0_lt_compat; lra). now apply Rinv_le_contravar.
Qed.
Lemma converges_acos (fn : nat -> R -> R) (f : R -> R) (s : R) : 0 <= s < 1 -> (forall l, Rabs (f l) <= s) -> converges fn f ->
  converges (fun n l => acos (fn n l)) (fun l => acos (f l)).
Proof.
  intros Hs Hf C T eps He. set (k := (s + 1) / 2). assert (Hk : 0 <= k < 1) by (unfold k; lra).
  assert (K0 : 0 < sqrt (1 - k^2)) by (apply sqrt_lt_R0; nra).
  set (d := Rmin ((1 - s) / 2) (eps * sqrt (1 - k^2) / 2)). assert (D0 : 0 < d) by (apply Rmin_glb_lt; nra).
  destruct (C T d D0) as [N K]. exists N. intros n Hn l Hl. specialize (K n Hn l Hl). specialize (Hf l).
  assert (d <= (1 - s) / 2) by apply Rmin_l. assert (d <= eps * sqrt (1 - k^2) / 2) by apply Rmin_r.
  assert (Rabs (fn n l) <= k). { replace (fn n l) with (f l + (fn n l - f l)) by ring. pose proof (Rabs_triang (f l) (fn n l - f l)). unfold k. lra. }
  apply Rle_lt_trans with (1 := acos_lipschitz k (fn n l) (f l) Hk H1 ltac:(unfold k; lra)).
  apply (Rmult_lt_reg_l (sqrt (1 - k^2))); [exact K0|]. rewrite <- Rmult_assoc, Rinv_r, Rmult_1_l by lra. nra.
Qed.
Lemma seq_bounded (u : nat -> R) (v : R) : is_lim_seq u v -> exists B, forall n, Rabs (u n) <= B.
Proof. intros H. destruct (filterlim_bounded (V := R_NormedModule) u) as [B K]; [now exists v|]. exists B. exact K. Qed.

Section Dep.
Context {X : External R} (HX : special_spec X) (HR : root_spec X).
Notation stable a p e x qt qr qth qph :=
  (stable_trajectory (Some a) (Some p) (Some e) (Some x) (Some qt, Some qr, Some qth, Some qph) None "natural" "natural").

(** if the parameters and the phases of a sequence of orbits converge, so do the four
    coordinates, uniformly on every bounded interval of Mino time *)
Theorem C99_continuous_dependence (an pn en xn qtn qrn qthn qphn urn uthn uphn gn : nat -> R) (tn rn thn phn : nat -> R -> R)
    (a p e x qt qr qth qph ur uth uph g : R) (t r th ph : R -> R) :
  is_lim_seq an a -> is_lim_seq pn p -> is_lim_seq en e -> is_lim_seq xn x ->
  is_lim_seq qtn qt -> is_lim_seq qrn qr -> is_lim_seq qthn qth -> is_lim_seq qphn qph ->
  (forall n, 0 <= an n) ->
  (forall n, mino_frequencies (Some (an n)) (Some (pn n)) (Some (en n)) (Some (xn n)) = Ret (Some (urn n), Some (uthn n), Some (uphn n), Some (gn n))) ->
  mino_frequencies (Some a) (Some p) (Some e) (Some x) = Ret (Some ur, Some uth, Some uph, Some g) ->
  (forall n, runs_as (stable (an n) (pn n) (en n) (xn n) (qtn n) (qrn n) (qthn n) (qphn n)) (tn n) (rn n) (thn n) (phn n)) ->
  runs_as (stable a p e x qt qr qth qph) t r th ph ->
  converges tn t /\ converges rn r /\ converges thn th /\ converges phn ph.
Proof.
  intros La Lp Le Lx Lqt Lqr Lqth Lqph Hp HFn HF HTn HT.
  assert (Ha : 0 <= a). { pose proof (is_lim_seq_le (fun _ => 0) an 0 a Hp (is_lim_seq_const 0) La) as K. exact K. }
  destruct (C86_frequencies_continuous HX HR _ _ _ _ _ _ _ _ _ _ _ _ _ _ _ _ La Lp Le Lx (or_intror Hp) HFn HF) as (Lur & Luth & _ & _).
  destruct (motion HX HR a p e x ur uth uph g Ha HF) as [m M].
  set (mn := fun n => proj1_sig (constructive_indefinite_description _ (motion HX HR (an n) (pn n) (en n) (xn n) (urn n) (uthn n) (uphn n) (gn n) (Hp n) (HFn n)))).
  assert (Mn : forall n, motion_ok (an n) (pn n) (en n) (xn n) (urn n) (uthn n) (mn n)).
  { intros n. exact (proj2_sig (constructive_indefinite_description _ (motion HX HR (an n) (pn n) (en n) (xn n) (urn n) (uthn n) (uphn n) (gn n) (Hp n) (HFn n)))). }
  clearbody mn.
  destruct (C84_constants_continuous HR an pn en xn (fun n => mE (mn n)) (fun n => mL (mn n)) (fun n => mQ (mn n)) a p e x (mE m) (mL m) (mQ m) La Lp Le Lx) as (LE & LQ & LL & _).
  { intros n. apply (Mn n). } { apply M. }
  specialize (LL (or_intror Hp)).
  set (E := mE m) in *. set (L := mL m) in *. set (Q := mQ m) in *.
  set (En := fun n => mE (mn n)) in *. set (Ln := fun n => mL (mn n)) in *. set (Qn := fun n => mQ (mn n)) in *.
  destruct (mo_u _ _ _ _ _ _ _ M) as (U1 & U2 & X0 & X1 & A1 & E1). destruct (mo_D _ _ _ _ _ _ _ M) as (P1 & PD).
  assert (Un : forall n, 0 < urn n /\ 0 < uthn n) by (intros n; destruct (mo_u _ _ _ _ _ _ _ (Mn n)) as (? & ? & _); tauto).
  assert (Ssn : forall n, 0 <= sqrt (1 - xn n ^2) <= 1).
  { intros n. split; [apply sqrt_pos|]. apply Rle_trans with (sqrt 1); [apply sqrt_le_1_alt; pose proof (pow2_ge_0 (xn n)); lra | rewrite sqrt_1; lra]. }
  assert (SS : 0 <= sqrt (1 - x^2) < 1). { split; [apply sqrt_pos|]. assert (0 < x^2) by (rewrite <- Rsqr_pow2; now apply Rlt_0_sqr). assert (x^2 <= 1) by nra. apply Rlt_le_trans with (sqrt 1); [apply sqrt_lt_1; lra | rewrite sqrt_1; lra]. }
  (* bounds *)
  destruct (seq_bounded (fun n => pn n / (1 - en n)) (p / (1 - e))) as [B HB]. { apply is_lim_seq_div'; [exact Lp | lim | lra]. }
  set (B' := Rmax B (p / (1 - e))).
  assert (Bn : forall n l, Rabs (mr (mn n) l) <= B').
  { intros n l. destruct (mo_rb _ _ _ _ _ _ _ (Mn n) l) as [K1 K2]. destruct (mo_D _ _ _ _ _ _ _ (Mn n)) as [K3 _]. specialize (HB n). cbv beta in HB.
    rewrite Rabs_pos_eq by lra. apply Rle_trans with (1 := K2). apply Rle_trans with B; [|apply Rmax_l]. apply Rle_trans with (2 := HB). apply Rle_abs. }
  assert (B0 : forall l, Rabs (mr m l) <= B').
  { intros l. destruct (mo_rb _ _ _ _ _ _ _ M l) as [K1 K2]. rewrite Rabs_pos_eq by lra. apply Rle_trans with (1 := K2). apply Rmax_r. }
  assert (Zn : forall n l, Rabs (mz (mn n) l) <= 1).
  { intros n l. apply Rabs_le. destruct (mo_zb _ _ _ _ _ _ _ (Mn n) l). specialize (Ssn n). lra. }
  assert (Z0 : forall l, Rabs (mz m l) <= sqrt (1 - x^2)) by (intros l; apply Rabs_le; apply (mo_zb _ _ _ _ _ _ _ M l)).
  (* the coefficients converge *)
  assert (C0 : is_lim_seq (fun n => (Ln n - an n * En n)^2 + Qn n) ((L - a * E)^2 + Q)) by (unfold pow; lim).
  assert (C1 : is_lim_seq (fun n => rc1 (an n) (En n) (Ln n) (Qn n)) (rc1 a E L Q)) by (unfold rc1, pow; lim).
  assert (C3 : is_lim_seq (fun n => 2 * En n ^2 - 2) (2 * E^2 - 2)) by (unfold pow; lim).
  assert (D1 : is_lim_seq (fun n => zc1 (an n) (En n) (Ln n) (Qn n)) (zc1 a E L Q)) by (unfold zc1, pow; lim).
  assert (D3 : is_lim_seq (fun n => zc3 (an n) (En n)) (zc3 a E)) by (unfold zc3, pow; lim).
  assert (CT : forall k : R, is_lim_seq (fun _ => k) k) by (intros k; apply is_lim_seq_const).
  (* motion with zero phases *)
  destruct (cubic_flow (fun n => (Ln n - an n * En n)^2 + Qn n) (fun n => rc1 (an n) (En n) (Ln n) (Qn n)) (fun _ => 3) (fun n => 2 * En n ^2 - 2)
     ((L - a * E)^2 + Q) (rc1 a E L Q) 3 (2 * E^2 - 2) B' C0 C1 (CT 3) C3 (fun n => mr (mn n)) (fun n => mvr (mn n)) (mr m) (mvr m)) as [KR KV].
  { intros n. apply (mo_r _ _ _ _ _ _ _ (Mn n)). } { intros n. apply (mo_vr _ _ _ _ _ _ _ (Mn n)). } { apply (mo_r _ _ _ _ _ _ _ M). } { apply (mo_vr _ _ _ _ _ _ _ M). }
  { exact Bn. } { exact B0. }
  { rewrite (mo_r0 _ _ _ _ _ _ _ M). apply (is_lim_seq_ext (fun n => pn n / (1 + en n))); [intros n; symmetry; apply (mo_r0 _ _ _ _ _ _ _ (Mn n))|]. apply is_lim_seq_div'; [exact Lp | lim | lra]. }
  { rewrite (mo_vr0 _ _ _ _ _ _ _ M). apply (is_lim_seq_ext (fun n => 0)); [intros n; symmetry; apply (mo_vr0 _ _ _ _ _ _ _ (Mn n)) | apply CT]. }
  destruct (cubic_flow (fun _ => 0) (fun n => zc1 (an n) (En n) (Ln n) (Qn n)) (fun _ => 0) (fun n => zc3 (an n) (En n)) 0 (zc1 a E L Q) 0 (zc3 a E) 1
     (CT 0) D1 (CT 0) D3 (fun n => mz (mn n)) (fun n => mvz (mn n)) (mz m) (mvz m)) as [KZ KW].
  { intros n. apply (mo_z _ _ _ _ _ _ _ (Mn n)). } { intros n. apply (mo_vz _ _ _ _ _ _ _ (Mn n)). } { apply (mo_z _ _ _ _ _ _ _ M). } { apply (mo_vz _ _ _ _ _ _ _ M). }
  { exact Zn. } { intros l. specialize (Z0 l). lra. }
  { rewrite (mo_z0 _ _ _ _ _ _ _ M). apply (is_lim_seq_ext (fun n => sqrt (1 - xn n ^2))); [intros n; symmetry; apply (mo_z0 _ _ _ _ _ _ _ (Mn n))|].
    apply (is_lim_seq_continuous sqrt); [apply continuity_pt_sqrt; nra|]. unfold pow. lim. }
  { rewrite (mo_vz0 _ _ _ _ _ _ _ M). apply (is_lim_seq_ext (fun n => 0)); [intros n; symmetry; apply (mo_vz0 _ _ _ _ _ _ _ (Mn n)) | apply CT]. }
  assert (cont : forall f f' : R -> R, (forall l, is_derive f l (f' l)) -> forall l, continuous f l).
  { intros f f' D l. apply (ex_derive_continuous (V := R_NormedModule)). exists (f' l). apply D. }
  assert (shift : forall (f : R -> R) (d s l : R), is_derive f (l + s) d -> is_derive (fun l : R => f (l + s)) l d).
  { intros f d s l H. replace d with (1 * d) by ring. apply (is_derive_comp f (fun l => l + s)); [exact H|]. auto_derive; [trivial | ring]. }
  set (sn := fun n => qrn n / urn n). set (s := qr / ur). set (wn := fun n => qthn n / uthn n). set (w := qth / uth).
  assert (Ls : is_lim_seq sn s) by (apply is_lim_seq_div'; [assumption.. | lra]).
  assert (Lw : is_lim_seq wn w) by (apply is_lim_seq_div'; [assumption.. | lra]).
  destruct (cubic_flow (fun n => (Ln n - an n * En n)^2 + Qn n) (fun n => rc1 (an n) (En n) (Ln n) (Qn n)) (fun _ => 3) (fun n => 2 * En n ^2 - 2)
     ((L - a * E)^2 + Q) (rc1 a E L Q) 3 (2 * E^2 - 2) B' C0 C1 (CT 3) C3 (fun n l => mr (mn n) (l + sn n)) (fun n l => mvr (mn n) (l + sn n)) (fun l => mr m (l + s)) (fun l => mvr m (l + s))) as [SR _].
  { intros n l. apply shift, (mo_r _ _ _ _ _ _ _ (Mn n)). } { intros n l. apply (shift (mvr (mn n))), (mo_vr _ _ _ _ _ _ _ (Mn n)). } { intros l. apply shift, (mo_r _ _ _ _ _ _ _ M). } { intros l. apply (shift (mvr m)), (mo_vr _ _ _ _ _ _ _ M). }
  { intros n l. apply Bn. } { intros l. apply B0. }
  { apply (converges_at (fun n => mr (mn n)) (mr m) (fun n => 0 + sn n) (0 + s) KR); [apply (cont _ (mvr m)), (mo_r _ _ _ _ _ _ _ M)|]. apply is_lim_seq_plus'; [apply CT | exact Ls]. }
  { apply (converges_at (fun n => mvr (mn n)) (mvr m) (fun n => 0 + sn n) (0 + s) KV); [eapply cont, (mo_vr _ _ _ _ _ _ _ M)|]. apply is_lim_seq_plus'; [apply CT | exact Ls]. }
  destruct (cubic_flow (fun _ => 0) (fun n => zc1 (an n) (En n) (Ln n) (Qn n)) (fun _ => 0) (fun n => zc3 (an n) (En n)) 0 (zc1 a E L Q) 0 (zc3 a E) 1
     (CT 0) D1 (CT 0) D3 (fun n l => mz (mn n) (l + wn n)) (fun n l => mvz (mn n) (l + wn n)) (fun l => mz m (l + w)) (fun l => mvz m (l + w))) as [SZ _].
  { intros n l. apply shift, (mo_z _ _ _ _ _ _ _ (Mn n)). } { intros n l. apply (shift (mvz (mn n))), (mo_vz _ _ _ _ _ _ _ (Mn n)). } { intros l. apply shift, (mo_z _ _ _ _ _ _ _ M). } { intros l. apply (shift (mvz m)), (mo_vz _ _ _ _ _ _ _ M). }
  { intros n l. apply Zn. } { intros l. specialize (Z0 (l + w)). lra. }
  { apply (converges_at (fun n => mz (mn n)) (mz m) (fun n => 0 + wn n) (0 + w) KZ); [apply (cont _ (mvz m)), (mo_z _ _ _ _ _ _ _ M)|]. apply is_lim_seq_plus'; [apply CT | exact Lw]. }
  { apply (converges_at (fun n => mvz (mn n)) (mvz m) (fun n => 0 + wn n) (0 + w) KW); [eapply cont, (mo_vz _ _ _ _ _ _ _ M)|]. apply is_lim_seq_plus'; [apply CT | exact Lw]. }
  clear KR KV KZ KW.
  (* r and theta *)
  destruct (mo_run _ _ _ _ _ _ _ M _ _ _ _ _ _ _ _ HT) as (I1 & I2 & R0).
  assert (Rn : forall n, _) by exact (fun n => mo_run _ _ _ _ _ _ _ (Mn n) _ _ _ _ _ _ _ _ (HTn n)). cbv beta in Rn.
  assert (CR : converges rn r).
  { apply (converges_ext (fun n l => mr (mn n) (l + sn n)) (fun l => mr m (l + s))); [| |exact SR].
    - intros n l. destruct (Rn n) as (_ & _ & K). destruct (K l) as (-> & _). reflexivity.
    - intros l. destruct (R0 l) as (-> & _). reflexivity. }
  assert (Czn : forall n l, cos (thn n l) = mz (mn n) (l + wn n)).
  { intros n l. destruct (Rn n) as (_ & _ & K). destruct (K l) as (_ & -> & _). apply cos_acos. apply Rabs_le_between. apply Zn. }
  assert (Cz : forall l, cos (th l) = mz m (l + w)).
  { intros l. destruct (R0 l) as (_ & -> & _). apply cos_acos. apply Rabs_le_between. specialize (Z0 (l + w)). unfold w in *. lra. }
  assert (CTH : converges thn th).
  { apply (converges_ext (fun n l => acos (mz (mn n) (l + wn n))) (fun l => acos (mz m (l + w)))).
    - intros n l. destruct (Rn n) as (_ & _ & K). destruct (K l) as (_ & -> & _). reflexivity.
    - intros l. destruct (R0 l) as (_ & -> & _). reflexivity.
    - apply (converges_acos _ _ (sqrt (1 - x^2)) SS); [intros l; apply Z0 | exact SZ]. }
  (* the rates of t and phi *)
  assert (Br : bounded r). { exists B'. intros l. destruct (R0 l) as (-> & _). apply B0. }
  set (z := fun l => cos (th l)). set (zn := fun n l => cos (thn n l)).
  assert (CZ : converges zn z) by (apply (converges_ext (fun n l => mz (mn n) (l + wn n)) (fun l => mz m (l + w))); [intros n l; symmetry; apply Czn | intros l; symmetry; apply Cz | exact SZ]).
  assert (Bz : bounded z). { exists 1. intros l. unfold z. rewrite Cz. specialize (Z0 (l + w)). lra. }
  set (DD := fun l => r l * r l + (-2) * r l + a * a). set (DDn := fun n l => rn n l * rn n l + (-2) * rn n l + an n * an n).
  set (SI := fun l => 1 + (-1) * (z l * z l)). set (SIn := fun n l => 1 + (-1) * (zn n l * zn n l)).
  assert (CDD : converges DDn DD). { unfold DDn, DD. repeat first [apply converges_plus | apply converges_mult | assumption | apply bounded_const | apply converges_const; lim]. }
  assert (CSI : converges SIn SI). { unfold SIn, SI. repeat first [apply converges_plus | apply converges_mult | assumption | apply bounded_const | apply bounded_mult | apply converges_const; lim]. }
  assert (LD : forall l, Delta a (p / (1 + e)) <= DD l).
  { intros l. unfold DD, Delta. destruct (R0 l) as (K & _). pose proof (mo_rb _ _ _ _ _ _ _ M (l + qr / ur)) as K2. rewrite <- K in K2. nra. }
  assert (LS : forall l, x^2 <= SI l).
  { intros l. unfold SI, z. rewrite Cz. pose proof (mo_zb _ _ _ _ _ _ _ M (l + w)) as K. assert (sqrt (1 - x^2) * sqrt (1 - x^2) = 1 - x^2) by (apply sqrt_sqrt; nra). nra. }
  assert (XP : 0 < x^2) by (rewrite <- Rsqr_pow2; now apply Rlt_0_sqr).
  assert (BD : bounded (fun l => / DD l)) by exact (bounded_inv DD _ PD LD).
  assert (BS : bounded (fun l => / SI l)) by exact (bounded_inv SI _ XP LS).
  assert (ID : converges (fun n l => / DDn n l) (fun l => / DD l)) by exact (converges_inv _ _ _ PD LD CDD).
  assert (IS : converges (fun n l => / SIn n l) (fun l => / SI l)) by exact (converges_inv _ _ _ XP LS CSI).
  assert (sc : forall y, sin y ^2 = 1 + (-1) * (cos y * cos y)) by (intros y; pose proof (sin2_cos2 y) as U; unfold Rsqr in U; lra).
  assert (GT : converges (fun n l => dt_dlambda (an n) (En n) (Ln n) (rn n l) (thn n l)) (fun l => dt_dlambda a E L (r l) (th l))).
  { apply (converges_ext (fun n l => (rn n l * rn n l + an n * an n) * / DDn n l * (En n * (rn n l * rn n l + an n * an n) + - (an n * Ln n)) + an n * (Ln n + - (an n * En n) * SIn n l))
       (fun l => (r l * r l + a * a) * / DD l * (E * (r l * r l + a * a) + - (a * L)) + a * (L + - (a * E) * SI l))).
    - intros n l. unfold dt_dlambda, Delta. rewrite sc. fold (zn n l). change (1 + -1 * (zn n l * zn n l)) with (SIn n l). 
      replace (rn n l ^2 - 2 * rn n l + an n ^2) with (DDn n l) by (unfold DDn; ring). unfold Rdiv. ring.
    - intros l. unfold dt_dlambda, Delta. rewrite sc. fold (z l). change (1 + -1 * (z l * z l)) with (SI l).
      replace (r l ^2 - 2 * r l + a ^2) with (DD l) by (unfold DD; ring). unfold Rdiv. ring.
    - assert (BSI : bounded SI) by (unfold SI; repeat first [apply bounded_plus | apply bounded_const | apply bounded_mult | assumption]).
      repeat first [assumption | apply converges_const; lim | apply bounded_const | apply converges_plus | apply converges_mult | apply bounded_plus | apply bounded_mult]. }
  assert (GP : converges (fun n l => dphi_dlambda (an n) (En n) (Ln n) (rn n l) (thn n l)) (fun l => dphi_dlambda a E L (r l) (th l))).
  { apply (converges_ext (fun n l => an n * / DDn n l * (En n * (rn n l * rn n l + an n * an n) + - (an n * Ln n)) + (Ln n * / SIn n l + - (an n * En n)))
       (fun l => a * / DD l * (E * (r l * r l + a * a) + - (a * L)) + (L * / SI l + - (a * E)))).
    - intros n l. unfold dphi_dlambda, Delta. rewrite sc. fold (zn n l). change (1 + -1 * (zn n l * zn n l)) with (SIn n l). 
      replace (rn n l ^2 - 2 * rn n l + an n ^2) with (DDn n l) by (unfold DDn; ring). unfold Rdiv. ring.
    - intros l. unfold dphi_dlambda, Delta. rewrite sc. fold (z l). change (1 + -1 * (z l * z l)) with (SI l).
      replace (r l ^2 - 2 * r l + a ^2) with (DD l) by (unfold DD; ring). unfold Rdiv. ring.
    - repeat first [assumption | apply converges_const; lim | apply bounded_const | apply converges_plus | apply converges_mult | apply bounded_plus | apply bounded_mult]. }
  refine (conj _ (conj CR (conj CTH _))).
  - apply (converges_primitive tn _ t _) with (3 := GT).
    + intros n l. destruct (Rn n) as (_ & _ & K). apply K.
    + intros l. apply R0.
    + rewrite I1. apply (is_lim_seq_ext qtn); [|exact Lqt]. intros n. destruct (Rn n) as (K & _). now rewrite K.
  - apply (converges_primitive phn _ ph _) with (3 := GP).
    + intros n l. destruct (Rn n) as (_ & _ & K). apply K.
    + intros l. apply R0.
    + rewrite I2. apply (is_lim_seq_ext qphn); [|exact Lqph]. intros n. destruct (Rn n) as (_ & K & _). now rewrite K.
Qed.

(** concrete case: a retrograde inclined orbit whose semi-latus rectum and phases are perturbed *)
Example C99_case : exists (tn rn thn phn : nat -> R -> R) (t r th ph : R -> R),
  (forall n, runs_as (stable (1/2) (20 + / (INR n + 1)) (1/2) (-1/2) 0 (/ (INR n + 1)) 1 0) (tn n) (rn n) (thn n) (phn n)) /\
  runs_as (stable (1/2) 20 (1/2) (-1/2) 0 0 1 0) t r th ph /\
  converges tn t /\ converges rn r /\ converges thn th /\ converges phn ph.
Proof.
  assert (W : forall n, 0 < / (INR n + 1)) by (intros n; apply Rinv_0_lt_compat; pose proof (pos_INR n); lra).
  assert (LW : is_lim_seq (fun n => / (INR n + 1)) 0).
  { apply (is_lim_seq_inv _ p_infty); [|discriminate]. apply (is_lim_seq_ext (fun n => INR (S n))); [intros n; apply S_INR|].
    apply -> (is_lim_seq_incr_1 INR). apply is_lim_seq_INR. }
  assert (FR : forall p, 12 <= p -> exists u : R * R * R * R, mino_frequencies (Some (1/2)) (Some p) (Some (1/2)) (Some (-1/2)) =
    (let '(ur, uth, uph, g) := u in Ret (Some ur, Some uth, Some uph, Some g))).
  { intros p Hp. destruct (far_retrograde HX HR (1/2) p (1/2) (-1/2)) as (E & L & Q & ur & uth & uph & g & _ & HF); try lra. now exists (ur, uth, uph, g). }
  assert (RU : forall p qr, 12 <= p -> exists f : (R -> R) * (R -> R) * (R -> R) * (R -> R), let '(t, r, th, ph) := f in
    runs_as (stable (1/2) p (1/2) (-1/2) 0 qr 1 0) t r th ph).
  { intros p qr Hp. destruct (FR p Hp) as ([[[ur uth] uph] g] & HF).
    destruct (trajectory_defined HX HR (1/2) p (1/2) (-1/2) ur uth uph g ltac:(lra) HF 0 qr 1 0) as (t & r & th & ph & H). now exists (t, r, th, ph). }
  assert (P : forall n, 12 <= 20 + / (INR n + 1)) by (intros n; specialize (W n); lra).
  set (u := fun n => proj1_sig (constructive_indefinite_description _ (FR _ (P n)))).
  assert (HU : forall n, _) by exact (fun n => proj2_sig (constructive_indefinite_description _ (FR _ (P n)))). change (forall n, mino_frequencies (Some (1/2)) (Some (20 + / (INR n + 1))) (Some (1/2)) (Some (-1/2)) =
    (let '(ur, uth, uph, g) := u n in Ret (Some ur, Some uth, Some uph, Some g))) in HU. clearbody u.
  set (f := fun n => proj1_sig (constructive_indefinite_description _ (RU _ (/ (INR n + 1)) (P n)))).
  assert (HT : forall n, _) by exact (fun n => proj2_sig (constructive_indefinite_description _ (RU _ (/ (INR n + 1)) (P n)))). change (forall n, let '(t, r, th, ph) := f n in
    runs_as (stable (1/2) (20 + / (INR n + 1)) (1/2) (-1/2) 0 (/ (INR n + 1)) 1 0) t r th ph) in HT. clearbody f.
  destruct (FR 20 ltac:(lra)) as ([[[ur uth] uph] g] & HF). destruct (RU 20 0 ltac:(lra)) as ([[[t r] th] ph] & H0).
  assert (HT' : forall n, runs_as (stable (1/2) (20 + / (INR n + 1)) (1/2) (-1/2) 0 (/ (INR n + 1)) 1 0) (fst (fst (fst (f n)))) (snd (fst (fst (f n)))) (snd (fst (f n))) (snd (f n))).
  { intros n. specialize (HT n). destruct (f n) as [[[? ?] ?] ?]. exact HT. }
  exists (fun n => fst (fst (fst (f n)))), (fun n => snd (fst (fst (f n)))), (fun n => snd (fst (f n))), (fun n => snd (f n)), t, r, th, ph.
  refine (conj HT' (conj H0 _)).
  apply (C99_continuous_dependence (fun _ => 1/2) (fun n => 20 + / (INR n + 1)) (fun _ => 1/2) (fun _ => -1/2) (fun _ => 0) (fun n => / (INR n + 1)) (fun _ => 1) (fun _ => 0)
    (fun n => fst (fst (fst (u n)))) (fun n => snd (fst (fst (u n)))) (fun n => snd (fst (u n))) (fun n => snd (u n)) _ _ _ _ (1/2) 20 (1/2) (-1/2) 0 0 1 0 ur uth uph g t r th ph);
    try (apply is_lim_seq_const); try exact LW; try exact HF; try exact H0; try exact HT'.
  - replace (Finite 20) with (Finite (20 + 0)) by (f_equal; ring). apply is_lim_seq_plus'; [apply is_lim_seq_const | exact LW].
  - intros n. lra.
  - intros n. specialize (HU n). destruct (u n) as [[[? ?] ?] ?]. exact HU.
Qed.
End Dep.

(** * What a run of mino_frequencies that returns four numbers tells us *)
From Coq Require Import Reals Lra Lia ZArith List String.
From Coquelicot Require Import Coquelicot.
From Verif Require Import Num Outcome External Checked ExternalSpec.
From Verif Require Import Model_Constants Model_Frequencies Model_Stable.
From Verif Require Import Spec SpecElliptic Elliptic P_Validation Props_Validation P_Bounds P_Constants Props_Constants.
From Verif Require Import Props_Elliptic P_Radial P_Polar P_Traj P_Traj2.
Open Scope R_scope.

Lemma bind_inv {A B} (o : outcome A) (f : A -> outcome B) v :
  bind o f = Ret v -> exists u, o = Ret u /\ f u = Ret v.
Proof. destruct o; cbn [bind]; intros H; try discriminate. eauto. Qed.
Lemma c2_inv {A} (f : R -> R -> A) x y v : c2 f x y = Some v -> exists a b, x = Some a /\ y = Some b /\ v = f a b.
Proof. destruct x, y; simpl; intros H; try discriminate. injection H as <-. eauto. Qed.
Lemma c1_inv f x v : c1 f x = Some v -> exists a, x = Some a /\ v = f a.
Proof. destruct x; simpl; intros H; try discriminate. injection H as <-. eauto. Qed.
Lemma cdiv_inv' x y v : cdiv x y = Some v -> exists a b, x = Some a /\ y = Some b /\ b <> 0 /\ v = a / b.
Proof.
  destruct x as [a|], y as [b|]; simpl; intros H; try discriminate.
  destruct (Req_EM_T b 0); [discriminate|]. injection H as <-. eauto 6.
Qed.
Lemma csqrt_inv' x v : csqrt x = Some v -> exists a, x = Some a /\ 0 <= a /\ v = sqrt a.
Proof.
  destruct x as [a|]; simpl; intros H; try discriminate.
  destruct (Rle_dec 0 a); [|discriminate]. injection H as <-. eauto.
Qed.
Lemma ellipk_inv {X : External R} m v : ellipk m = Some v -> exists a, m = Some a /\ a < 1.
Proof.
  destruct m as [a|]; cbn [ellipk checked]; intros H; [|discriminate].
  unfold guard in H. destruct (Rltb_spec a 1); [eauto | discriminate].
Qed.
Ltac cnumc H :=
  cbv beta iota zeta delta
    [nZ nQ nadd nsub nmul ndiv nopp npow nabs nsqrt nsign ncopysign1 nsin ncos nasin
     nacos natan natan2 nlog nexp nfloor npi nundef neqb nltb nleb CNum nsq] in H.
Ltac dig2 H a b Ha Hb := apply c2_inv in H as (a & b & Ha & Hb & H).
Ltac digd H a b Ha Hb Hn := apply cdiv_inv' in H as (a & b & Ha & Hb & Hn & H).

Section Inv.
Context {X : External R}.
Lemma kr_inv r1 r2 r3 r4 k : kr_of r1 r2 r3 r4 = Some k ->
  exists a b c d, r1 = Some a /\ r2 = Some b /\ r3 = Some c /\ r4 = Some d /\
    (a - c) * (b - d) <> 0 /\ 0 <= kr2 a b c d /\ k = sqrt (kr2 a b c d).
Proof.
  unfold kr_of. intros H. cnumc H. apply csqrt_inv' in H as (t & H & Ht & ->).
  digd H u v Hu Hv Hn. dig2 Hu u1 u2 Hu1 Hu2. dig2 Hu1 a b Ha Hb. dig2 Hu2 c d Hc Hd. subst.
  injection Hv as <-.
  exists a, b, c, d. auto 10.
Qed.
Lemma r_freq_inv E rr u : r_freq_formula E rr = Some u ->
  exists E' r1 r2 r3 r4, E = Some E' /\ rr = (Some r1, Some r2, Some r3, Some r4) /\
    (r1 - r3) * (r2 - r4) <> 0 /\ 0 <= kr2 r1 r2 r3 r4 < 1 /\ 0 <= sr2 (1 - E'^2) r1 r2 r3 r4.
Proof.
  destruct rr as [[[r1 r2] r3] r4]. unfold r_freq_formula. intros H. cnumc H.
  digd H n d Hn Hd Hz. dig2 Hn n1 n2 Hn1 Hn2. apply csqrt_inv' in Hn2 as (s & Hn2 & Hs & ->).
  dig2 Hn2 s1 s2 Hs1 Hs2. dig2 Hs1 s3 s4 Hs3 Hs4. dig2 Hs3 s5 s6 Hs5 Hs6.
  injection Hs5 as <-. apply c1_inv in Hs6 as (E' & -> & ->).
  dig2 Hd w1 w2 Hd1 Hd2. apply ellipk_inv in Hd2 as (m & Hk & Hm).
  apply c1_inv in Hk as (k & Hk & ->). apply kr_inv in Hk as (a & b & c & d0 & -> & -> & -> & -> & N & P & ->).
  rewrite pow2_sqrt in Hm by assumption.
  cbn [c2] in Hs4, Hs2. injection Hs4 as <-. injection Hs2 as <-. subst.
  exists E', a, b, c, d0. repeat split; try assumption.
Qed.
Lemma gamma_inv a E L r1 r2 r3 r4 zz ur ut g : 0 <= a < 1 ->
  gamma_formula (Some a) (Some E) L (Some r1, Some r2, Some r3, Some r4) zz ur ut = Some g ->
  (exists L', L = Some L') /\ r3 - rp a <> 0 /\ r3 - rm a <> 0.
Proof.
  intros Ha. destruct zz as [zm zp]. unfold gamma_formula. intros H. cnumc H. change (c2 Rminus (Some 1) (c1 (fun a => a ^ 2) (Some a))) with (Some (1 - a^2)) in H.
  rewrite (csqrt_a a Ha) in H. change (c2 Rplus (Some 1) (Some (sqrt (1 - a^2)))) with (Some (rp a)) in H.
  change (c2 Rminus (Some 1) (Some (sqrt (1 - a^2)))) with (Some (rm a)) in H.
  dig2 H g1 g2 H1 H2. dig2 H1 g3 g4 H3 H4.
  digd H4 n d Hn Hd Hz. dig2 Hd w1 L0 Hd1 HL. split; [eauto|].
  dig2 H2 h1 h2 HA HB. dig2 HB h3 h4 HC HD. dig2 HD k1 k2 HE HF. dig2 HF k3 k4 HG HI.
  dig2 HG u1 u2 U1 U2. digd U1 u3 u4 U3 U4 N1.
  dig2 HI v1 v2 V1 V2. digd V1 v3 v4 V3 V4 N2.
  injection U4 as <-. injection V4 as <-. auto.
Qed.
End Inv.

Record orbit_facts {X : External R} (a p e x ur uth uph gam E L Q r1 r2 r3 r4 : R) (zp : option R) (beta a2s : R) : Prop := {
  of_a : 0 <= a < 1;
  of_e : 0 <= e < 1;
  of_x : -1 <= x <= 1 /\ x <> 0;
  of_constants : constants_of_motion (Some a) (Some p) (Some e) (Some x) = Ret (Some E, Some L, Some Q);
  of_roots : stable_radial_roots (Some a) (Some p) (Some e) (Some x) (Some (Some E, Some L, Some Q))
    = Ret (Some r1, Some r2, Some r3, Some r4);
  of_polar : stable_polar_roots (Some a) (Some p) (Some e) (Some x) (Some (Some E, Some L, Some Q))
    = Ret (Some (1 - x^2), zp);
  of_r1 : r1 = p / (1 - e);
  of_r2 : r2 = p / (1 + e);
  of_r12 : 0 < r2 <= r1;
  of_E : 1 - E^2 <> 0;
  of_R : forall r, radial_potential a E L Q r = (1 - E^2) * (r1 - r) * (r - r2) * (r - r3) * (r - r4);
  of_s : 0 < sr2 (1 - E^2) r1 r2 r3 r4;
  of_kr : 0 <= kr2 r1 r2 r3 r4 < 1;
  of_ord : 0 < (r1 - r3) * (r2 - r3);
  of_p2 : 0 < (r1 - rp a) * (r2 - rp a);
  of_m2 : 0 < (r1 - rm a) * (r2 - rm a);
  of_p3 : r3 - rp a <> 0;
  of_m3 : r3 - rm a <> 0;
  of_z : 0 <= 1 - x^2 < 1;
  of_L : L <> 0;
  of_Lx : 0 < x * L;
  of_b : 0 < beta;
  of_kt : 0 <= kt2 (a^2 * (1 - E^2)) (1 - x^2) beta < 1;
  of_beta : beta = (a^2 * (1 - E^2) * (1 - (1 - x^2)) + L^2) / (1 - (1 - x^2));
  of_k : ktheta_of (Some a) (Some (1 - x^2)) zp = Some (sqrt (kt2 (a^2 * (1 - E^2)) (1 - x^2) beta));
  of_a2s : a2sqrt_of (Some a) (Some E) (Some L) (Some (1 - x^2)) zp = Some a2s;
  of_HA : a2s * sqrt beta / Rabs L * kt2 (a^2 * (1 - E^2)) (1 - x^2) beta = a^2 * (1 - x^2);
  of_Z : forall z, polar_polynomial a E L Q z = (1 - x^2 - z) * (beta - a^2 * (1 - E^2) * z);
  of_ur : ur = PI * sqrt (sr2 (1 - E^2) r1 r2 r3 r4) / (2 * ellK (kr2 r1 r2 r3 r4));
  of_uth : uth = PI * sqrt beta / (2 * ellK (kt2 (a^2 * (1 - E^2)) (1 - x^2) beta));
  of_gam : gam = 4 * E + Gth a E L (1 - x^2) beta a2s + Gt a E L r1 r2 r3 r4;
  of_uph : uph = L * ellPi (1 - x^2) (PI / 2) (kt2 (a^2 * (1 - E^2)) (1 - x^2) beta)
                 / ellK (kt2 (a^2 * (1 - E^2)) (1 - x^2) beta) + Gph a E L r1 r2 r3 r4
}.

Lemma sch_pos p e : 0 <= e < 1 -> 6 + 2 * e < p -> 0 < p - 3 - e^2.
Proof. intros. nra. Qed.
Section Facts.
Context {X : External R} (HX : special_spec X) (HR : root_spec X).

Lemma check_frequency_inv a p e x u :
  check_frequency_params (Some a) (Some p) (Some e) (Some x) = Ret u ->
  x <> 0 /\ e <> 1 /\ check_constants_params (Some a) (Some p) (Some e) (Some x) = Ret tt.
Proof.
  unfold check_frequency_params, check_constants_params. destruct u.
  change (neqb (Some a) (nZ 1)) with (Some (Reqb a 1)). change (neqb (Some x) (nZ 0)) with (Some (Reqb x 0)).
  change (neqb (Some e) (nZ 1)) with (Some (Reqb e 1)).
  destruct (Reqb_spec a 1); cbn [ifo]; [discriminate|].
  destruct (Reqb_spec x 0); cbn [ifo]; [discriminate|].
  destruct (Reqb_spec e 1); cbn [ifo]; [discriminate|]. auto.
Qed.
Lemma check_frequency_fwd a p e x : x <> 0 -> e <> 1 ->
  check_constants_params (Some a) (Some p) (Some e) (Some x) = Ret tt ->
  check_frequency_params (Some a) (Some p) (Some e) (Some x) = Ret tt.
Proof.
  intros Hx He. unfold check_frequency_params, check_constants_params.
  change (neqb (Some a) (nZ 1)) with (Some (Reqb a 1)). change (neqb (Some x) (nZ 0)) with (Some (Reqb x 0)).
  change (neqb (Some e) (nZ 1)) with (Some (Reqb e 1)).
  destruct (Reqb_spec a 1); cbn [ifo]; [discriminate|].
  destruct (Reqb_spec x 0); cbn [ifo]; [contradiction|].
  destruct (Reqb_spec e 1); cbn [ifo]; [contradiction|]. auto.
Qed.
Lemma radial_order E r1 r2 r3 r4 : 0 < r2 <= r1 -> r4 <= r3 -> 1 - E^2 <> 0 ->
  r3 + r4 = 2 / (1 - E^2) - r1 - r2 -> (r1 - r3) * (r2 - r4) <> 0 ->
  0 <= kr2 r1 r2 r3 r4 < 1 -> 0 <= sr2 (1 - E^2) r1 r2 r3 r4 ->
  0 < sr2 (1 - E^2) r1 r2 r3 r4 /\ 0 < (r1 - r3) * (r2 - r3).
Proof.
  intros H12 H34 HE HV HN [K0 K1] S.
  assert (Sp : 0 < sr2 (1 - E^2) r1 r2 r3 r4).
  { destruct S as [S|S]; [assumption|]. exfalso. symmetry in S. unfold sr2 in S.
    rewrite Rmult_assoc in S. apply Rmult_integral in S as [S|S]; contradiction. }
  split; [assumption|]. clear S.
  assert (N1 : r1 - r3 <> 0) by (intros Z; apply HN; rewrite Z; ring).
  assert (N2 : r2 - r4 <> 0) by (intros Z; apply HN; rewrite Z; ring).
  assert (K2 : 0 < (r1 - r4) * (r2 - r3) / ((r1 - r3) * (r2 - r4))).
  { replace ((r1 - r4) * (r2 - r3) / ((r1 - r3) * (r2 - r4))) with (1 - kr2 r1 r2 r3 r4); [lra|].
    unfold kr2. field. split; assumption. }
  destruct (Rlt_dec 0 ((r1 - r3) * (r2 - r4))) as [P|P].
  - assert (K3 : 0 < (r1 - r4) * (r2 - r3)).
    { replace ((r1 - r4) * (r2 - r3)) with ((r1 - r4) * (r2 - r3) / ((r1 - r3) * (r2 - r4)) * ((r1 - r3) * (r2 - r4)))
        by (field; split; assumption). now apply Rmult_lt_0_compat. }
    destruct (Rlt_dec r3 r1) as [Q|Q].
    + assert (0 < r2 - r3) by (apply (Rmult_lt_reg_l (r1 - r4)); lra). apply Rmult_lt_0_compat; lra.
    + assert (r2 - r4 < 0) by nra. assert (r1 - r3 < 0) by lra. assert (r2 - r3 < 0) by lra. nra.
  - assert (P' : (r1 - r3) * (r2 - r4) < 0) by lra.
    assert (E1 : 1 - E^2 < 0).
    { unfold sr2 in Sp. rewrite Rmult_assoc in Sp. destruct (Rlt_dec (1 - E^2) 0); [assumption|].
      assert (0 <= (1 - E^2)) by lra. nra. }
    (* k_r^2 >= 0 with a negative denominator: one of the pairs is degenerate *)
    assert (K3 : (r1 - r2) * (r3 - r4) = 0).
    { assert (0 <= (r1 - r2) * (r3 - r4)) by (apply Rmult_le_pos; lra).
      assert ((r1 - r2) * (r3 - r4) = kr2 r1 r2 r3 r4 * ((r1 - r3) * (r2 - r4))) by (unfold kr2; field; split; assumption).
      nra. }
    apply Rmult_integral in K3 as [K3|K3].
    + replace r2 with r1 by lra. replace ((r1 - r3) * (r1 - r3)) with ((r1 - r3)^2) by ring. now apply pow2_gt_0.
    + exfalso. assert (r4 = r3) by lra. subst r4.
      assert (0 < r3) by nra.
      assert (2 / (1 - E^2) < 0).
      { replace (2 / (1 - E^2)) with (- (2 / - (1 - E^2))) by (field; assumption).
        assert (0 < 2 / - (1 - E^2)) by (apply Rdiv_lt_0_compat; lra). lra. }
      lra.
Qed.

Lemma horizon_order a r1 r2 : 0 <= a < 1 -> 1 < r2 <= r1 -> 0 < Delta a r2 ->
  0 < (r1 - rp a) * (r2 - rp a) /\ 0 < (r1 - rm a) * (r2 - rm a).
Proof.
  intros Ha Hr HD. destruct (rpm a Ha) as (S0 & S1 & S2 & S3).
  rewrite (Delta_rpm a Ha) in HD. assert (rm a < 1) by (unfold rm; lra).
  assert (0 < r2 - rp a). { apply (Rmult_lt_reg_r (r2 - rm a)); lra. }
  split; apply Rmult_lt_0_compat; lra.
Qed.

Theorem mino_facts a p e x ur uth uph gam : 0 <= a ->
  mino_frequencies (Some a) (Some p) (Some e) (Some x) = Ret (Some ur, Some uth, Some uph, Some gam) ->
  exists E L Q r1 r2 r3 r4 zp beta a2s,
    orbit_facts a p e x ur uth uph gam E L Q r1 r2 r3 r4 zp beta a2s.
Proof.
  intros Ha H. unfold mino_frequencies in H.
  apply bind_inv in H as ([[E0 L0] Q0] & HC & H).
  apply bind_inv in H as (u_r & Hur & H). apply bind_inv in H as (u_t & Hut & H).
  apply bind_inv in H as (u_p & Hup & H). apply bind_inv in H as (g & Hg & H).
  apply Ret_inj in H. apply pair_equal_spec in H as [H ->]. apply pair_equal_spec in H as [H ->].
  apply pair_equal_spec in H as [-> Habs].
  apply c1_inv in Habs as (ut & -> & ->).
  unfold r_frequency in Hur. rewrite std_nonneg in Hur by assumption. cbn [default] in Hur.
  apply bind_inv in Hur as (chk & HK & Hur). cbn [bind] in Hur.
  apply bind_inv in Hur as (rr & Hrr & Hur). apply Ret_inj in Hur.
  apply r_freq_inv in Hur as Hri. destruct Hri as (E & r1 & r2 & r3 & r4 & -> & -> & Nk & Hkr & Hs).
  apply check_frequency_inv in HK as HK'. destruct HK' as (Nx & Ne & HCK).
  unfold gamma in Hg. rewrite std_nonneg in Hg by assumption. rewrite HK in Hg. cbn [bind default] in Hg.
  rewrite Hrr in Hg. cbn [bind] in Hg.
  apply bind_inv in Hg as ([zm0 zp] & Hzz & Hg). apply Ret_inj in Hg.
  rewrite check_constants_some in HCK.
  destruct (accepted_bounds HR a p e x Ha HCK) as (Ha1 & He & Hx & Hr2 & HD & _ & Hp0).
  assert (exists Q, Q0 = Some Q) as [Q ->].
  { pose proof Hrr as Hq. unfold stable_radial_roots in Hq. cbn [default bind] in Hq. apply Ret_inj in Hq.
    cnumc Hq. apply pair_equal_spec in Hq as [_ Hq]. digd Hq u v Hu Hv Hn. digd Hu u1 u2 Hu1 Hu2 Hn2.
    dig2 Hu1 u3 u4 Hu3 Hu4. eauto. }
  destruct (gamma_inv a E L0 r1 r2 r3 r4 _ _ _ gam Ha1 Hg) as ([L ->] & Hp3 & Hm3).
  assert (He1 : 0 <= e < 1) by lra.
  destruct (stable_radial_roots_inv _ _ _ _ E L Q _ _ Hrr eq_refl _ _ _ _ eq_refl)
    as (K1 & K2 & K3 & Q1 & Q2 & N1 & N2 & N3 & Sm & Pr & Le).
  assert (Hp : 0 < p).
  { replace p with (p / (1 + e) * (1 + e)) by (field; lra). apply Rmult_lt_0_compat; lra. }
  assert (H12 : 0 < r2 <= r1).
  { rewrite Q1, Q2. split; [apply Rdiv_lt_0_compat; lra|]. unfold Rdiv. apply Rmult_le_compat_l; [lra|].
    apply Rinv_le_contravar; lra. }
  destruct (radial_order E r1 r2 r3 r4 H12 Le K3 Sm Nk Hkr Hs) as [Hsp Hord].
  rewrite <- Q2 in Hr2, HD.
  destruct (horizon_order a r1 r2 Ha1 ltac:(lra) HD) as [Hp2 Hm2].
  destruct (C15_radial_roots HR _ _ _ _ _ _ _ _ _ _ _ _ HC (or_intror eq_refl) Hrr) as (_ & _ & _ & HRR).
  rewrite (Rabs_pos_eq a Ha) in HRR.
  destruct (C14_polar_turning_point HR _ _ _ _ _ _ _ HC) as (_ & Lp & Ln & _).
  assert (SS : spin_sign a = 1) by (unfold spin_sign; destruct (Rlt_dec a 0); lra).
  rewrite SS, Rmult_1_r in Lp, Ln.
  assert (HLx : 0 < x * L).
  { destruct (Rlt_dec 0 x) as [P|P]; [specialize (Lp P); now apply Rmult_lt_0_compat|].
    assert (x < 0) by lra. specialize (Ln H). clear - H Ln. nra. }
  assert (HL : L <> 0) by (intros ->; lra).
  destruct (C16_polar_roots HR _ _ _ _ _ _ _ _ _ _ HC (or_intror eq_refl) Nx Hzz) as (Hzm & Hz0 & Hz1).
  subst zm0.
  assert (Hx2 : 0 < x^2) by now apply pow2_gt_0.
  assert (Hz : 0 <= 1 - x^2 < 1) by (clear - Hx Hx2; nra).
  pose proof PI_RGT_0 as HPI.
  pose proof (s_pos _ _ _ _ _ Hsp) as Spos. pose proof (K_pos _ _ _ _ Hkr) as Kpos.
  assert (Hur' : ur = PI * sqrt (sr2 (1 - E^2) r1 r2 r3 r4) / (2 * ellK (kr2 r1 r2 r3 r4))).
  { rewrite (r_freq_run HX E r1 r2 r3 r4 Hsp Hkr Hord) in Hur. congruence. }
  unfold theta_frequency in Hut. rewrite std_nonneg in Hut by assumption. rewrite HK in Hut. cbn [bind default] in Hut.
  unfold phi_frequency in Hup. rewrite std_nonneg in Hup by assumption. rewrite HK in Hup. cbn [bind default] in Hup.
  change (neqb (Some a) (nZ 0)) with (Some (Reqb a 0)) in Hut, Hup.
  destruct (Rsgn_abs L HL) as (T1 & T2 & T3 & T4).
  destruct (Req_dec a 0) as [A0|A0].
  - (* Schwarzschild *)
    rewrite (Reqb_true a 0 A0) in Hut, Hup. cbn [ifo] in Hut, Hup. subst a.
    destruct (Hz0 eq_refl) as [-> HZ]. specialize (Hp0 eq_refl).
    pose proof (schwarzschild_constants p e x Hp0 ltac:(lra) Hx) as HSc.
    rewrite HC in HSc. apply Ret_inj in HSc. apply pair_equal_spec in HSc as [HSc _].
    apply pair_equal_spec in HSc as [_ HSL'].
    assert (HSL : L = x * p / sqrt (p - 3 - e^2)) by congruence. clear HSL'.
    assert (Hq : 0 < p - 3 - e^2) by (apply sch_pos; assumption).
    assert (Hq0 : 0 < sqrt (p - 3 - e^2)) by now apply sqrt_lt_R0.
    assert (Hq2 : sqrt (p - 3 - e^2) ^ 2 = p - 3 - e^2) by (apply pow2_sqrt; lra).
    set (q := sqrt (p - 3 - e^2)) in *.
    set (beta := (p / q)^2).
    assert (Hpq : 0 < p / q) by now apply Rdiv_lt_0_compat.
    assert (Hb : 0 < beta) by (apply pow_lt; assumption).
    assert (Hsb : sqrt beta = p / q) by (apply sqrt_pow2; lra).
    assert (Hm0 : kt2 (0^2 * (1 - E^2)) (1 - x^2) beta = 0) by (unfold kt2; field; lra).
    destruct ellK_E_0 as [HK0 HE0].
    assert (Hsx : sqrt (1 - (1 - x^2)) = Rabs x).
    { replace (1 - (1 - x^2)) with (x^2) by ring. rewrite <- Rsqr_pow2. apply sqrt_Rsqr_abs. }
    assert (Hax : 0 < Rabs x) by now apply Rabs_pos_lt.
    assert (Hbeta : beta = (0^2 * (1 - E^2) * (1 - (1 - x^2)) + L^2) / (1 - (1 - x^2))).
    { unfold beta. rewrite HSL. clearbody q. field. split; lra. }
    assert (Ha2 : exists a2s, a2sqrt_of (Some 0) (Some E) (Some L) (Some (1 - x^2)) None = Some a2s).
    { unfold a2sqrt_of. cnum. rewrite Reqb_true by reflexivity. cbn [nif]. rewrite csqrt_some by lra.
      rewrite cdiv_some; [eauto|]. rewrite Hsx. apply Rmult_integral_contrapositive. split; lra. }
    destruct Ha2 as [a2s Ha2].
    assert (Hk : ktheta_of (Some 0) (Some (1 - x^2)) None = Some (sqrt (kt2 (0^2 * (1 - E^2)) (1 - x^2) beta))).
    { rewrite Hm0, sqrt_0. unfold ktheta_of. cnum. rewrite Reqb_true by reflexivity. reflexivity. }
    assert (Hkt : 0 <= kt2 (0^2 * (1 - E^2)) (1 - x^2) beta < 1) by (rewrite Hm0; lra).
    assert (HA : a2s * sqrt beta / Rabs L * kt2 (0^2 * (1 - E^2)) (1 - x^2) beta = 0^2 * (1 - x^2)) by (rewrite Hm0; ring).
    assert (Rqe : csqrt (Some (-3 - e^2 + p)) = Some q).
    { unfold q. replace (p - 3 - e^2) with (-3 - e^2 + p) in * by ring. apply csqrt_some. lra. }
    assert (HGth : Gth 0 E L (1 - x^2) beta a2s = 0).
    { unfold Gth. rewrite Hm0, HK0, HE0. field. lra. }
    assert (Hut' : Rabs ut = p / q).
    { apply Ret_inj in Hut. cnum_in Hut. change (- (3)) with (-3) in Hut. rewrite Rqe in Hut. rewrite cdiv_some in Hut by lra.
      destruct (Reqb e 0); cbn [nif c1 c2] in Hut.
      - injection Hut as <-. rewrite Rabs_mult, (Rabs_pos_eq (p / q)) by lra.
        destruct (Rlt_dec 0 x). { rewrite Rsgn_pos by assumption. rewrite Rabs_R1. ring. }
        rewrite Rsgn_neg by lra. rewrite Rabs_left by lra. ring.
      - injection Hut as <-. rewrite Rmult_1_r. apply Rabs_pos_eq. lra. }
    assert (HGph : Gph 0 E L r1 r2 r3 r4 = 0) by (unfold Gph; field; repeat split; try lra;
      destruct (rpm 0 Ha1) as (_ & _ & _ & ?); try assumption;
      destruct (radial_nz 0 E r1 r2 r3 r4 Hsp Hord Hp2 Hm2) as (_ & _ & _ & ? & ?); assumption).
    exists E, L, Q, r1, r2, r3, r4, None, beta, a2s.
    constructor; try assumption; try (split; assumption).
    + intros z. rewrite HZ. replace (Q + L^2) with beta; [ring|].
      (* Q + L^2 from the polynomial at z = 0 *)
      pose proof (HZ 0) as Z0. unfold polar_polynomial in Z0.
      assert (Z1 : Q * x^2 = L^2 * (1 - x^2)) by lra.
      rewrite Hbeta. apply (Rmult_eq_reg_r (x^2)); [|lra]. 
      transitivity (L^2); [field; lra | lra].
    + rewrite Hm0, HK0, Hsb, Hut'. field. lra.
    + rewrite Hur' in Hg.
      rewrite (gamma_run HX 0 E L (1 - x^2) None beta a2s Hz HL Hkt Hk Ha2 r1 r2 r3 r4 Hsp Hkr Hord Ha1 Hp2 Hm2 Hp3 Hm3 ut) in Hg.
      * congruence.
      * rewrite HGth, Hm0, HK0, HE0. field. split; lra.
    + rewrite Hm0, HK0, HGph, (ellPi_m0 _ (proj2 Hz)), Hsx.
      apply Ret_inj in Hup. cnum_in Hup. change (- (3)) with (-3) in Hup. rewrite Rqe in Hup.
      rewrite cdiv_some in Hup by lra.
      assert (Hup' : uph = Rsgn x * p / q) by congruence. rewrite Hup', HSL.
      destruct (Rsgn_abs x Nx) as (X1 & X2 & X3 & X4).
      rewrite <- X1 at 2. field. repeat split; lra.
  - (* Kerr *)
    rewrite (Reqb_false a 0 A0) in Hut, Hup. cbn [ifo] in Hut, Hup.
    rewrite Hzz in Hut, Hup. rewrite Hrr in Hup. cbn [bind] in Hut, Hup. apply Ret_inj in Hut. apply Ret_inj in Hup.
    assert (NE : E^2 <> 1) by (intros Z; apply K3; rewrite Z; ring).
    destruct (Hz1 A0 NE) as (zp' & -> & HZ).
    assert (Hzp : a^2 * (1 - E^2) * zp' = (a^2 * (1 - E^2) * (1 - (1 - x^2)) + L^2) / (1 - (1 - x^2))).
    { unfold stable_polar_roots in Hzz. cbn [default bind] in Hzz.
      change (neqb (Some a) (nZ 0)) with (Some (Reqb a 0)) in Hzz. rewrite (Reqb_false a 0 A0) in Hzz. cbn [ifo] in Hzz.
      apply Ret_inj in Hzz. apply pair_equal_spec in Hzz as [_ Hzz]. cnum_in Hzz.
      assert (0 < L^2) by now apply pow2_gt_0.
      rewrite (cdiv_some _ (L^2)) in Hzz by lra.
      assert (NN : a^2 * (1 - E^2) / L^2 * (1 - (1 - x^2)) <> 0).
      { repeat (apply Rmult_integral_contrapositive; split); try lra; try (apply Rinv_neq_0_compat; lra). }
      rewrite cdiv_some in Hzz by assumption.
      assert (Hz' : zp' = 1 + 1 / (a^2 * (1 - E^2) / L^2 * (1 - (1 - x^2)))) by congruence.
      rewrite Hz'. field. repeat split; try assumption; lra. }
    set (A2 := a^2 * (1 - E^2)) in *.
    assert (NA : A2 <> 0). { apply Rmult_integral_contrapositive; split; [now apply pow_nonzero | assumption]. }
    set (beta := A2 * zp') in *.
    assert (Hkt0 : exists k, nsqrt (ndiv (Some (1 - x^2)) (Some zp')) = Some k /\ zp' <> 0 /\ 0 <= (1 - x^2) / zp' < 1 /\
        k = sqrt ((1 - x^2) / zp') /\ 0 <= beta / L^2 /\ ut = PI * L * sqrt (beta / L^2) / (2 * ellK ((1 - x^2) / zp'))).
    { unfold theta_freq_formula in Hut.
      rewrite (e0zp_run a E L (1 - x^2) beta Hz HL Hzp) in Hut.
      cnumc Hut. digd Hut n d Hn Hd Hnz. dig2 Hn n1 n2 Hn1 Hn2.
      apply csqrt_inv' in Hn2 as (b & Hn2 & Hb0 & ->). injection Hn2 as <-.
      dig2 Hd d0 k0 Hd0 Hd1. pose proof Hd1 as Hd1'.
      apply ellipk_inv in Hd1 as (m & Hk & Hm).
      apply c1_inv in Hk as (k & Hk & ->). apply csqrt_inv' in Hk as (t & Hk & Ht & ->).
      pose proof Hk as Hk2. apply cdiv_inv' in Hk2 as (u & v & Hu & Hv & Nv & ->). injection Hu as <-. injection Hv as <-.
      rewrite pow2_sqrt in Hm by assumption.
      exists (sqrt ((1 - x^2) / zp')). split; [cnum; rewrite Hk; now apply csqrt_some|].
      split; [assumption|]. split; [now split|]. split; [reflexivity|]. split; [assumption|].
      rewrite Hk in Hd1'. rewrite csqrt_some in Hd1' by assumption. cbn [c1] in Hd1'.
      rewrite pow2_sqrt in Hd1' by assumption. rewrite (ellipk_checked HX) in Hd1' by assumption.
      injection Hd1' as <-. injection Hd0 as <-. injection Hn1 as <-. rewrite Hut, Hn, Hd. reflexivity. }
    destruct Hkt0 as (k & Hk0 & Nzp & Hkz & -> & Hb0 & Hut').
    assert (Hb : 0 < beta).
    { assert (0 < L^2) by now apply pow2_gt_0.
      assert (0 <= beta). { replace beta with (beta / L^2 * L^2) by (field; lra). apply Rmult_le_pos; lra. }
      assert (beta <> 0) by (apply Rmult_integral_contrapositive; now split). lra. }
    assert (Hm0 : kt2 A2 (1 - x^2) beta = (1 - x^2) / zp') by (unfold kt2, beta; field; split; assumption).
    assert (Hkt : 0 <= kt2 A2 (1 - x^2) beta < 1) by (rewrite Hm0; assumption).
    assert (Hk : ktheta_of (Some a) (Some (1 - x^2)) (Some zp') = Some (sqrt (kt2 A2 (1 - x^2) beta))).
    { rewrite Hm0. unfold ktheta_of. change (neqb (Some a) (nZ 0)) with (Some (Reqb a 0)).
      rewrite (Reqb_false a 0 A0). exact Hk0. }
    pose proof (sqrt_e0zp L beta HL Hb) as Sq.
    assert (Sq' : sqrt (beta / L^2) = sqrt beta / Rabs L).
    { rewrite csqrt_some in Sq by assumption. congruence. }
    pose proof (b_pos beta Hb) as Bp.
    assert (Bs : sqrt beta ^ 2 = beta) by (apply pow2_sqrt; lra).
    set (a2s := a^2 * zp' / (sqrt beta / Rabs L)).
    assert (Ha2 : a2sqrt_of (Some a) (Some E) (Some L) (Some (1 - x^2)) (Some zp') = Some a2s).
    { unfold a2sqrt_of. cnum. rewrite (Reqb_false a 0 A0). cbn [nif].
      assert (0 < L^2) by now apply pow2_gt_0. rewrite (cdiv_some _ (L^2)) by lra.
      fold A2. replace (A2 / L^2 * zp') with (beta / L^2) by (unfold beta; field; assumption).
      rewrite Sq. rewrite cdiv_some; [reflexivity|]. apply Rgt_not_eq. now apply Rdiv_lt_0_compat. }
    assert (HA : a2s * sqrt beta / Rabs L * kt2 A2 (1 - x^2) beta = a^2 * (1 - x^2)).
    { rewrite Hm0. unfold a2s. field. repeat split; lra. }
    pose proof (Kt_pos a E (1 - x^2) beta Hz Hkt) as Ktp. fold A2 in Ktp.
    exists E, L, Q, r1, r2, r3, r4, (Some zp'), beta, a2s.
    constructor; try assumption; try (split; assumption).
    + intros z. rewrite HZ. unfold beta, A2. ring.
    + fold A2. rewrite Hut', Sq'. rewrite <- Hm0. set (KK := ellK (kt2 A2 (1 - x^2) beta)) in *. clearbody KK.
      replace (PI * L * (sqrt beta / Rabs L) / (2 * KK)) with (L / Rabs L * (PI * sqrt beta / (2 * KK))) by (field; lra).
      rewrite Rabs_mult. rewrite (Rabs_pos_eq (PI * sqrt beta / (2 * KK))).
      2: { apply Rlt_le, Rdiv_lt_0_compat; [now apply Rmult_lt_0_compat | lra]. }
      replace (Rabs (L / Rabs L)) with 1; [ring|].
      unfold Rdiv. rewrite Rabs_mult, Rabs_inv, Rabs_Rabsolu. field. lra.
    + rewrite Hur' in Hg.
      rewrite (gamma_run HX a E L (1 - x^2) (Some zp') beta a2s Hz HL Hkt Hk Ha2 r1 r2 r3 r4 Hsp Hkr Hord Ha1 Hp2 Hm2 Hp3 Hm3 ut) in Hg.
      * congruence.
      * unfold Gth. fold A2. rewrite Hut', Sq', <- Hm0. set (KK := ellK (kt2 A2 (1 - x^2) beta)) in *. clearbody KK. field. repeat split; lra.
    + rewrite Hur' in Hup. fold A2.
      rewrite (phi_run HX a E L (1 - x^2) (Some zp') beta Hz HL Hb Hkt Hzp Hk r1 r2 r3 r4 Hsp Hkr Hord Ha1 Hp2 Hm2 Hp3 Hm3 ut) in Hup.
      * fold A2 in Hup. congruence.
      * fold A2. rewrite Hut', Sq', <- Hm0. set (KK := ellK (kt2 A2 (1 - x^2) beta)) in *. clearbody KK. field. repeat split; lra.
      * assumption.
Qed.
End Facts.

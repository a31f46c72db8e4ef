(** * C89: at the separatrix the radial motion stops *)
From Coq Require Import Reals Lra Lia ZArith String List.
From Coquelicot Require Import Coquelicot.
From Verif Require Import Num Outcome External Checked ExternalSpec Spec SpecElliptic Elliptic.
From Verif Require Import Model_Constants Model_Frequencies P_Stability P_Stability2 P_Stability3 P_Stability4 P_Stability5 P_Radial P_Traj P_Traj3 P_Constants Props_Separatrix Props_Validation P_Bounds Props_Constants Props_Stability Props_Trajectory Props_Future Props_Continuity Props_SepContinuity Props_FreqContinuity P_Whirl Props_Restart P_Validation Props_Finite Props_Frequencies.
Open Scope R_scope.

(** upper bound of the gap in terms of the distance from criticality *)
Definition crit_w (c k q : R) : R := sqrt (VV c k q).
Definition crit_eps (c k q b : R) : R := (b + crit_w c k q)^2 - UU c k q.
Definition crit_B (c k q b : R) : R := P_ c (k / q^2) q b * crit_w c k q - b * al_ c q * Yc_ c (k / q^2) q.
Definition gap_bound (c k q b : R) : R :=
  2 * q * (1 + k / q^2) / (c + 1) * (crit_w c k q * crit_eps c k q b * (1 / (P_ c (k / q^2) q b * crit_w c k q) + 1 / crit_B c k q b)).

Section S.
Context {X : External R} (HR : root_spec X).
Lemma gap_of_orbit a p e x E L Q : 0 <= a -> e < 1 ->
  constants_of_motion (Some a) (Some p) (Some e) (Some x) = Ret (Some E, Some L, Some Q) ->
  let c := cc e in let q := p / (1 + e) in let k := a^2 * (1 - x^2) in let b := a * x in
  let s := 2 / (1 - E^2) - p / (1 - e) - p / (1 + e) in
  let m := a^2 * Q / (p / (1 - e) * (p / (1 + e)) * (1 - E^2)) in
  0 < crit_B c k q b ->
  0 < (1 - E^2) * (q^2 - s * q + m) <= gap_bound c k q b /\ E^2 <= al_ c q + be_ c (k / q^2) q * Yc_ c (k / q^2) q.
Proof.
  intros Ha He1 H0. cbv zeta. intros BC.
  destruct (orbit_equations HR a p e x E L Q Ha He1 H0) as (y & HRp & HQ & _ & E1 & E2 & B1 & B2 & EP).
  destruct (orbit_roots HR a p e x E L Q Ha He1 H0) as (_ & _ & R3 & _ & RS & RP). cbv zeta in R3, RS, RP.
  set (s := 2 / (1 - E^2) - p / (1 - e) - p / (1 + e)) in *. set (m := a^2 * Q / (p / (1 - e) * (p / (1 + e)) * (1 - E^2))) in *.
  set (r3 := (s + sqrt (s^2 - 4 * m)) / 2) in *. set (r4 := (s - sqrt (s^2 - 4 * m)) / 2) in *.
  destruct (orbit_bound HR a p e x E L Q Ha He1 H0) as (HE & _ & HB).
  pose proof (constants_correct HR a p e x E L Q Ha H0) as (_ & R2 & _).
  pose proof H0 as H. apply constants_inv in H as [HC _]; [|assumption].
  destruct (accepted_bounds HR a p e x Ha HC) as [Ha1 [He [Hx [Hr [HD [Hp _]]]]]].
  destruct (accepted_stable HR a p e x Ha He1 HC) as [Hdom Hb].
  assert (Hx2 : 0 <= x^2 <= 1) by nra. assert (Ha2 : 0 <= a^2 < 1) by nra.
  assert (Hk : 0 <= a^2 * (1 - x^2) < 1) by nra.
  assert (HA : (a * x)^2 + a^2 * (1 - x^2) < 1) by nra.
  assert (P1 : p / (1 - e) = cc e * (p / (1 + e))) by (unfold cc; field; lra).
  pose proof (cc_ge e ltac:(lra)) as Hc.
  assert (Z0 : - (a^2 * Q) = Rp (a^2 * (1 - x^2)) (a * x) E y 0). { rewrite <- HRp. unfold radial_potential, Delta. ring. }
  rewrite HRp in R2.
  assert (EE : E^2 < 1) by nra.
  assert (GAP : (1 - E^2) * ((p / (1 + e) - r3) * (p / (1 + e) - r4)) = 2 * (p / (1 + e)) * (1 + a^2 * (1 - x^2) / (p / (1 + e))^2) / (cc e + 1) * ((Yc_ (cc e) (a^2 * (1 - x^2) / (p / (1 + e))^2) (p / (1 + e)) - y^2) / Yc_ (cc e) (a^2 * (1 - x^2) / (p / (1 + e))^2) (p / (1 + e)))).
  { apply (wh_gap (cc e) (a^2 * (1 - x^2)) (p / (1 + e)) (a * x) E y Hdom (proj1 Hk) Hr HA E1 r3 r4 EE).
    - rewrite RS. unfold s. rewrite P1. ring.
    - rewrite RP. unfold m. rewrite P1. clear - R2 Z0 Hk Hr Hc EE. set (q := p / (1 + e)) in *. clearbody q. set (k := a^2 * (1 - x^2)) in *. clearbody k. set (c := cc e) in *. clearbody c.
      assert (q <> 0) by lra. assert (c <> 0) by lra. assert (1 - E^2 <> 0) by lra.
      assert (0 < q^2) by (apply pow_lt; lra). assert (0 < q^2 + k) by lra.
      transitivity (a^2 * Q); [field; auto|]. replace (a^2 * Q) with (- Rp k (a * x) E y 0) by lra.
      assert (Y2 : (y^2 + 2 * (a * x) * E * y + (a * x)^2) =
         ((E^2 - 1) * (q^2 + k)^2 + 2 * q * (q^2 + k) + 2 * y^2 * q) / (q^2 + k)).
      { apply (Rmult_eq_reg_r (q^2 + k)); [|lra]. unfold Rp in R2.
        replace (((E ^ 2 - 1) * (q ^ 2 + k) ^ 2 + 2 * q * (q ^ 2 + k) + 2 * y ^ 2 * q) / (q ^ 2 + k) * (q ^ 2 + k))
          with ((E ^ 2 - 1) * (q ^ 2 + k) ^ 2 + 2 * q * (q ^ 2 + k) + 2 * y ^ 2 * q) by (field; lra).
        lra. }
      unfold Rp. rewrite Y2. field. split; lra. }
  destruct (wh_facts (cc e) (a^2 * (1 - x^2)) (p / (1 + e)) (a * x) E y Hdom (proj1 Hk) Hr HA Hb EP E1 E2 B1 B2) as (HY & Hw & W2 & C1 & A0 & BE0 & P0).
  pose proof (wh_retro (cc e) (a^2 * (1 - x^2)) (p / (1 + e)) (a * x) E y Hdom (proj1 Hk) Hr HA Hb EP E1 E2 B1 B2) as RE.
  pose proof (wh_pro (cc e) (a^2 * (1 - x^2)) (p / (1 + e)) (a * x) E y Hdom (proj1 Hk) Hr HA Hb EP E1 E2 B1 B2) as PR.
  replace ((p / (1 + e) - r3) * (p / (1 + e) - r4)) with ((p / (1 + e))^2 - s * (p / (1 + e)) + m) in GAP by (rewrite <- RS, <- RP; ring).
  rewrite GAP. clear GAP RS RP HB.
  unfold crit_B in BC. unfold gap_bound, crit_B, crit_eps. fold (crit_w (cc e) (a^2 * (1 - x^2)) (p / (1 + e))) in Hw, W2, C1, RE, PR |- *.
  assert (T0 : 0 <= a^2 * (1 - x^2) / (p / (1 + e))^2) by (apply Rmult_le_pos; [lra | left; apply Rinv_0_lt_compat, pow_lt; lra]).
  set (q := p / (1 + e)) in *. set (k := a^2 * (1 - x^2)) in *. set (c := cc e) in *. set (t := k / q^2) in *. set (w := crit_w c k q) in *.
  set (Yc := Yc_ c t q) in *. set (P := P_ c t q (a * x)) in *. set (eps := (a * x + w)^2 - UU c k q) in *. set (Bc := P * w - a * x * al_ c q * Yc) in *. set (Y := y^2) in *.
  clearbody Yc P eps Bc Y w t c q k.
  split.
  2:{ rewrite E1. apply Rplus_le_compat_l. apply Rmult_le_compat_l; lra. }
  assert (F0 : 0 < 2 * q * (1 + t) / (c + 1)) by (apply Rdiv_lt_0_compat; [repeat apply Rmult_lt_0_compat; lra | lra]).
  split; [apply Rmult_lt_0_compat; [exact F0|]; apply Rdiv_lt_0_compat; lra|].
  apply Rmult_le_compat_l; [lra|]. apply (Rle_div_l _ _ Yc); [lra|].
  assert (PW : 0 < P * w) by (apply Rmult_lt_0_compat; lra).
  assert (I1 : 0 < 1 / (P * w)) by (apply Rdiv_lt_0_compat; lra). assert (I2 : 0 < 1 / Bc) by (apply Rdiv_lt_0_compat; lra).
  destruct (Rle_dec (a * x) 0) as [K|K].
  - specialize (RE K). assert (0 < (Yc - Y) * P) by (apply Rmult_lt_0_compat; lra). assert (EE0 : 0 < eps) by (apply Rnot_le_lt; intros N; assert (0 <= Y * - eps) by (apply Rmult_le_pos; lra); lra).
    assert (G : Yc - Y <= w * eps * (1 / (P * w)) * Yc).
    { replace (w * eps * (1 / (P * w)) * Yc) with (Yc * eps / P) by (field; lra). apply (Rle_div_r _ _ P); [lra|]. assert (Y * eps <= Yc * eps) by (apply Rmult_le_compat_r; lra). lra. }
    assert (0 <= w * eps * (1 / Bc) * Yc) by (repeat apply Rmult_le_pos; lra). lra.
  - specialize (PR ltac:(lra)). assert (0 < (Yc - Y) * Bc) by (apply Rmult_lt_0_compat; lra). assert (EE0 : 0 < eps) by (apply Rnot_le_lt; intros N; assert (0 <= w * Y * - eps) by (repeat apply Rmult_le_pos; lra); lra).
    assert (G : Yc - Y <= w * eps * (1 / Bc) * Yc).
    { replace (w * eps * (1 / Bc) * Yc) with (w * Yc * eps / Bc) by (field; lra). apply (Rle_div_r _ _ Bc); [lra|]. assert (w * Y * eps <= w * Yc * eps) by (apply Rmult_le_compat_r; [lra|]; apply Rmult_le_compat_l; lra). lra. }
    assert (0 <= w * eps * (1 / (P * w)) * Yc) by (repeat apply Rmult_le_pos; lra). lra.
Qed.
End S.

Section Lim.
Context (cn kn qn bn : nat -> R) (c k q b : R).
Context (Lc : is_lim_seq cn c) (Lk : is_lim_seq kn k) (Lq : is_lim_seq qn q) (Lb : is_lim_seq bn b).
Context (Hdom : dom c (k / q^2)) (Hk : 0 <= k) (Hq : 1 < q) (Ha : b^2 + k < 1) (Hb : bc c k q = b).
Let tn := fun n => kn n / qn n ^2.
Let t : R := k / q^2.
Lemma wl_t : is_lim_seq tn t.
Proof. unfold tn, t. apply is_lim_seq_div'; [exact Lk | lim | apply pow_nonzero; lra]. Qed.
Lemma wl_nz : dd c t <> 0 /\ dd c t ^2 <> 0 /\ c + 1 <> 0 /\ q <> 0 /\ q^2 <> 0 /\ (c + 1) * q <> 0 /\ q^2 * (c^2 + t) * (1 + t) <> 0 /\ 0 < t + 1 /\ 1 + t <> 0 /\ (c^2 + t) * (c + 1) <> 0.
Proof.
  destruct (pos c k q b Hdom Hk Hq Ha) as (Hc & Ht & H3 & Hd & C2 & _). fold t in Ht, H3, Hd.
  assert (Q2 : 0 < q^2) by (apply pow_lt; lra).
  repeat split; try lra; try (apply pow_nonzero; lra); try (apply Rgt_not_eq; repeat apply Rmult_lt_0_compat; lra).
Qed.
Lemma wl_dd : is_lim_seq (fun n => dd (cn n) (tn n)) (dd c t).
Proof. pose proof wl_t. unfold dd. lim. Qed.
Lemma wl_w : is_lim_seq (fun n => crit_w (cn n) (kn n) (qn n)) (crit_w c k q).
Proof.
  pose proof wl_t as LT. pose proof wl_dd as LD. destruct wl_nz as (N1 & N2 & _).
  change (is_lim_seq (fun n => sqrt ((1 + tn n)^2 * (cn n ^2 + tn n) * qn n * ((qn n - 1) * dd (cn n) (tn n) + (1 - tn n) * (cn n ^2 + tn n)) / dd (cn n) (tn n) ^ 2)) (crit_w c k q)).
  unfold crit_w, VV. cbv zeta. fold t. clearbody t. limd.
Qed.
Lemma wl_U : is_lim_seq (fun n => UU (cn n) (kn n) (qn n)) (UU c k q).
Proof.
  pose proof wl_t as LT. pose proof wl_dd as LD. destruct wl_nz as (N1 & N2 & _).
  change (is_lim_seq (fun n => 4 * (cn n + 1)^2 * (cn n - tn n)^2 * (1 - tn n) * qn n / dd (cn n) (tn n) ^ 2) (UU c k q)).
  unfold UU. cbv zeta. fold t. clearbody t. limd.
Qed.
Lemma wl_P : is_lim_seq (fun n => P_ (cn n) (tn n) (qn n) (bn n)) (P_ c t q b).
Proof. pose proof wl_t as LT. destruct wl_nz as (_ & _ & N3 & _). unfold P_. clearbody t tn. limd. Qed.
Lemma wl_al : is_lim_seq (fun n => al_ (cn n) (qn n)) (al_ c q).
Proof. destruct wl_nz as (_ & _ & _ & _ & _ & N6 & _). unfold al_. limd. Qed.
Lemma wl_be : is_lim_seq (fun n => be_ (cn n) (tn n) (qn n)) (be_ c t q).
Proof. pose proof wl_t as LT. destruct wl_nz as (_ & _ & _ & _ & _ & N6 & N7 & _). unfold be_, mm_. clearbody t tn. limd. Qed.
Lemma wl_Yc : is_lim_seq (fun n => Yc_ (cn n) (tn n) (qn n)) (Yc_ c t q).
Proof. pose proof wl_t as LT. pose proof wl_dd as LD. destruct wl_nz as (N1 & _). unfold Yc_, Yt. clearbody t tn. limd. Qed.
Lemma wl_eps : is_lim_seq (fun n => crit_eps (cn n) (kn n) (qn n) (bn n)) 0.
Proof.
  replace 0 with ((b + crit_w c k q)^2 - UU c k q).
  - pose proof wl_w as LW. pose proof wl_U as LU. unfold crit_eps. lim.
  - pose proof (UU_pos c k q ltac:(lra) Hdom) as HU. rewrite <- (pow2_sqrt (UU c k q)) by lra. unfold bc in Hb. unfold crit_w. replace (sqrt (UU c k q)) with (b + sqrt (VV c k q)) by lra. ring.
Qed.
Lemma wl_B : is_lim_seq (fun n => crit_B (cn n) (kn n) (qn n) (bn n)) (crit_B c k q b) /\ 0 < crit_B c k q b.
Proof.
  split; [|exact (critical_factor c k q b Hdom Hk Hq Ha Hb)].
  pose proof wl_P as LP. pose proof wl_w as LW. pose proof wl_al as LA. pose proof wl_Yc as LY. unfold crit_B. change (k / q^2) with t.
  change (is_lim_seq (fun n => P_ (cn n) (tn n) (qn n) (bn n) * crit_w (cn n) (kn n) (qn n) - bn n * al_ (cn n) (qn n) * Yc_ (cn n) (tn n) (qn n)) (P_ c t q b * crit_w c k q - b * al_ c q * Yc_ c t q)). lim.
Qed.
Lemma wl_gap : is_lim_seq (fun n => gap_bound (cn n) (kn n) (qn n) (bn n)) 0.
Proof.
  destruct wl_B as [LB B0]. pose proof wl_P as LP. pose proof wl_w as LW. pose proof wl_eps as LE. pose proof wl_t as LT. destruct wl_nz as (_ & _ & N3 & _).
  destruct (pos c k q b Hdom Hk Hq Ha) as (_ & _ & _ & _ & _ & _ & _ & _ & _ & HP). fold t in HP.
  assert (W0 : 0 < crit_w c k q) by (apply sqrt_lt_R0, VV_pos; [lra | exact Hdom]).
  assert (NW : P_ c t q b * crit_w c k q <> 0) by (apply Rgt_not_eq, Rmult_lt_0_compat; lra). assert (NB : crit_B c k q b <> 0) by lra.
  replace 0 with (2 * q * (1 + t) / (c + 1) * (crit_w c k q * 0 * (1 / (P_ c t q b * crit_w c k q) + 1 / crit_B c k q b))) by ring.
  unfold gap_bound.
  change (is_lim_seq (fun n => 2 * qn n * (1 + tn n) / (cn n + 1) * (crit_w (cn n) (kn n) (qn n) * crit_eps (cn n) (kn n) (qn n) (bn n) * (1 / (P_ (cn n) (tn n) (qn n) (bn n) * crit_w (cn n) (kn n) (qn n)) + 1 / crit_B (cn n) (kn n) (qn n) (bn n))))
    (2 * q * (1 + t) / (c + 1) * (crit_w c k q * 0 * (1 / (P_ c t q b * crit_w c k q) + 1 / crit_B c k q b)))).
  limd.
Qed.
Lemma wl_E : is_lim_seq (fun n => al_ (cn n) (qn n) + be_ (cn n) (tn n) (qn n) * Yc_ (cn n) (tn n) (qn n)) (al_ c q + be_ c t q * Yc_ c t q) /\ al_ c q + be_ c t q * Yc_ c t q < 1.
Proof.
  split; [pose proof wl_al; pose proof wl_be; pose proof wl_Yc; lim|].
  destruct (pos c k q b Hdom Hk Hq Ha) as (Hc & Ht & H3 & Hd & C2 & _). pose proof (dom_om _ _ Hdom) as Hom. fold t in Ht, H3, Hd, Hom.
  assert (Ec : al_ c q + be_ c t q * Yc_ c t q = 1 - om c t / dd c t / q).
  { unfold al_, be_, mm_, Yc_, Yt. assert (D : exists d, d = dd c t) by eauto. destruct D as [d D]. rewrite <- D in *.
    apply (Rmult_eq_reg_l d); [|lra].
    transitivity (d - 2 * d / ((c + 1) * q) + 2 * (c - t) * (1 + t) / ((c + 1) * q)).
    { field. repeat split; lra. }
    transitivity (d - om c t / q); [|field; split; lra]. rewrite D. unfold dd, om. field. split; lra. }
  rewrite Ec. assert (0 < om c t / dd c t / q) by (apply Rdiv_lt_0_compat; [apply Rdiv_lt_0_compat; assumption|lra]). lra.
Qed.
End Lim.

Section Thm.
Context {X : External R} (HX : special_spec X) (HR : root_spec X).
Context (an pn en xn : nat -> R) (a e x s : R).
Context (Ha : 0 <= a < 1) (He : 0 <= e < 1) (Hx : -1 <= x <= 1).
Context (La : is_lim_seq an a) (Lp : is_lim_seq pn s) (Le : is_lim_seq en e) (Lx : is_lim_seq xn x).
Context (Hs : separatrix (Some a) (Some e) (Some x) = Ret (Some s)) (An : forall n, 0 <= an n).

(** parameters on the way, and the quantities that control the approach *)
Lemma whirl_limits : exists G M : nat -> R, is_lim_seq G 0 /\ is_lim_seq M (cc e * (s / (1 + e))^2) /\ exists d, 0 < d /\
  Hierarchy.eventually (fun n => forall E L Q, constants_of_motion (Some (an n)) (Some (pn n)) (Some (en n)) (Some (xn n)) = Ret (Some E, Some L, Some Q) ->
    let r1 := pn n / (1 - en n) in let r2 := pn n / (1 + en n) in
    en n < 1 /\ d <= 1 - E^2 /\ M n = r1 * r2 /\ d <= r2 - 1 /\ r1 <= r2 * (cc e + 1) /\
    forall r3 r4, r3 + r4 = 2 / (1 - E^2) - r1 - r2 -> r3 * r4 = an n ^2 * Q / (r1 * r2 * (1 - E^2)) ->
    0 < (1 - E^2) * ((r2 - r3) * (r2 - r4)) <= G n).
Proof.
  destruct (sep_facts HR a e x s Ha He Hx Hs) as (Q1 & D & B).
  set (cn := fun n => (1 + en n) / (1 - en n)). set (kn := fun n => an n ^2 * (1 - xn n ^2)). set (qn := fun n => pn n / (1 + en n)). set (bn := fun n => an n * xn n).
  assert (Lc : is_lim_seq cn (cc e)) by (unfold cn, cc; apply is_lim_seq_div'; [lim|lim|lra]).
  assert (Lk : is_lim_seq kn (a^2 * (1 - x^2))) by (unfold kn; lim).
  assert (Lq : is_lim_seq qn (s / (1 + e))) by (unfold qn; apply is_lim_seq_div'; [lim|lim|lra]).
  assert (Lb : is_lim_seq bn (a * x)) by (unfold bn; lim).
  assert (K0 : 0 <= a^2 * (1 - x^2)) by (apply Rmult_le_pos; [apply pow2_ge_0 | nra]).
  assert (A1 : (a * x)^2 + a^2 * (1 - x^2) < 1) by nra.
  pose proof (wl_gap cn kn qn bn _ _ _ _ Lc Lk Lq Lb D K0 Q1 A1 B) as LG.
  destruct (wl_B cn kn qn bn _ _ _ _ Lc Lk Lq Lb D K0 Q1 A1 B) as [LB B0].
  destruct (wl_E cn kn qn _ _ _ (a * x) Lc Lk Lq D K0 Q1 A1) as [LE E0].
  exists (fun n => gap_bound (cn n) (kn n) (qn n) (bn n)), (fun n => cn n * qn n ^2). split; [exact LG|]. split; [lim|].
  match type of LE with is_lim_seq _ (Finite ?v) => set (lE := v) in * end.
  exists (Rmin ((1 - lE) / 2) ((s / (1 + e) - 1) / 2)). split; [apply Rmin_pos; lra|].
  destruct (eventually_close _ _ ((1 - lE) / 2) LE ltac:(lra)) as [n1 N1]. destruct (eventually_close _ _ _ LB B0) as [n2 N2].
  destruct (eventually_close _ _ ((s / (1 + e) - 1) / 2) Lq ltac:(lra)) as [n3 N3]. destruct (eventually_close _ _ (1 - e) Le ltac:(lra)) as [n4 N4]. destruct (eventually_close _ _ 1 Lc ltac:(lra)) as [n5 N5].
  exists (Nat.max n1 (Nat.max n2 (Nat.max n3 (Nat.max n4 n5)))). intros n Hn E L Q HC. cbv zeta.
  specialize (N1 n ltac:(lia)). specialize (N2 n ltac:(lia)). specialize (N3 n ltac:(lia)). specialize (N4 n ltac:(lia)). specialize (N5 n ltac:(lia)). cbv beta in N1, N2. apply Rabs_def2 in N1, N2, N3, N4, N5.
  pose proof (constants_inv _ _ _ _ _ _ _ (An n) HC) as [HCK _].
  destruct (accepted_bounds HR _ _ _ _ (An n) HCK) as (_ & EN & _ & QN & _).
  assert (E1 : en n < 1) by lra.
  pose proof (gap_of_orbit HR (an n) (pn n) (en n) (xn n) E L Q (An n) E1 HC) as GO. cbv zeta in GO. destruct GO as [G1 G2].
  { change (0 < crit_B (cn n) (kn n) (qn n) (bn n)). lra. }
  change (E^2 <= al_ (cn n) (qn n) + be_ (cn n) (kn n / qn n ^2) (qn n) * Yc_ (cn n) (kn n / qn n ^2) (qn n)) in G2.
  assert (P0 : 0 < pn n). { replace (pn n) with (pn n / (1 + en n) * (1 + en n)) by (field; lra). apply Rmult_lt_0_compat; lra. }
  split; [exact E1|]. split; [eapply Rle_trans; [apply Rmin_l|]; lra|].
  split; [unfold cn, qn; field; lra|]. split; [eapply Rle_trans; [apply Rmin_r|]; unfold qn in N3; lra|].
  split. { replace (pn n / (1 - en n)) with (pn n / (1 + en n) * cn n) by (unfold cn; field; lra). apply Rmult_le_compat_l; lra. }
  intros r3 r4 RS RP.
  replace ((pn n / (1 + en n) - r3) * (pn n / (1 + en n) - r4)) with ((pn n / (1 + en n))^2 - (r3 + r4) * (pn n / (1 + en n)) + r3 * r4) by ring. rewrite RS, RP. exact G1.
Qed.

(** sum and product of the inner roots *)
Lemma whirl_vieta b p f z E L Q r1 r2 r3 r4 : 0 <= b -> f < 1 ->
  constants_of_motion (Some b) (Some p) (Some f) (Some z) = Ret (Some E, Some L, Some Q) ->
  r1 = p / (1 - f) -> r2 = p / (1 + f) -> 0 < r2 <= r1 ->
  (forall r, radial_potential b E L Q r = (1 - E^2) * (r1 - r) * (r - r2) * (r - r3) * (r - r4)) ->
  0 < 1 - E^2 /\ r3 + r4 = 2 / (1 - E^2) - r1 - r2 /\ r3 * r4 = b^2 * Q / (r1 * r2 * (1 - E^2)).
Proof.
  intros Hb0 Hf HC -> -> O HF. pose proof (orbit_quad HR b p f z E L Q Hb0 Hf HC) as OQ. cbv zeta in OQ.
  destruct (orbit_bound HR b p f z E L Q Hb0 Hf HC) as (HE & _). assert (E2 : 0 < 1 - E^2) by nra.
  set (r1 := p / (1 - f)) in *. set (r2 := p / (1 + f)) in *. set (S := 2 / (1 - E^2) - r1 - r2) in *. set (M := b^2 * Q / (r1 * r2 * (1 - E^2))) in *. clearbody r1 r2 S M.
  split; [exact E2|].
  assert (K : forall r, r <= 0 -> (r - r3) * (r - r4) = r^2 - S * r + M).
  { intros r Hr. apply (Rmult_eq_reg_l ((1 - E^2) * (r1 - r) * (r2 - r))); [|apply Rgt_not_eq; repeat apply Rmult_lt_0_compat; lra].
    pose proof (HF r) as A. rewrite OQ in A. lra. }
  pose proof (K 0 ltac:(lra)) as K0. pose proof (K (-1) ltac:(lra)) as K1. split; nra.
Qed.

(** the third radial root runs into the periapsis *)
Theorem C89_roots_merge (En Ln Qn r1 r2 r3 r4 : nat -> R) :
  (forall n, constants_of_motion (Some (an n)) (Some (pn n)) (Some (en n)) (Some (xn n)) = Ret (Some (En n), Some (Ln n), Some (Qn n))) ->
  (forall n, stable_radial_roots (Some (an n)) (Some (pn n)) (Some (en n)) (Some (xn n)) None = Ret (Some (r1 n), Some (r2 n), Some (r3 n), Some (r4 n))) ->
  is_lim_seq (fun n => r2 n - r3 n) 0 /\ (0 < e -> exists d, 0 < d /\ Hierarchy.eventually (fun n => d <= r1 n - r2 n)).
Proof.
  intros HC HRR. destruct whirl_limits as (G & M & LG & LM & d & D0 & [n0 EV]).
  assert (ORD : forall n, (n0 <= n)%nat -> r2 n = pn n / (1 + en n) /\ r1 n = pn n / (1 - en n) /\ 0 < r2 n - r3 n <= G n / (d * d)).
  { intros n Hn. specialize (EV n Hn _ _ _ (HC n)). cbv zeta in EV. destruct EV as (E1 & E2 & _ & E4 & _ & EV).
    destruct (C15_roots_defined HR (an n) (pn n) (en n) (xn n) (En n) (Ln n) (Qn n) None (HC n) E1 (or_introl eq_refl)) as (q1 & q2 & q3 & q4 & K & R1 & R2 & R4 & R3 & R12 & HF).
    rewrite HRR in K. apply Ret_inj in K. assert (q1 = r1 n /\ q2 = r2 n /\ q3 = r3 n /\ q4 = r4 n) as (-> & -> & -> & ->) by (repeat split; congruence). clear K.
    rewrite (Rabs_pos_eq _ (An n)) in HF. assert (S0 : 0 <= sqrt (1 - an n ^2)) by apply sqrt_pos.
    destruct (whirl_vieta (an n) (pn n) (en n) (xn n) _ _ _ (r1 n) (r2 n) (r3 n) (r4 n) (An n) E1 (HC n) R1 R2 ltac:(lra) HF) as (P0 & VS & VP).
    split; [exact R2|]. split; [exact R1|]. rewrite <- R2, <- R1 in EV. specialize (EV _ _ VS VP). rewrite <- R2 in E4. split; [lra|].
    apply (Rle_div_r _ _ (d * d)); [apply Rmult_lt_0_compat; lra|].
    assert (d * d <= (1 - En n ^2) * (r2 n - r4 n)) by (apply Rmult_le_compat; lra).
    assert ((r2 n - r3 n) * (d * d) <= (r2 n - r3 n) * ((1 - En n ^2) * (r2 n - r4 n))) by (apply Rmult_le_compat_l; lra). lra. }
  split.
  - assert (LZ : is_lim_seq (fun n => G n / (d * d)) 0). { replace 0 with (0 / (d * d)) by (unfold Rdiv; ring). apply is_lim_seq_div'; [exact LG | apply is_lim_seq_const | apply Rgt_not_eq, Rmult_lt_0_compat; lra]. }
    refine (is_lim_seq_le_le_loc (fun _ => 0) _ (fun n => G n / (d * d)) 0 _ (is_lim_seq_const 0) LZ).
    exists n0. intros n Hn. destruct (ORD n Hn) as (_ & _ & K). lra.
  - intros E0. assert (LD : is_lim_seq (fun n => pn n / (1 - en n) - pn n / (1 + en n)) (s / (1 - e) - s / (1 + e))) by (apply is_lim_seq_minus'; apply is_lim_seq_div'; [lim|lim|lra|lim|lim|lra]).
    destruct (sep_facts HR a e x s Ha He Hx Hs) as (Q1 & _). assert (S0 : 0 < s). { replace s with (s / (1 + e) * (1 + e)) by (field; lra). apply Rmult_lt_0_compat; lra. }
    assert (P0 : 0 < s / (1 - e) - s / (1 + e)). { replace (s / (1 - e) - s / (1 + e)) with (2 * s * e / ((1 - e) * (1 + e))) by (field; lra). apply Rdiv_lt_0_compat; repeat apply Rmult_lt_0_compat; lra. }
    exists ((s / (1 - e) - s / (1 + e)) / 2). split; [lra|].
    destruct (eventually_close _ _ ((s / (1 - e) - s / (1 + e)) / 2) LD ltac:(lra)) as [n1 N1].
    exists (Nat.max n0 n1). intros n Hn. specialize (N1 n ltac:(lia)). cbv beta in N1. apply Rabs_def2 in N1. destruct (ORD n ltac:(lia)) as (-> & -> & _). lra.
Qed.

(** so the radial period becomes infinite *)
Theorem C89_radial_frequency_vanishes (ur uth uph gam : nat -> R) :
  (forall n, mino_frequencies (Some (an n)) (Some (pn n)) (Some (en n)) (Some (xn n)) = Ret (Some (ur n), Some (uth n), Some (uph n), Some (gam n))) ->
  (forall n, 0 < ur n) /\ is_lim_seq ur 0 /\ (forall n, 0 < ur n / gam n) /\ is_lim_seq (fun n => ur n / gam n) 0.
Proof.
  intros HF. destruct whirl_limits as (G & M & LG & LM & d & D0 & [n0 EV]).
  pose proof PI_RGT_0 as HPI.
  assert (FU : forall n, 0 < ur n / gam n /\ 0 < gam n). { intros n. destruct (C65_fundamental_frequencies HX HR _ _ _ _ _ _ _ _ (HF n)) as (G0 & _ & K & _). split; assumption. }
  assert (UP : forall n, 0 < ur n). { intros n. destruct (FU n) as [K1 K2]. replace (ur n) with (ur n / gam n * gam n) by (field; lra). now apply Rmult_lt_0_compat. }
  (* what happens at late n *)
  assert (MAIN : forall n, (n0 <= n)%nat -> 1 <= gam n /\ exists S ka, 0 < S /\ S <= M n /\ 0 < ka <= 1 /\ S * ka^2 <= G n * ((cc e + 1) * (1 + / d)) /\ 
     ur n = PI * sqrt S / (2 * ellK (1 - ka^2))).
  { intros n Hn. pose proof (C65_time_runs_forward HX HR _ _ _ _ _ _ _ _ (An n) (HF n)) as (TG & _).
    destruct (mino_facts HX HR _ _ _ _ _ _ _ _ (An n) (HF n)) as (E & L & Q & r1 & r2 & r3 & r4 & zp & beta & a2s & F).
    pose proof (of_constants _ _ _ _ _ _ _ _ _ _ _ _ _ _ _ _ _ _ F) as HC. specialize (EV n Hn _ _ _ HC). cbv zeta in EV. destruct EV as (E1 & E2 & E3 & E4 & E5 & EV).
    pose proof (of_r1 _ _ _ _ _ _ _ _ _ _ _ _ _ _ _ _ _ _ F) as R1. pose proof (of_r2 _ _ _ _ _ _ _ _ _ _ _ _ _ _ _ _ _ _ F) as R2. pose proof (of_r12 _ _ _ _ _ _ _ _ _ _ _ _ _ _ _ _ _ _ F) as R12.
    pose proof (of_R _ _ _ _ _ _ _ _ _ _ _ _ _ _ _ _ _ _ F) as RF. pose proof (of_s _ _ _ _ _ _ _ _ _ _ _ _ _ _ _ _ _ _ F) as S0. pose proof (of_kr _ _ _ _ _ _ _ _ _ _ _ _ _ _ _ _ _ _ F) as KR. pose proof (of_ur _ _ _ _ _ _ _ _ _ _ _ _ _ _ _ _ _ _ F) as UR.
    destruct (C15_roots_defined HR _ _ _ _ E L Q (Some (Some E, Some L, Some Q)) HC E1 (or_intror eq_refl)) as (q1 & q2 & q3 & q4 & K & _ & _ & O4 & O3 & _ & _).
    rewrite (of_roots _ _ _ _ _ _ _ _ _ _ _ _ _ _ _ _ _ _ F) in K. apply Ret_inj in K. assert (q1 = r1 /\ q2 = r2 /\ q3 = r3 /\ q4 = r4) as (-> & -> & -> & ->) by (repeat split; congruence). clear K F.
    destruct (whirl_vieta _ _ _ _ _ _ _ r1 r2 r3 r4 (An n) E1 HC R1 R2 R12 RF) as (P0 & VS & VP).
    rewrite <- R2 in TG. rewrite <- R2, <- R1 in E3, E5, EV. rewrite <- R2 in E4. specialize (EV _ _ VS VP).
    assert (SQ : 0 <= sqrt (1 - an n ^2)) by apply sqrt_pos.
    split; [nra|].
    assert (D13 : 0 < r1 - r3) by lra. assert (D24 : 0 < r2 - r4) by lra. assert (D23 : 0 < r2 - r3) by lra. assert (D14 : 0 < r1 - r4) by lra.
    set (T := (r2 - r3) * (r1 - r4) / ((r1 - r3) * (r2 - r4))). assert (T0 : 0 < T) by (unfold T; apply Rdiv_lt_0_compat; now apply Rmult_lt_0_compat).
    assert (TK : kr2 r1 r2 r3 r4 = 1 - T) by (unfold kr2, T; field; lra).
    exists (sr2 (1 - E^2) r1 r2 r3 r4), (sqrt T). rewrite (pow2_sqrt T) by lra.
    split; [exact S0|]. split.
    { unfold sr2. rewrite E3. assert ((r1 - r3) * (r2 - r4) <= r1 * r2) by (apply Rmult_le_compat; lra). assert (0 < (r1 - r3) * (r2 - r4)) by (now apply Rmult_lt_0_compat). pose proof (pow2_ge_0 E). nra. }
    split. { split; [now apply sqrt_lt_R0|]. rewrite <- sqrt_1. apply sqrt_le_1_alt. lra. }
    split; [|rewrite UR, TK; reflexivity].
    assert (ID : sr2 (1 - E^2) r1 r2 r3 r4 * T = (1 - E^2) * ((r2 - r3) * (r2 - r4)) * ((r1 - r4) / (r2 - r4))) by (unfold sr2, T; field; lra).
    rewrite ID. clear ID. apply Rmult_le_compat; [lra | left; now apply Rdiv_lt_0_compat | lra |].
    apply (Rle_div_l _ _ (r2 - r4)); [lra|].
    assert (CC : 1 <= cc e) by (apply cc_ge; lra). assert (I : 0 < / d) by now apply Rinv_0_lt_compat.
    assert (r2 <= (1 + / d) * (r2 - r4)). { assert (1 <= / d * (r2 - r4)). { replace 1 with (/ d * d) at 1 by (field; lra). apply Rmult_le_compat_l; lra. } lra. }
    assert (r2 * (cc e + 1) <= (1 + / d) * (r2 - r4) * (cc e + 1)) by (apply Rmult_le_compat_r; lra). lra. }
  set (C := (cc e + 1) * (1 + / d)) in *. assert (C0 : 0 < C) by (unfold C; apply Rmult_lt_0_compat; [pose proof (cc_ge e He); lra | assert (0 < / d) by (now apply Rinv_0_lt_compat); lra]).
  set (M0 := cc e * (s / (1 + e))^2 + 1). 
  assert (MP : 1 <= M0). { unfold M0. pose proof (cc_ge e He). assert (0 <= cc e * (s / (1 + e))^2) by (apply Rmult_le_pos; [lra | apply pow2_ge_0]). lra. }
  assert (LU : is_lim_seq ur 0).
  { apply is_lim_seq_spec. intros [eps EP]. cbn [pos].
    (* below this size of the modulus the elliptic integral is large *)
    set (dl := Rmin (eps / 2) (exp (- (PI * M0 / eps)))). assert (DL : 0 < dl) by (apply Rmin_pos; [lra | apply exp_pos]).
    assert (DL1 : dl <= eps / 2) by apply Rmin_l. assert (DL2 : dl <= exp (- (PI * M0 / eps))) by apply Rmin_r. clearbody dl.
    assert (D4 : 0 < dl^4 / C) by (apply Rdiv_lt_0_compat; [now apply pow_lt | lra]).
    destruct (eventually_close _ _ _ LG D4) as [n1 N1]. destruct (eventually_close _ _ 1 LM ltac:(lra)) as [n2 N2].
    exists (Nat.max n0 (Nat.max n1 n2)). intros n Hn. specialize (N1 n ltac:(lia)). specialize (N2 n ltac:(lia)). apply Rabs_def2 in N1, N2.
    destruct (MAIN n ltac:(lia)) as (_ & S & ka & S0 & SM & KA & SK & UR).
    rewrite Rminus_0_r, Rabs_pos_eq by (left; apply UP).
    assert (GC : G n * C < dl^4). { replace (dl^4) with (dl^4 / C * C) by (field; lra). apply Rmult_lt_compat_r; lra. }
    assert (SQ0 : 0 < sqrt S) by now apply sqrt_lt_R0. assert (SQ2 : sqrt S ^2 = S) by (apply pow2_sqrt; lra).
    set (v := sqrt S) in *. clearbody v.
    assert (Km : 0 <= 1 - ka^2 < 1). { assert (0 < ka^2) by (apply pow_lt; lra). split; nra. }
    pose proof (ellK_half _ Km) as KH. pose proof (ellK_log _ Km) as KL. replace (1 - (1 - ka^2)) with (ka^2) in KL by ring. rewrite sqrt_pow2 in KL by lra.
    set (K := ellK (1 - ka^2)) in *. clearbody K.
    rewrite UR. cbn [RIneq.pos]. apply (Rlt_div_l _ _ (2 * K)); [lra|].
    destruct (Rle_dec v dl) as [SM1|BG].
    - assert (PI * v <= PI * (eps / 2)) by (apply Rmult_le_compat_l; lra). assert (eps * PI <= eps * (2 * K)) by (apply Rmult_le_compat_l; lra).
      assert (0 < eps * PI) by (apply Rmult_lt_0_compat; lra). lra.
    - assert (KD : ka < dl).
      { apply Rnot_le_lt. intros N. assert (dl^2 <= v^2) by (apply pow_incr; lra). assert (dl^2 <= ka^2) by (apply pow_incr; lra).
        assert (dl^2 * dl^2 <= S * ka^2). { rewrite <- SQ2. apply Rmult_le_compat; try assumption; apply pow2_ge_0. } replace (dl^4) with (dl^2 * dl^2) in GC by ring. lra. }
      assert (LK : ln ka < - (PI * M0 / eps)). { rewrite <- (ln_exp (- (PI * M0 / eps))). apply ln_increasing; lra. }
      assert (KG : PI * M0 / eps < K) by lra.
      assert (PM : PI * M0 < K * eps) by (apply (Rlt_div_l _ _ eps); lra).
      assert (VM : v <= M0). { apply Rnot_lt_le. intros N. assert (M0 * 1 < v * v) by (apply Rmult_le_0_lt_compat; lra). unfold M0 in *. simpl in SQ2. lra. }
      assert (PI * v <= PI * M0) by (apply Rmult_le_compat_l; lra). assert (0 < PI * M0) by (apply Rmult_lt_0_compat; lra). lra. }
  split; [exact UP|]. split; [exact LU|]. split; [apply FU|].
  refine (is_lim_seq_le_le_loc (fun _ => 0) _ ur 0 _ (is_lim_seq_const 0) LU).
  exists n0. intros n Hn. destruct (MAIN n Hn) as (G1 & _). split; [left; apply FU|]. apply (Rle_div_l _ _ (gam n)); [lra|]. specialize (UP n). assert (ur n * 1 <= ur n * gam n) by (apply Rmult_le_compat_l; lra). lra.
Qed.
End Thm.

(** The hypotheses are met: for the retrograde inclined orbits a = 1/2, e = 1/2, x = -1/2 and
    p approaching the separatrix from above. *)
Example C89_case {X : External R} (HX : special_spec X) (HR : root_spec X) : exists s ur uth uph gam,
  separatrix (Some (1/2)) (Some (1/2)) (Some (-1/2)) = Ret (Some s) /\
  (forall n, mino_frequencies (Some (1/2)) (Some (s + / (INR n + 2))) (Some (1/2)) (Some (-1/2)) = Ret (Some (ur n), Some (uth n), Some (uph n), Some (gam n))) /\
  is_lim_seq ur 0 /\ is_lim_seq (fun n => ur n / gam n) 0.
Proof.
  destruct (separatrix_total HR (1/2) (1/2) (-1/2)) as (s & Es' & _); try lra.
  assert (Es : separatrix (Some (1/2)) (Some (1/2)) (Some (-1/2)) = Ret (Some s)) by (rewrite separatrix_lift, Es'; reflexivity).
  set (w := fun n : nat => / (INR n + 2)).
  assert (W0 : forall n, 0 < w n). { intros n. unfold w. pose proof (pos_INR n). apply Rinv_0_lt_compat; lra. }
  assert (LW : is_lim_seq w 0).
  { unfold w. replace (Finite 0) with (Rbar_inv p_infty) by reflexivity. apply is_lim_seq_inv; [|discriminate].
    apply (is_lim_seq_plus INR (fun _ => 2) p_infty 2 p_infty); [apply is_lim_seq_INR | apply is_lim_seq_const | reflexivity]. }
  set (cn := fun n => mino_frequencies (Some (1/2)) (Some (s + w n)) (Some (1/2)) (Some (-1/2))).
  assert (CN : forall n, exists u1 u2 u3 u4, cn n = Ret (Some u1, Some u2, Some u3, Some u4)).
  { intros n. specialize (W0 n). unfold cn.
    assert (CK : check_constants_params (1/2) (s + w n) (1/2) (-1/2) = Ret tt).
    { destruct (check_constants_cases (1/2) (s + w n) (1/2) (-1/2) ltac:(lra)) as [_ [_ H]].
      rewrite (H s); [|lra|exact Es']. destruct (Rlt_dec s (s + w n)); [reflexivity | lra]. }
    assert (S1 : spin_sign (1/2) = 1) by (unfold spin_sign; destruct (Rlt_dec (1/2) 0); lra).
    destruct (C50_finite_retrograde HR (1/2) (s + w n) (1/2) (-1/2)) as (E & L & Q & HC).
    { rewrite Rabs_pos_eq, S1, Rmult_1_r by lra. exact CK. }
    { right. rewrite S1. lra. }
    destruct (proj2 (C53_frequencies_exactly HX HR (1/2) (s + w n) (1/2) (-1/2) E L Q ltac:(lra) ltac:(lra) HC)) as (ur & uth & uph & gam & HF).
    - destruct (C23_bound_orbits HR (1/2) (s + w n) (1/2) (-1/2) E L Q HC ltac:(lra)) as (HE & HQ & HL & _).
      rewrite Rabs_pos_eq by lra. pose proof (sqrt_pos (1 - (1/2)^2)).
      destruct (C14_polar_turning_point HR (1/2) (s + w n) (1/2) (-1/2) E L Q HC) as (_ & _ & HN & _). rewrite S1, Rmult_1_r in HN. specialize (HN ltac:(lra)).
      apply Rgt_not_eq. clear - HN HE H. nra.
    - eauto. }
  set (get := fun (f : R -> R -> R -> R -> R) n => match cn n with Ret (Some u1, Some u2, Some u3, Some u4) => f u1 u2 u3 u4 | _ => 0 end).
  assert (GE : forall n, mino_frequencies (Some (1/2)) (Some (s + w n)) (Some (1/2)) (Some (-1/2))
     = Ret (Some (get (fun u _ _ _ => u) n), Some (get (fun _ u _ _ => u) n), Some (get (fun _ _ u _ => u) n), Some (get (fun _ _ _ u => u) n))).
  { intros n. fold (cn n). unfold get. destruct (CN n) as (u1 & u2 & u3 & u4 & ->). reflexivity. }
  assert (LP : is_lim_seq (fun n => s + w n) s) by (replace (Finite s) with (Finite (s + 0)) by (f_equal; ring); lim).
  pose proof (C89_radial_frequency_vanishes HX HR (fun _ => 1/2) (fun n => s + w n) (fun _ => 1/2) (fun _ => -1/2) (1/2) (1/2) (-1/2) s ltac:(lra) ltac:(lra) ltac:(lra)
    (is_lim_seq_const _) LP (is_lim_seq_const _) (is_lim_seq_const _) Es ltac:(intros; lra) _ _ _ _ GE) as (_ & K1 & _ & K2).
  do 5 eexists. exact (conj Es (conj GE (conj K1 K2))).
Qed.
Print Assumptions C89_roots_merge.
Print Assumptions C89_radial_frequency_vanishes.

(** * Near the separatrix: the third radial root approaches the periapsis

    Not a model of any code: quantitative form of the algebra of P_Stability2 (same
    notation), and the logarithmic divergence of the complete elliptic integral. *)
From Coq Require Import Reals Lra Psatz.
From Coquelicot Require Import Coquelicot.
From Verif Require Import P_Stability P_Stability2 SpecElliptic Elliptic.
Open Scope R_scope.

Section Orbit.
Variables c k q b E y : R.
Let t := k / q^2.
Hypothesis Hdom : dom c t.
Hypothesis Hk : 0 <= k.
Hypothesis Hq : 1 < q.
Hypothesis Ha : b^2 + k < 1.
Hypothesis Hb : bc c k q < b.
Hypothesis HE : 0 < E.
Let al := al_ c q. Let be := be_ c t q. Let P := P_ c t q b. Let W := W_ c t q.
Let Yc := Yc_ c t q.
Let Y := y^2.
Hypothesis E1 : E^2 = al + be * Y.
Hypothesis E2 : P + W * Y = 2 * b * (E * y).
Hypothesis Br1 : b <= 0 -> 0 <= y.
Hypothesis Br2 : 0 < b -> 0 <= b * al + 2 * b * (be * Y) - W * (E * y).
(** distance from criticality *)
Let w := sqrt (VV c k q).
Let eps := (b + w)^2 - UU c k q.
Let Bc := P * w - b * al * Yc.

Lemma wh_facts : 0 <= Y < Yc /\ 0 < w /\ w^2 = Yc * (al + be * Yc) /\ P + W * Yc = 2 * b * w - eps /\ 0 < al /\ 0 < be /\ 0 < P.
Proof.
  pose proof (below_critical c k q b E y Hdom Hk Hq Ha Hb HE E1 E2 Br1 Br2) as K. destruct (crit_eqs c k q b Hdom Hk Hq Ha) as [C1 C2].
  pose proof (VV_pos c k q ltac:(lra) Hdom) as HV. destruct (pos c k q b Hdom Hk Hq Ha) as (_ & _ & _ & _ & _ & A & _ & B & _ & PP).
  fold t in C1, C2, K, A, B, PP. fold al be P W Yc Y in C1, C2, K, A, B, PP.
  assert (W2 : w^2 = VV c k q) by (unfold w; apply pow2_sqrt; lra). split; [split; [apply pow2_ge_0 | exact K]|]. split; [now apply sqrt_lt_R0|].
  split; [rewrite W2, <- C2; ring|]. split; [|split; [exact A | split; [exact B | exact PP]]]. rewrite C1. unfold eps. rewrite <- W2. ring.
Qed.
Lemma wh_retro : b <= 0 -> (Yc - Y) * P <= Y * eps.
Proof.
  intros B0. destruct wh_facts as (HY & Hw & W2 & C1 & A0 & BE0 & P0). specialize (Br1 B0). clearbody Yc al be P W w eps.
  set (la := Y / Yc). assert (L1 : 0 <= la < 1). { unfold la. split; [apply Rmult_le_pos; [lra | left; apply Rinv_0_lt_compat; lra] | apply (Rlt_div_l Y 1 Yc); lra]. }
  assert (EL : Y = la * Yc) by (unfold la; field; lra).
  set (z := E * y) in *. assert (Z0 : 0 <= z) by (apply Rmult_le_pos; lra).
  assert (Z2 : z^2 = Y * (al + be * Y)) by (unfold z; rewrite <- E1; unfold Y; ring). clearbody z la Y.
  assert (LW : la * w <= z).
  { apply Rsqr_incr_0_var; [|exact Z0]. unfold Rsqr. replace (z * z) with (z^2) by ring. replace (la * w * (la * w)) with (la^2 * w^2) by ring. rewrite W2, Z2, EL.
    assert (0 <= la * Yc * al * (1 - la)) by (repeat apply Rmult_le_pos; lra).
    replace (la * Yc * (al + be * (la * Yc))) with (la^2 * (Yc * (al + be * Yc)) + la * Yc * al * (1 - la)) by ring. lra. }
  assert (G : (1 - la) * P <= la * eps).
  { assert (0 <= - (2 * b) * (z - la * w)) by (apply Rmult_le_pos; lra).
    assert (H1 : W * Y = la * (W * Yc)) by (rewrite EL; ring). rewrite H1 in E2. replace (W * Yc) with (2 * b * w - eps - P) in E2 by lra. lra. }
  assert (Yc * ((1 - la) * P) <= Yc * (la * eps)) by (apply Rmult_le_compat_l; lra).
  replace ((Yc - Y) * P) with (Yc * ((1 - la) * P)) by (rewrite EL; ring). replace (Y * eps) with (Yc * (la * eps)) by (rewrite EL; ring). assumption.
Qed.
Lemma wh_pro : 0 < b -> (Yc - Y) * Bc <= w * Y * eps.
Proof.
  intros B0. destruct wh_facts as (HY & Hw & W2 & C1 & A0 & BE0 & P0). unfold Bc. clear Bc. clearbody Yc al be P W w eps.
  set (z := E * y) in *. assert (Z2 : z^2 = Y * (al + be * Y)) by (unfold z; rewrite <- E1; unfold Y; ring). clearbody z Y.
  assert (AG : w * z <= al * (Y + Yc) / 2 + be * Y * Yc).
  { destruct (Rle_dec z 0) as [K|K].
    - assert (w * z <= 0) by nra. assert (0 <= be * Y * Yc) by (repeat apply Rmult_le_pos; lra). assert (0 <= al * (Y + Yc)) by (apply Rmult_le_pos; lra). lra.
    - apply Rsqr_incr_0_var.
      + unfold Rsqr. replace (w * z * (w * z)) with (w^2 * z^2) by ring. rewrite W2, Z2.
        apply Rminus_le. replace (Yc * (al + be * Yc) * (Y * (al + be * Y))
          - (al * (Y + Yc) / 2 + be * Y * Yc) * (al * (Y + Yc) / 2 + be * Y * Yc)) with (- (al * (Y - Yc) / 2)^2) by field.
        pose proof (pow2_ge_0 (al * (Y - Yc) / 2)). lra.
      + assert (0 <= be * Y * Yc) by (apply Rmult_le_pos; [apply Rmult_le_pos|]; lra).
        assert (0 <= al * (Y + Yc)) by (apply Rmult_le_pos; lra). lra. }
  assert (ID : Yc * (w * (P + W * Y) - b * al * (Y + Yc) - 2 * b * be * Y * Yc) = (Yc - Y) * (P * w - b * al * Yc) - w * Y * eps).
  { transitivity (Yc * w * P + w * Y * (W * Yc) - b * al * Yc * (Y + Yc) - 2 * b * be * Y * Yc^2); [ring|].
    replace (W * Yc) with (2 * b * w - eps - P) by lra.
    transitivity (w * P * (Yc - Y) - w * Y * eps + 2 * b * Y * w^2 - b * al * Yc * (Y + Yc) - 2 * b * be * Y * Yc^2); [ring|]. rewrite W2. ring. }
  rewrite E2 in ID.
  assert (NEG : w * (2 * b * z) - b * al * (Y + Yc) - 2 * b * be * Y * Yc <= 0).
  { assert (0 <= (2 * b) * (al * (Y + Yc) / 2 + be * Y * Yc - w * z)) by (apply Rmult_le_pos; lra). lra. }
  assert (0 <= Yc * - (w * (2 * b * z) - b * al * (Y + Yc) - 2 * b * be * Y * Yc)) by (apply Rmult_le_pos; lra). lra.
Qed.
(** the gap between the periapsis and the next root *)
Lemma wh_gap r3 r4 : E^2 < 1 -> r3 + r4 = 2 / (1 - E^2) - c * q - q ->
  r3 * r4 * (c * q^2 * (1 - E^2)) = k * (2 * q + 2 * Y / (q * (1 + t)) - (1 - E^2) * q^2) ->
  (1 - E^2) * ((q - r3) * (q - r4)) = 2 * q * (1 + t) / (c + 1) * ((Yc - Y) / Yc).
Proof.
  intros HE1 Sm Pr.
  destruct (pos c k q b Hdom Hk Hq Ha) as (Hc & Ht & H3 & Hd & C2 & Hal & Hm & Hbe & HYc & HP). fold t in Ht, H3, Hd, Hm, Hbe, HYc. fold Yc in HYc.
  assert (q <> 0) by lra. assert (1 + t <> 0) by lra. assert (c + 1 <> 0) by lra. assert (c^2 + t <> 0) by lra. assert (dd c t <> 0) by lra.
  set (ep := 1 - E^2) in *. assert (Hep0 : 0 < ep) by (unfold ep; lra).
  assert (Eep : ep * ((c + 1) * q) = 2 - 2 * Y * mm_ c t q).
  { unfold ep. rewrite E1. unfold al, al_, be, be_. field. split; assumption. }
  assert (Sm' : ep * (r3 + r4) = 2 * Y * mm_ c t q).
  { rewrite Sm. replace (ep * (2 / ep - c * q - q)) with (2 - ep * ((c + 1) * q)) by (field; lra). rewrite Eep. ring. }
  replace (ep * ((q - r3) * (q - r4))) with (ep * q^2 - q * (ep * (r3 + r4)) + (r3 * r4 * (c * q^2 * ep)) / (c * q^2)) by (field; split; lra).
  rewrite Pr, Sm'.
  assert (Eep2 : ep * q^2 = q * (2 - 2 * Y * mm_ c t q) / (c + 1)) by (rewrite <- Eep; field; assumption).
  rewrite Eep2. replace k with (t * q^2) by (unfold t; field; assumption).
  replace ((Yc - Y) / Yc) with (1 - Y * (/ Yc)) by (field; lra).
  replace (/ Yc) with (dd c t / (q^2 * (c^2 + t) * (1 + t)^2)) by (unfold Yc, Yc_, Yt; field; repeat split; assumption).
  unfold mm_, dd. field. repeat split; lra.
Qed.
End Orbit.

(** at criticality the prograde factor is positive *)
Lemma critical_factor c k q b : let t := k / q^2 in dom c t -> 0 <= k -> 1 < q -> b^2 + k < 1 -> bc c k q = b ->
  0 < P_ c t q b * sqrt (VV c k q) - b * al_ c q * Yc_ c t q.
Proof.
  cbv zeta. intros Hdom Hk Hq Ha Hb.
  destruct (pos c k q b Hdom Hk Hq Ha) as (Hc & Ht & H3 & Hd & C2 & Hal & Hm & Hbe & HYc & HP).
  destruct (crit_eqs c k q b Hdom Hk Hq Ha) as [_ CE].
  pose proof (UU_pos c k q ltac:(lra) Hdom) as HU. pose proof (VV_pos c k q ltac:(lra) Hdom) as HV.
  assert (Hu2 : sqrt (UU c k q) ^ 2 = UU c k q) by (apply pow2_sqrt; lra).
  assert (Hw2 : sqrt (VV c k q) ^ 2 = VV c k q) by (apply pow2_sqrt; lra).
  pose proof (sqrt_lt_R0 _ HU) as Hu. pose proof (sqrt_lt_R0 _ HV) as Hw. unfold bc in Hb.
  set (t := k / q^2) in *.
  set (u := sqrt (UU c k q)) in *. set (w := sqrt (VV c k q)) in *.
  set (N := 2 * q * (c - t) / (c + 1)). set (be := be_ c t q) in *. set (al := al_ c q) in *. set (Yc := Yc_ c t q) in *.
  (* P w - b al Yc = (u - w) (be Yc^2 - u w) + w N *)
  assert (FORM : P_ c t q b * w - b * al * Yc = (u - w) * (be * Yc^2 - u * w) + w * N).
  { unfold P_. fold N. rewrite <- Hb. replace (al * Yc) with (w^2 - be * Yc^2) by (rewrite Hw2, <- CE; ring).
    replace ((u - w) * al * Yc) with ((u - w) * (al * Yc)) by ring. replace (al * Yc) with (w^2 - be * Yc^2) by (rewrite Hw2, <- CE; ring). ring. }
  rewrite FORM. clear FORM HP CE.
  (* square roots of q and 1-t *)
  set (s := sqrt q). assert (S0 : 0 < s) by (apply sqrt_lt_R0; lra). assert (S2 : s^2 = q) by (apply pow2_sqrt; lra).
  set (v := sqrt (1 - t)). assert (V0 : 0 < v) by (apply sqrt_lt_R0; lra). assert (V2 : v^2 = 1 - t) by (apply pow2_sqrt; lra).
  set (d := dd c t) in *.
  assert (Ct : 0 < c - t) by lra.
  assert (UF : u = s * (2 * (c + 1) * (c - t) * v / d)).
  { apply Rsqr_inj; [lra | apply Rmult_le_pos; [lra|]; apply Rmult_le_pos; [repeat apply Rmult_le_pos; lra | left; apply Rinv_0_lt_compat; lra] |].
    unfold Rsqr. replace (u * u) with (u^2) by ring. rewrite Hu2. unfold UU. cbv zeta. fold t d.
    replace (s * (2 * (c + 1) * (c - t) * v / d) * (s * (2 * (c + 1) * (c - t) * v / d))) with (4 * (c + 1)^2 * (c - t)^2 * v^2 * s^2 / d^2) by (field; lra).
    rewrite V2, S2. field. lra. }
  set (w1 := s * ((1 + t) * (c^2 + t) * v / d)).
  assert (W1 : 0 < w1) by (unfold w1; apply Rmult_lt_0_compat; [lra|]; apply Rdiv_lt_0_compat; [repeat apply Rmult_lt_0_compat; lra | lra]).
  assert (WG : w1 < w).
  { apply Rsqr_incrst_0; [|lra|lra]. unfold Rsqr. replace (w * w) with (w^2) by ring. rewrite Hw2. unfold VV. cbv zeta. fold t d.
    replace (w1 * w1) with ((1 + t)^2 * (c^2 + t) * q * ((1 - t) * (c^2 + t)) / d^2) by (unfold w1; rewrite <- S2, <- V2; field; lra).
    unfold Rdiv. apply Rmult_lt_compat_r; [apply Rinv_0_lt_compat, pow_lt; lra|]. apply Rmult_lt_compat_l.
    - repeat apply Rmult_lt_0_compat; try lra; apply pow_lt; lra.
    - assert (0 < (q - 1) * d) by (apply Rmult_lt_0_compat; lra). lra. }
  set (w2 := be * Yc^2 / w1).
  assert (BY : be * Yc^2 = 2 * (c - t) * (c^2 + t) * (1 + t)^3 * q / ((c + 1) * d^2)).
  { unfold be, be_, mm_, Yc, Yc_, Yt. fold d. field. repeat split; lra. }
  assert (W2F : w2 = s * (2 * (c - t) * (1 + t)^2 / ((c + 1) * d * v))).
  { unfold w2. rewrite BY. unfold w1. rewrite <- S2. field. repeat split; lra. }
  assert (SUM : u * (w1 + w2) = u^2 + be * Yc^2 - N).
  { rewrite W2F, BY, UF. unfold w1, N. rewrite <- S2.
    transitivity (s^2 * ((2 * (c + 1) * (c - t) / d) * ((1 + t) * (c^2 + t) * v^2 / d + 2 * (c - t) * (1 + t)^2 / ((c + 1) * d)))).
    { field. repeat split; lra. }
    transitivity (s^2 * ((2 * (c + 1) * (c - t) / d)^2 * v^2 + 2 * (c - t) * (c^2 + t) * (1 + t)^3 / ((c + 1) * d^2) - 2 * (c - t) / (c + 1))); [|field; repeat split; lra].
    rewrite V2. f_equal. apply (Rmult_eq_reg_r (d^2 * (c + 1))); [|apply Rgt_not_eq; apply Rmult_lt_0_compat; [apply pow_lt; lra | lra]].
    transitivity (2 * (c + 1) * (c - t) * ((1 + t) * (c^2 + t) * (1 - t) * (c + 1) + 2 * (c - t) * (1 + t)^2)).
    { field. repeat split; lra. }
    transitivity (4 * (c + 1)^3 * (c - t)^2 * (1 - t) + 2 * (c - t) * (c^2 + t) * (1 + t)^3 - 2 * (c - t) * d^2); [|field; repeat split; lra].
    unfold d, dd. ring. }
  assert (W12 : w2 <= w1).
  { rewrite W2F. unfold w1. apply Rmult_le_compat_l; [lra|]. apply (Rle_div_l _ _ ((c + 1) * d * v)); [repeat apply Rmult_lt_0_compat; lra|].
    replace ((1 + t) * (c^2 + t) * v / d * ((c + 1) * d * v)) with ((1 + t) * ((c^2 + t) * (c + 1) * v^2)) by (field; lra). rewrite V2.
    replace (2 * (c - t) * (1 + t)^2) with ((1 + t) * (2 * (c - t) * (1 + t))) by ring. apply Rmult_le_compat_l; [lra|].
    assert (0 <= (c - 1) * (c - t)) by (apply Rmult_le_pos; lra). assert (0 <= (c - 1) * (c - 1)) by (apply Rmult_le_pos; lra).
    assert (0 <= (c-1) * ((c - 1) * (1 - t))) by (repeat apply Rmult_le_pos; lra). assert (0 <= (c - 1) * ((c-1) * (c - 1)) * (1 - t)) by (repeat apply Rmult_le_pos; lra). nra. }
  assert (FAC : (u - w) * (be * Yc^2 - u * w) + w * N = u * ((w - w1) * (w - w2))).
  { replace (u * ((w - w1) * (w - w2))) with (u * w^2 - w * (u * (w1 + w2)) + u * (w1 * w2)) by ring. rewrite SUM.
    replace (w1 * w2) with (be * Yc^2) by (unfold w2; field; lra). ring. }
  rewrite FAC. apply Rmult_lt_0_compat; [lra|]. apply Rmult_lt_0_compat; lra.
Qed.

(** the complete elliptic integral diverges logarithmically *)
Lemma ellK_log m : 0 <= m < 1 -> - ln (sqrt (1 - m)) <= ellK m.
Proof.
  intros Hm. set (ka := sqrt (1 - m)). assert (K0 : 0 < ka) by (apply sqrt_lt_R0; lra). assert (K2 : ka^2 = 1 - m) by (apply pow2_sqrt; lra).
  pose proof PI_RGT_0 as HPI. assert (PI2 : 1 < PI / 2) by (pose proof PI2_3_2; lra).
  set (g := fun th => - ln (PI / 2 - th + ka)).
  assert (DG : forall th, 0 <= th <= PI / 2 -> is_derive g th (/ (PI / 2 - th + ka))).
  { intros th Hth. unfold g. auto_derive; [lra|]. field. lra. }
  assert (IG : is_RInt (fun th => / (PI / 2 - th + ka)) 0 (PI / 2) (minus (g (PI / 2)) (g 0))).
  { apply (is_RInt_derive g).
    - intros th Hth. rewrite Rmin_left, Rmax_right in Hth by lra. now apply DG.
    - intros th Hth. rewrite Rmin_left, Rmax_right in Hth by lra. apply (ex_derive_continuous (V := R_NormedModule)). auto_derive. lra. }
  assert (POS : forall th, 0 < 1 - m * sin th ^2).
  { intros th. assert (0 <= sin th ^2 <= 1). { split; [apply pow2_ge_0|]. pose proof (SIN_bound th). nra. } nra. }
  assert (IK : ex_RInt (fun th => / sqrt (1 - m * sin th ^2)) 0 (PI / 2)).
  { apply (ex_RInt_continuous (fun th => / sqrt (1 - m * sin th ^2))). intros th _. apply (ex_derive_continuous (V := R_NormedModule)). specialize (POS th). auto_derive. split; [exact POS|]. split; [|exact I]. apply Rgt_not_eq. apply sqrt_lt_R0. exact POS. }
  apply Rle_trans with (minus (g (PI / 2)) (g 0)).
  - unfold minus, plus, opp; simpl. unfold g. replace (PI / 2 - PI / 2 + ka) with ka by ring.
    assert (0 <= ln (PI / 2 - 0 + ka)). { apply Rle_trans with (ln 1); [rewrite ln_1; lra|]. apply Rcomplements.ln_le; lra. } lra.
  - unfold ellK, ellF. rewrite <- (is_RInt_unique _ _ _ _ IG). apply RInt_le; [lra | eexists; exact IG | exact IK |].
    intros th Hth. specialize (POS th). apply Rinv_le_contravar; [now apply sqrt_lt_R0|].
    apply Rsqr_incr_0_var; [|lra]. rewrite Rsqr_sqrt by lra. unfold Rsqr.
    assert (C : 0 <= cos th <= PI / 2 - th).
    { split; [apply cos_ge_0; lra|]. replace (cos th) with (sin (PI / 2 - th)) by (rewrite sin_shift; reflexivity). left. apply sin_lt_x. lra. }
    pose proof (sin2_cos2 th) as SC. unfold Rsqr in SC.
    replace (1 - m * sin th ^2) with (cos th ^2 + ka^2 * sin th ^2).
    2:{ rewrite K2. replace (sin th ^2) with (1 - cos th ^2) by (simpl; lra). replace (m * (1 - cos th^2)) with (m * sin th ^2) by (f_equal; simpl; lra). simpl. nra. }
    assert (S1 : sin th ^2 <= 1) by (pose proof (pow2_ge_0 (cos th)); simpl in *; lra).
    assert (T1 : cos th ^2 <= (PI / 2 - th)^2) by (apply pow_incr; lra). assert (T2 : ka^2 * sin th ^2 <= ka^2 * 1) by (apply Rmult_le_compat_l; [apply pow2_ge_0 | exact S1]).
    assert (0 <= (PI / 2 - th) * ka) by (apply Rmult_le_pos; lra). simpl in *. lra.
Qed.
Lemma ellK_half m : 0 <= m < 1 -> PI / 2 <= ellK m.
Proof.
  intros Hm. pose proof PI_RGT_0 as HPI.
  assert (POS : forall th, 0 < 1 - m * sin th ^2).
  { intros th. assert (0 <= sin th ^2 <= 1). { split; [apply pow2_ge_0|]. pose proof (SIN_bound th). nra. } nra. }
  replace (PI / 2) with (RInt (fun _ => 1) 0 (PI / 2)). 2:{ rewrite RInt_const. unfold scal; simpl; unfold mult; simpl. field. }
  unfold ellK, ellF. apply RInt_le; [lra | apply ex_RInt_const | |].
  - apply (ex_RInt_continuous (fun th => / sqrt (1 - m * sin th ^2))). intros th _. apply (ex_derive_continuous (V := R_NormedModule)). specialize (POS th). auto_derive. split; [exact POS|]. split; [|exact I]. apply Rgt_not_eq. apply sqrt_lt_R0. exact POS.
  - intros th _. specialize (POS th). rewrite <- Rinv_1 at 1. apply Rinv_le_contravar; [now apply sqrt_lt_R0|]. apply Rle_trans with (sqrt 1); [apply sqrt_le_1_alt | rewrite sqrt_1; lra]. assert (0 <= m * sin th ^2) by (apply Rmult_le_pos; [lra | apply pow2_ge_0]). lra.
Qed.

(** * C97: the isolated orbits without finite frequencies are removable *)
From Coq Require Import Reals Lra Lia ZArith String List.
From Coquelicot Require Import Coquelicot.
From Verif Require Import Num Outcome External Checked ExternalSpec Spec SpecElliptic Elliptic.
From Verif Require Import Model_Constants Model_Frequencies P_Validation Props_Validation P_Radial P_Polar P_Traj P_Traj2 P_Traj3.
From Verif Require Import Props_Stability Props_Frequencies Props_Validation P_Bounds P_Schmidt P_Constants Props_Constants Props_Finite Props_Future Props_Restart P_Continuity Props_Continuity.
From Verif Require Import Props_FreqContinuity Props_CircularFamily.
Open Scope R_scope.

(** vanishing times bounded *)
Lemma lim_small (u v w : nat -> R) (W : R) : is_lim_seq u 0 -> is_lim_seq w W -> (forall n, 0 <= v n <= w n) -> is_lim_seq (fun n => u n * v n) 0.
Proof.
  intros Lu Lw B. apply is_lim_seq_abs_0. apply (is_lim_seq_le_le (fun _ => 0) _ (fun n => Rabs (u n) * w n)).
  - intros n. split; [apply Rabs_pos|]. rewrite Rabs_mult, (Rabs_pos_eq (v n)) by apply B. apply Rmult_le_compat_l; [apply Rabs_pos | apply B].
  - apply is_lim_seq_const.
  - replace (Finite 0) with (Finite (0 * W)) by (f_equal; ring). apply is_lim_seq_mult'; [|exact Lw].
    replace (Finite 0) with (Finite (Rabs 0)) by (f_equal; apply Rabs_R0). apply (is_lim_seq_abs u 0 Lu).
Qed.
Lemma ellPi_between n m : 0 <= n < 1 -> m < 1 -> ellK m <= ellPi n (PI / 2) m <= ellK m / (1 - n).
Proof.
  intros Hn Hm. pose proof PI_RGT_0 as PI0. rewrite (ellK_Pi m Hm), !ellPi_prim. unfold prim.
  assert (I : forall k, k < 1 -> ex_RInt (hP k m) 0 (PI / 2)).
  { intros k Hk. apply (ex_RInt_continuous (V := R_CompleteNormedModule)). intros; now apply hP_cont. }
  assert (P : forall y, hP 0 m y <= hP n m y <= hP 0 m y * / (1 - n)).
  { intros y. unfold hP. assert (S0 : 0 < sqrt (dl m y)) by now apply sqrt_lt_R0, dl_pos.
    assert (S2 : 0 <= sin y ^2 <= 1). { split; [apply pow2_ge_0|]. pose proof (sin2_cos2 y). unfold Rsqr in *. pose proof (pow2_ge_0 (cos y)). simpl in *. lra. }
    assert (D1 : dl 0 y = 1) by (unfold dl; ring). assert (D2 : 1 - n <= dl n y <= 1) by (unfold dl; split; nra).
    rewrite D1, Rmult_1_l. split.
    - apply Rinv_le_contravar; [apply Rmult_lt_0_compat; lra|]. rewrite <- (Rmult_1_l (sqrt (dl m y))) at 2. apply Rmult_le_compat_r; lra.
    - rewrite <- Rinv_mult. apply Rinv_le_contravar; [apply Rmult_lt_0_compat; lra|]. rewrite Rmult_comm. apply Rmult_le_compat_r; lra. }
  split.
  - apply RInt_le; [lra | apply I; lra | apply I; lra | intros; apply P].
  - assert (V : RInt (hP 0 m) 0 (PI / 2) / (1 - n) = RInt (fun y => hP 0 m y * / (1 - n)) 0 (PI / 2)).
    { symmetry. apply is_RInt_unique. apply (is_RInt_ext (V := R_NormedModule) (fun y => scal (/ (1 - n)) (hP 0 m y))); [intros; unfold scal; cbn; unfold mult; cbn; ring|].
      replace (RInt (hP 0 m) 0 (PI / 2) / (1 - n)) with (scal (/ (1 - n)) (RInt (hP 0 m) 0 (PI / 2))) by (unfold scal; cbn; unfold mult; cbn; unfold Rdiv; ring).
      apply (is_RInt_scal (V := R_NormedModule)). apply (RInt_correct (V := R_CompleteNormedModule)), I; lra. }
    rewrite V. apply RInt_le; [lra | apply I; lra | | intros; apply P].
    apply (ex_RInt_ext (V := R_NormedModule) (fun y => scal (/ (1 - n)) (hP 0 m y))); [intros; unfold scal; cbn; unfold mult; cbn; ring|]. apply (ex_RInt_scal (V := R_NormedModule)), I; lra.
Qed.
(** the averaged 1/(r - r+) stays bounded although it is computed as a quotient of two small numbers *)
Lemma horizon_average r1 r2 r3 b m : b < r3 -> r3 < r2 -> r2 <= r1 -> m < 1 ->
  0 <= (ellK m - (r2 - r3) / (r2 - b) * ellPi (hb r1 r2 r3 b) (PI / 2) m) / (r3 - b) <= ellK m / (r2 - b).
Proof.
  intros B R3 R2 Hm. pose proof (ellK_pos m Hm) as KP.
  assert (H1 : 1 - hb r1 r2 r3 b = (r2 - r3) * (r1 - b) / ((r1 - r3) * (r2 - b))) by (unfold hb; field; split; lra).
  assert (H2 : 0 < 1 - hb r1 r2 r3 b). { rewrite H1. apply Rdiv_lt_0_compat; apply Rmult_lt_0_compat; lra. }
  assert (H0 : 0 <= hb r1 r2 r3 b). { unfold hb. apply Rmult_le_pos; [apply Rmult_le_pos; lra | apply Rlt_le, Rinv_0_lt_compat, Rmult_lt_0_compat; lra]. }
  destruct (ellPi_between (hb r1 r2 r3 b) m ltac:(lra) Hm) as (P1 & P2). set (P := ellPi (hb r1 r2 r3 b) (PI / 2) m) in *.
  assert (C0 : 0 < (r2 - r3) / (r2 - b)) by (apply Rdiv_lt_0_compat; lra).
  split.
  - apply Rmult_le_pos; [|apply Rlt_le, Rinv_0_lt_compat; lra].
    assert ((r2 - r3) / (r2 - b) * P <= (r2 - r3) / (r2 - b) * (ellK m / (1 - hb r1 r2 r3 b))) by (apply Rmult_le_compat_l; lra).
    replace ((r2 - r3) / (r2 - b) * (ellK m / (1 - hb r1 r2 r3 b))) with (ellK m * ((r1 - r3) / (r1 - b))) in H by (rewrite H1; field; repeat split; lra).
    assert (ellK m * ((r1 - r3) / (r1 - b)) <= ellK m * 1) by (apply Rmult_le_compat_l; [lra|]; apply Rle_div_l; lra). lra.
  - apply Rle_div_l; [lra|].
    assert ((r2 - r3) / (r2 - b) * ellK m <= (r2 - r3) / (r2 - b) * P) by (apply Rmult_le_compat_l; lra).
    replace (ellK m / (r2 - b) * (r3 - b)) with (ellK m - (r2 - r3) / (r2 - b) * ellK m) by (field; lra). lra.
Qed.
Section Averages.
(** the averages without the term that becomes 0/0 *)
Definition Gt0 (a E L r1 r2 r3 r4 : R) : R :=
  (E / 2 * ((r3 * (r1 + r2 + r3) - r1 * r2) * ellK (kr2 r1 r2 r3 r4) + (r2 - r3) * (r1 + r2 + r3 + r4) * ellPi (hr r1 r2 r3) (PI / 2) (kr2 r1 r2 r3 r4)
            + (r1 - r3) * (r2 - r4) * ellE (PI / 2) (kr2 r1 r2 r3 r4))
   + 2 * E * (r3 * ellK (kr2 r1 r2 r3 r4) + (r2 - r3) * ellPi (hr r1 r2 r3) (PI / 2) (kr2 r1 r2 r3 r4))
   + 2 / (rp a - rm a) * (0 - Ap a E L (rm a) / (r3 - rm a) * (ellK (kr2 r1 r2 r3 r4) - (r2 - r3) / (r2 - rm a) * ellPi (hb r1 r2 r3 (rm a)) (PI / 2) (kr2 r1 r2 r3 r4)))) / ellK (kr2 r1 r2 r3 r4).
Definition Gph0 (a E L r1 r2 r3 r4 : R) : R :=
  a / (rp a - rm a) * (0 - Bp a E L (rm a) / (r3 - rm a) * (ellK (kr2 r1 r2 r3 r4) - (r2 - r3) / (r2 - rm a) * ellPi (hb r1 r2 r3 (rm a)) (PI / 2) (kr2 r1 r2 r3 r4))) / ellK (kr2 r1 r2 r3 r4).
Context (an En Ln r1n r2n r3n r4n : nat -> R) (a E L r1 r2 r3 r4 : R).
Context (La : is_lim_seq an a) (LE : is_lim_seq En E) (LL : is_lim_seq Ln L).
Context (L1 : is_lim_seq r1n r1) (L2 : is_lim_seq r2n r2) (L3 : is_lim_seq r3n r3) (L4 : is_lim_seq r4n r4).
Context (Ha : 0 <= a < 1) (Hs : 0 < sr2 (1 - E^2) r1 r2 r3 r4) (Hm : 0 <= kr2 r1 r2 r3 r4 < 1) (Ho : 0 < (r1 - r3) * (r2 - r3)).
Context (Hp2 : 0 < (r1 - rp a) * (r2 - rp a)) (Hm2 : 0 < (r1 - rm a) * (r2 - rm a)) (Hm3 : r3 - rm a <> 0).
Context (HX0 : 2 * E * rp a - a * L = 0) (Han : forall n, 0 <= an n < 1) (Hn : forall n, rp (an n) < r3n n /\ r3n n < r2n n /\ r2n n <= r1n n /\ kr2 (r1n n) (r2n n) (r3n n) (r4n n) < 1).
Local Notation lim_rp := (lim_rp an a La).
Local Notation lim_rm := (lim_rm an a La).
Lemma lim_radial_terms0 :
  is_lim_seq (fun n => Gt (an n) (En n) (Ln n) (r1n n) (r2n n) (r3n n) (r4n n)) (Gt0 a E L r1 r2 r3 r4) /\
  is_lim_seq (fun n => Gph (an n) (En n) (Ln n) (r1n n) (r2n n) (r3n n) (r4n n)) (Gph0 a E L r1 r2 r3 r4) /\
  is_lim_seq (fun n => PI * sqrt (sr2 (1 - En n ^2) (r1n n) (r2n n) (r3n n) (r4n n)) / (2 * ellK (kr2 (r1n n) (r2n n) (r3n n) (r4n n))))
    (PI * sqrt (sr2 (1 - E^2) r1 r2 r3 r4) / (2 * ellK (kr2 r1 r2 r3 r4))).
Proof.
  pose proof lim_rp as Lp. pose proof lim_rm as Lm.
  assert (Lk : is_lim_seq (fun n => kr2 (r1n n) (r2n n) (r3n n) (r4n n)) (kr2 r1 r2 r3 r4)) by (eapply lim_kr2; eassumption).
  assert (Ls : is_lim_seq (fun n => sr2 (1 - En n ^2) (r1n n) (r2n n) (r3n n) (r4n n)) (sr2 (1 - E^2) r1 r2 r3 r4)) by (eapply lim_sr2; eassumption).
  assert (Lh : is_lim_seq (fun n => hr (r1n n) (r2n n) (r3n n)) (hr r1 r2 r3)) by (eapply lim_hr; eassumption).
  assert (Lhm : is_lim_seq (fun n => hb (r1n n) (r2n n) (r3n n) (rm (an n))) (hb r1 r2 r3 (rm a))) by (eapply lim_hb; eassumption).
  pose proof (lim_ellK _ _ Lk (proj2 Hm)) as LK. pose proof (lim_ellE _ _ Lk (proj2 Hm)) as LEc.
  pose proof (lim_ellPi _ _ _ _ Lh Lk (hr_lt1 _ _ _ _ _ Hs Ho) (proj2 Hm)) as LPr.
  pose proof (lim_ellPi _ _ _ _ Lhm Lk (hb_lt1 _ _ _ _ _ Hs Ho _ Hm2) (proj2 Hm)) as LPm.
  destruct (hb_nz _ _ _ Hp2) as (B2 & _). destruct (hb_nz _ _ _ Hm2) as (C2 & _).
  destruct (rpm a Ha) as (RS & RS2 & RS3 & NR). pose proof (ellK_pos _ (proj2 Hm)) as KP. assert (NK : ellK (kr2 r1 r2 r3 r4) <> 0) by lra. assert (NK2 : 2 * ellK (kr2 r1 r2 r3 r4) <> 0) by lra.
  set (T := fun n => (ellK (kr2 (r1n n) (r2n n) (r3n n) (r4n n)) - (r2n n - r3n n) / (r2n n - rp (an n)) * ellPi (hb (r1n n) (r2n n) (r3n n) (rp (an n))) (PI / 2) (kr2 (r1n n) (r2n n) (r3n n) (r4n n))) / (r3n n - rp (an n))).
  assert (BT : forall n, 0 <= T n <= ellK (kr2 (r1n n) (r2n n) (r3n n) (r4n n)) / (r2n n - rp (an n))).
  { intros n. destruct (Hn n) as (N1 & N2 & N3 & N4). exact (horizon_average _ _ _ _ _ N1 N2 N3 N4). }
  assert (LW : is_lim_seq (fun n => ellK (kr2 (r1n n) (r2n n) (r3n n) (r4n n)) / (r2n n - rp (an n))) (ellK (kr2 r1 r2 r3 r4) / (r2 - rp a))) by limd.
  assert (AB : forall a E L, 0 <= a < 1 -> Ap a E L (rp a) = rp a * (2 * E * rp a - a * L)).
  { clear. intros a E L Ha. destruct (rpm a Ha) as (_ & S & P & _). assert (R2 : rp a * rp a = 2 * rp a - a^2) by (replace (rm a) with (2 - rp a) in P by lra; lra).
    unfold Ap. replace (rp a * (2 * E * rp a - a * L)) with (2 * E * (rp a * rp a) - a * L * rp a) by ring. rewrite R2. ring. }
  assert (LB : is_lim_seq (fun n => Bp (an n) (En n) (Ln n) (rp (an n))) 0). { rewrite <- HX0. unfold Bp. limd. }
  assert (LA : is_lim_seq (fun n => Ap (an n) (En n) (Ln n) (rp (an n))) 0).
  { apply (is_lim_seq_ext (fun n => rp (an n) * Bp (an n) (En n) (Ln n) (rp (an n)))); [intros n; rewrite AB by apply Han; reflexivity|].
    replace 0 with (rp a * 0) by ring. limd. }
  pose proof (lim_small _ _ _ _ LB LW BT) as TB. pose proof (lim_small _ _ _ _ LA LW BT) as TA.
  assert (NT : forall n, r3n n - rp (an n) <> 0) by (intros n; destruct (Hn n); lra).
  split; [|split].
  - apply (is_lim_seq_ext (fun n => (En n / 2 * ((r3n n * (r1n n + r2n n + r3n n) - r1n n * r2n n) * ellK (kr2 (r1n n) (r2n n) (r3n n) (r4n n)) + (r2n n - r3n n) * (r1n n + r2n n + r3n n + r4n n) * ellPi (hr (r1n n) (r2n n) (r3n n)) (PI / 2) (kr2 (r1n n) (r2n n) (r3n n) (r4n n))
            + (r1n n - r3n n) * (r2n n - r4n n) * ellE (PI / 2) (kr2 (r1n n) (r2n n) (r3n n) (r4n n)))
     + 2 * En n * (r3n n * ellK (kr2 (r1n n) (r2n n) (r3n n) (r4n n)) + (r2n n - r3n n) * ellPi (hr (r1n n) (r2n n) (r3n n)) (PI / 2) (kr2 (r1n n) (r2n n) (r3n n) (r4n n)))
     + 2 / (rp (an n) - rm (an n)) * (Ap (an n) (En n) (Ln n) (rp (an n)) * T n - Ap (an n) (En n) (Ln n) (rm (an n)) / (r3n n - rm (an n)) * (ellK (kr2 (r1n n) (r2n n) (r3n n) (r4n n)) - (r2n n - r3n n) / (r2n n - rm (an n)) * ellPi (hb (r1n n) (r2n n) (r3n n) (rm (an n))) (PI / 2) (kr2 (r1n n) (r2n n) (r3n n) (r4n n))))) / ellK (kr2 (r1n n) (r2n n) (r3n n) (r4n n)))).
    { intros n. unfold Gt, T. do 4 f_equal. unfold Rdiv. ring. }
    unfold Gt0. assert (LAm : is_lim_seq (fun n => Ap (an n) (En n) (Ln n) (rm (an n))) (Ap a E L (rm a))) by (unfold Ap; limd). clearbody T. limd; lra.
  - apply (is_lim_seq_ext (fun n => an n / (rp (an n) - rm (an n)) * (Bp (an n) (En n) (Ln n) (rp (an n)) * T n - Bp (an n) (En n) (Ln n) (rm (an n)) / (r3n n - rm (an n)) * (ellK (kr2 (r1n n) (r2n n) (r3n n) (r4n n)) - (r2n n - r3n n) / (r2n n - rm (an n)) * ellPi (hb (r1n n) (r2n n) (r3n n) (rm (an n))) (PI / 2) (kr2 (r1n n) (r2n n) (r3n n) (r4n n)))) / ellK (kr2 (r1n n) (r2n n) (r3n n) (r4n n)))).
    { intros n. unfold Gph, T. do 3 f_equal. unfold Rdiv. ring. }
    unfold Gph0. assert (LBm : is_lim_seq (fun n => Bp (an n) (En n) (Ln n) (rm (an n))) (Bp a E L (rm a))) by (unfold Bp; limd). clearbody T. limd; lra.
  - limd.
Qed.
End Averages.

Section Main.
Context {X : External R} (HX : special_spec X) (HR : root_spec X).
Lemma removable_pos (a p e x E L Q : R) : 0 <= a -> e < 1 -> x <> 0 ->
  constants_of_motion (Some a) (Some p) (Some e) (Some x) = Ret (Some E, Some L, Some Q) -> 2 * E * rp a = a * L ->
  exists ur uth uph g : R, 0 < ur /\ 0 < uth /\
  forall (an pn en xn urn uthn uphn gn : nat -> R),
  is_lim_seq an a -> is_lim_seq pn p -> is_lim_seq en e -> is_lim_seq xn x -> (forall n, 0 <= an n) ->
  (forall n, mino_frequencies (Some (an n)) (Some (pn n)) (Some (en n)) (Some (xn n)) = Ret (Some (urn n), Some (uthn n), Some (uphn n), Some (gn n))) ->
  is_lim_seq urn ur /\ is_lim_seq uthn uth /\ is_lim_seq uphn uph /\ is_lim_seq gn g.
Proof.
  intros Pa He1 Hx0 HC HE0. pose proof PI_RGT_0 as PI0.
  destruct (constants_inv _ _ _ _ _ _ _ Pa HC) as [HCK _].
  destruct (accepted_bounds HR a p e x Pa HCK) as (Ha & He & Hx & Hr2 & _ & _ & _).
  destruct (C23_bound_orbits HR a p e x E L Q HC He1) as (HE & HQ & _).
  pose proof (orbit_roots HR a p e x E L Q Pa He1 HC) as RO. cbv zeta in RO.
  set (s := 2 / (1 - E^2) - p / (1 - e) - p / (1 + e)) in *. set (m := a^2 * Q / (p / (1 - e) * (p / (1 + e)) * (1 - E^2))) in *.
  set (r1 := p / (1 - e)) in *. set (r2 := p / (1 + e)) in *. set (r3 := (s + sqrt (s^2 - 4 * m)) / 2) in *. set (r4 := (s - sqrt (s^2 - 4 * m)) / 2) in *.
  destruct RO as (_ & (R40 & R4) & (R3 & R32) & R21 & _ & _). fold (rm a) in R4. fold (rp a) in R3.
  destruct (rp_rm_bounds a Ha) as (_ & Hrm & _). destruct (rpm a Ha) as (RS & RS2 & RS3 & NR).
  assert (NE : 1 - E^2 <> 0) by nra. assert (GE0 : 0 < 1 - E^2) by nra.
  assert (RR : rm a < rp a). { pose proof (sqrt_pos (1 - a^2)). unfold rp, rm in *. lra. }
  assert (Hs : 0 < sr2 (1 - E^2) r1 r2 r3 r4). { unfold sr2. apply Rmult_lt_0_compat; [apply Rmult_lt_0_compat|]; lra. }
  assert (DK : 0 < (r1 - r3) * (r2 - r4)) by (apply Rmult_lt_0_compat; lra).
  assert (Hm : 0 <= kr2 r1 r2 r3 r4 < 1).
  { unfold kr2. split; [apply Rmult_le_pos; [apply Rmult_le_pos; lra | apply Rlt_le, Rinv_0_lt_compat; exact DK]|].
    apply Rlt_div_l; [exact DK|]. assert (0 < (r1 - r4) * (r2 - r3)) by (apply Rmult_lt_0_compat; lra). lra. }
  assert (Ho : 0 < (r1 - r3) * (r2 - r3)) by (apply Rmult_lt_0_compat; lra).
  assert (Hp2 : 0 < (r1 - rp a) * (r2 - rp a)) by (apply Rmult_lt_0_compat; lra).
  assert (Hm2 : 0 < (r1 - rm a) * (r2 - rm a)) by (apply Rmult_lt_0_compat; lra).
  assert (Hm3 : r3 - rm a <> 0) by lra.
  assert (SG : spin_sign a = 1) by (unfold spin_sign; destruct (Rlt_dec a 0); lra).
  destruct (C14_polar_turning_point HR a p e x E L Q HC) as (_ & X1 & X2 & _). rewrite SG, Rmult_1_r in X1, X2.
  assert (HL : L <> 0). { destruct (Rtotal_order x 0) as [K|[K|K]]; [specialize (X2 K); lra | lra | specialize (X1 K); lra]. }
  set (b := (a^2 * (1 - E^2) * (1 - (1 - x^2)) + L^2) / (1 - (1 - x^2))).
  assert (X2' : 0 < x^2) by now apply pow2_gt_0. assert (x1 : x^2 <= 1) by nra.
  assert (BB : b = a^2 * (1 - E^2) + L^2 / x^2) by (unfold b; field; lra).
  assert (L2 : 0 < L^2 / x^2) by (apply Rdiv_lt_0_compat; [now apply pow2_gt_0 | exact X2']).
  assert (A2 : 0 <= a^2 * (1 - E^2)) by (apply Rmult_le_pos; [apply pow2_ge_0 | lra]).
  assert (Hb : 0 < b) by lra. assert (Nb : b <> 0) by lra.
  assert (Hk : 0 <= kt2 (a^2 * (1 - E^2)) (1 - x^2) b < 1).
  { unfold kt2. split; [apply Rmult_le_pos; [apply Rmult_le_pos; lra | apply Rlt_le, Rinv_0_lt_compat; exact Hb]|].
    apply Rlt_div_l; [exact Hb|]. nra. }
  pose proof (ellK_pos _ (proj2 Hk)) as KP. assert (NK : ellK (kt2 (a^2 * (1 - E^2)) (1 - x^2) b) <> 0) by lra. assert (NK2 : 2 * ellK (kt2 (a^2 * (1 - E^2)) (1 - x^2) b) <> 0) by lra.
  pose proof (ellK_pos _ (proj2 Hm)) as KPr.
  exists (PI * sqrt (sr2 (1 - E^2) r1 r2 r3 r4) / (2 * ellK (kr2 r1 r2 r3 r4))), (PI * sqrt b / (2 * ellK (kt2 (a^2 * (1 - E^2)) (1 - x^2) b))),
    (L * ellPi (1 - x^2) (PI / 2) (kt2 (a^2 * (1 - E^2)) (1 - x^2) b) / ellK (kt2 (a^2 * (1 - E^2)) (1 - x^2) b) + Gph0 a E L r1 r2 r3 r4),
    (4 * E + E * (b / (1 - E^2)) * (1 - ellE (PI / 2) (kt2 (a^2 * (1 - E^2)) (1 - x^2) b) / ellK (kt2 (a^2 * (1 - E^2)) (1 - x^2) b)) + Gt0 a E L r1 r2 r3 r4).
  refine (conj _ (conj _ _)).
  { apply Rdiv_lt_0_compat; [apply Rmult_lt_0_compat; [lra | now apply sqrt_lt_R0] | lra]. }
  { apply Rdiv_lt_0_compat; [apply Rmult_lt_0_compat; [lra | now apply sqrt_lt_R0] | lra]. }
  intros an pn en xn urn uthn uphn gn La Lp Le Lx Pn Hn.
  set (cn := fun n => constants_of_motion (Some (an n)) (Some (pn n)) (Some (en n)) (Some (xn n))).
  set (get := fun (f : R -> R -> R -> R) n => match cn n with Ret (Some E, Some L, Some Q) => f E L Q | _ => 0 end).
  set (En := get (fun E _ _ => E)). set (Ln := get (fun _ L _ => L)). set (Qn := get (fun _ _ Q => Q)).
  set (r1n := fun n => pn n / (1 - en n)). set (r2n := fun n => pn n / (1 + en n)).
  set (sn := fun n => 2 / (1 - En n ^2) - pn n / (1 - en n) - pn n / (1 + en n)).
  set (dn := fun n => sqrt (sn n ^2 - 4 * (an n ^2 * Qn n / (pn n / (1 - en n) * (pn n / (1 + en n)) * (1 - En n ^2))))).
  set (r3n := fun n => (sn n + dn n) / 2). set (r4n := fun n => (sn n - dn n) / 2).
  set (bn := fun n => (an n ^2 * (1 - En n ^2) * (1 - (1 - xn n ^2)) + Ln n ^2) / (1 - (1 - xn n ^2))).
  assert (CF : forall n, exists zp a2s, orbit_facts (an n) (pn n) (en n) (xn n) (urn n) (uthn n) (uphn n) (gn n) (En n) (Ln n) (Qn n) (r1n n) (r2n n) (r3n n) (r4n n) zp (bn n) a2s).
  { intros n. destruct (mino_facts HX HR _ _ _ _ _ _ _ _ (Pn n) (Hn n)) as (E' & L' & Q' & r1' & r2' & r3' & r4' & zp & b' & a2s & F).
    destruct (roots_formula HR _ _ _ _ _ _ _ _ _ _ _ _ _ _ _ _ _ _ F) as (F3 & F4 & _). pose proof (of_r1 _ _ _ _ _ _ _ _ _ _ _ _ _ _ _ _ _ _ F) as F1. pose proof (of_r2 _ _ _ _ _ _ _ _ _ _ _ _ _ _ _ _ _ _ F) as F2.
    pose proof (of_beta _ _ _ _ _ _ _ _ _ _ _ _ _ _ _ _ _ _ F) as FB.
    assert (GE : En n = E' /\ Ln n = L' /\ Qn n = Q'). { unfold En, Ln, Qn, get, cn. rewrite (of_constants _ _ _ _ _ _ _ _ _ _ _ _ _ _ _ _ _ _ F). auto. }
    destruct GE as (GE & GL & GQ). exists zp, a2s. unfold r3n, r4n, dn, sn, bn, r1n, r2n. rewrite GE, GL, GQ, <- F3, <- F4, <- F1, <- F2, <- FB. exact F. }
  assert (CN : forall n, constants_of_motion (Some (an n)) (Some (pn n)) (Some (en n)) (Some (xn n)) = Ret (Some (En n), Some (Ln n), Some (Qn n))) by (intros n; destruct (CF n) as (? & ? & G); apply G).
  destruct (C84_constants_continuous HR an pn en xn En Ln Qn a p e x E L Q La Lp Le Lx CN HC) as (LE & LQ & LL & _). specialize (LL (or_intror Pn)).
  assert (N1 : 1 - e <> 0) by lra. assert (N2 : 1 + e <> 0) by lra. assert (N3 : 2 <> 0) by lra.
  assert (N4 : r1 * r2 * (1 - E^2) <> 0) by (apply nz_mult; [apply nz_mult; lra | exact NE]).
  assert (N5 : 1 - (1 - x^2) <> 0) by lra.
  assert (L1 : is_lim_seq r1n r1) by (unfold r1n, r1; limd). assert (L2' : is_lim_seq r2n r2) by (unfold r2n, r2; limd).
  assert (Lsn : is_lim_seq sn s) by (unfold sn, s; limd).
  assert (Lmn : is_lim_seq (fun n => an n ^2 * Qn n / (pn n / (1 - en n) * (pn n / (1 + en n)) * (1 - En n ^2))) m).
  { unfold m. change (fun n => an n ^2 * Qn n / (pn n / (1 - en n) * (pn n / (1 + en n)) * (1 - En n ^2))) with (fun n => an n ^2 * Qn n / (r1n n * r2n n * (1 - En n ^2))). clearbody r1n r2n. limd. }
  assert (Ldn : is_lim_seq dn (sqrt (s^2 - 4 * m))). { unfold dn. clearbody sn. set (mn := fun n => an n ^2 * Qn n / (pn n / (1 - en n) * (pn n / (1 + en n)) * (1 - En n ^2))) in *.
    change (is_lim_seq (fun n => sqrt (sn n ^2 - 4 * mn n)) (sqrt (s^2 - 4 * m))). clearbody mn. limd. }
  assert (L3 : is_lim_seq r3n r3) by (unfold r3n, r3; limd). assert (L4 : is_lim_seq r4n r4) by (unfold r4n, r4; limd).
  assert (Lb : is_lim_seq bn b) by (unfold bn, b; limd).
  assert (ON : forall n, rp (an n) < r3n n /\ r3n n < r2n n /\ r2n n <= r1n n /\ kr2 (r1n n) (r2n n) (r3n n) (r4n n) < 1).
  { intros n. destruct (CF n) as (? & ? & G).
    pose proof (orbit_roots HR _ _ _ _ _ _ _ (Pn n) (proj2 (of_e _ _ _ _ _ _ _ _ _ _ _ _ _ _ _ _ _ _ G)) (CN n)) as RO. cbv zeta in RO.
    fold (sn n) in RO. fold (dn n) in RO. fold (r3n n) in RO. fold (r4n n) in RO. fold (r1n n) (r2n n) in RO. fold (rp (an n)) in RO.
    destruct RO as (_ & _ & (O3 & O32) & O21 & _). pose proof (of_p3 _ _ _ _ _ _ _ _ _ _ _ _ _ _ _ _ _ _ G) as NP.
    refine (conj _ (conj O32 (conj O21 (proj2 (of_kr _ _ _ _ _ _ _ _ _ _ _ _ _ _ _ _ _ _ G))))). destruct O3 as [O3|O3]; [exact O3|]. exfalso. apply NP. rewrite <- O3. ring. }
  assert (AN : forall n, 0 <= an n < 1). { intros n. destruct (CF n) as (? & ? & G). apply G. }
  clearbody r3 r4 r1n r2n r3n r4n.
  destruct (lim_radial_terms0 an En Ln r1n r2n r3n r4n a E L r1 r2 r3 r4 La LE LL L1 L2' L3 L4 Ha Hs Hm Ho Hp2 Hm2 Hm3 ltac:(lra) AN ON) as (T1 & T2 & T3).
  clearbody r1 r2 b bn.
  assert (Lk : is_lim_seq (fun n => kt2 (an n ^2 * (1 - En n ^2)) (1 - xn n ^2) (bn n)) (kt2 (a^2 * (1 - E^2)) (1 - x^2) b)) by (unfold kt2; limd).
  assert (Lz : is_lim_seq (fun n => 1 - xn n ^2) (1 - x^2)) by lim.
  pose proof (lim_ellK _ _ Lk (proj2 Hk)) as LK. pose proof (lim_ellE _ _ Lk (proj2 Hk)) as LEc.
  pose proof (lim_ellPi _ _ _ _ Lz Lk ltac:(lra) (proj2 Hk)) as LP.
  (* the averaged polar term does not see the special case *)
  assert (GT : forall a E L x b a2s, 1 - E^2 <> 0 -> L <> 0 -> 0 < b -> a2s * sqrt b / Rabs L * kt2 (a^2 * (1 - E^2)) (1 - x^2) b = a^2 * (1 - x^2) ->
    Gth a E L (1 - x^2) b a2s = E * (b / (1 - E^2)) * (1 - ellE (PI / 2) (kt2 (a^2 * (1 - E^2)) (1 - x^2) b) / ellK (kt2 (a^2 * (1 - E^2)) (1 - x^2) b))).
  { clear. intros a E L x b a2s NE NL Hb HA. unfold Gth. set (m := kt2 (a^2 * (1 - E^2)) (1 - x^2) b) in *.
    destruct (Req_dec m 0) as [Z|Z].
    - rewrite Z. assert (EK : ellE (PI / 2) 0 = ellK 0). { unfold ellK, ellE, ellF. apply RInt_ext. intros t _. rewrite Rmult_0_l, Rminus_0_r, sqrt_1. symmetry. exact Rinv_1. }
      rewrite EK. pose proof (ellK_pos 0 ltac:(lra)). unfold Rdiv. rewrite Rinv_r by lra. ring.
    - assert (K : a2s * sqrt b / Rabs L = b / (1 - E^2)).
      { apply (Rmult_eq_reg_r m); [|exact Z]. rewrite HA. unfold m, kt2. field. split; [lra | exact NE]. }
      replace (a2s * E * sqrt b / Rabs L) with (E * (a2s * sqrt b / Rabs L)) by (unfold Rdiv; ring). rewrite K. reflexivity. }
  refine (conj _ (conj _ (conj _ _))).
  - apply (is_lim_seq_ext (fun n => PI * sqrt (sr2 (1 - En n ^2) (r1n n) (r2n n) (r3n n) (r4n n)) / (2 * ellK (kr2 (r1n n) (r2n n) (r3n n) (r4n n))))); [intros n; destruct (CF n) as (? & ? & G); symmetry; apply G|]. exact T3.
  - apply (is_lim_seq_ext (fun n => PI * sqrt (bn n) / (2 * ellK (kt2 (an n ^2 * (1 - En n ^2)) (1 - xn n ^2) (bn n))))); [intros n; destruct (CF n) as (? & ? & G); symmetry; apply G|]. limd.
  - apply (is_lim_seq_ext (fun n => Ln n * ellPi (1 - xn n ^2) (PI / 2) (kt2 (an n ^2 * (1 - En n ^2)) (1 - xn n ^2) (bn n)) / ellK (kt2 (an n ^2 * (1 - En n ^2)) (1 - xn n ^2) (bn n)) + Gph (an n) (En n) (Ln n) (r1n n) (r2n n) (r3n n) (r4n n))); [intros n; destruct (CF n) as (? & ? & G); symmetry; apply G|]. limd.
  - apply (is_lim_seq_ext (fun n => 4 * En n + En n * (bn n / (1 - En n ^2)) * (1 - ellE (PI / 2) (kt2 (an n ^2 * (1 - En n ^2)) (1 - xn n ^2) (bn n)) / ellK (kt2 (an n ^2 * (1 - En n ^2)) (1 - xn n ^2) (bn n))) + Gt (an n) (En n) (Ln n) (r1n n) (r2n n) (r3n n) (r4n n))).
    + intros n. destruct (CF n) as (zpn & a2 & G). rewrite (of_gam _ _ _ _ _ _ _ _ _ _ _ _ _ _ _ _ _ _ G). rewrite (GT (an n) (En n) (Ln n) (xn n) (bn n) a2); [reflexivity | apply G..].
    + limd.
Qed.

(** ** C97: the frequencies extend continuously to every orbit with finite constants, including
    the isolated ones (2 E r+ = a L) on which the code divides 0 by 0 *)
Theorem C97_frequencies_extend (a p e x E L Q : R) : e < 1 -> x <> 0 ->
  constants_of_motion (Some a) (Some p) (Some e) (Some x) = Ret (Some E, Some L, Some Q) ->
  exists ur uth uph g : R, 0 < ur /\ 0 < uth /\
  (2 * E * (1 + sqrt (1 - a^2)) <> Rabs a * L ->
   mino_frequencies (Some a) (Some p) (Some e) (Some x) = Ret (Some ur, Some uth, Some uph, Some g)) /\
  forall (an pn en xn urn uthn uphn gn : nat -> R),
  is_lim_seq an a -> is_lim_seq pn p -> is_lim_seq en e -> is_lim_seq xn x -> a <> 0 \/ (forall n, 0 <= an n) ->
  (forall n, mino_frequencies (Some (an n)) (Some (pn n)) (Some (en n)) (Some (xn n)) = Ret (Some (urn n), Some (uthn n), Some (uphn n), Some (gn n))) ->
  is_lim_seq urn ur /\ is_lim_seq uthn uth /\ is_lim_seq uphn uph /\ is_lim_seq gn g.
Proof.
  intros He Hx HC. destruct (Req_dec (2 * E * (1 + sqrt (1 - a^2))) (Rabs a * L)) as [Z|N].
  - assert (Hy : x * spin_sign a <> 0). { destruct (spin_sign_cases a) as [-> | ->]; lra. }
    pose proof HC as HC'. rewrite constants_std in HC'.
    destruct (removable_pos (Rabs a) p e (x * spin_sign a) E L Q (Rabs_pos a) He Hy HC') as (ur & uth & uph & g & U1 & U2 & K).
    { unfold rp. rewrite pow2_abs. exact Z. }
    exists ur, uth, uph, g. refine (conj U1 (conj U2 (conj _ _))); [intros N; contradiction|].
    intros an pn en xn urn uthn uphn gn La Lp Le Lx S Hn.
    apply (K (fun n => Rabs (an n)) pn en (fun n => xn n * spin_sign (an n))); [|exact Lp|exact Le| | |].
    + apply (is_lim_seq_abs an a La).
    + apply (is_lim_seq_ext_loc (fun n => xn n * spin_sign a)); [|lim]. destruct S as [S|S].
      * destruct (eventually_close an a (Rabs a) La (Rabs_pos_lt a S)) as [n0 K']. exists n0. intros n Hnn. specialize (K' n Hnn). cbv beta in K' |- *. f_equal.
        unfold spin_sign. apply Rabs_def2 in K'. destruct (Rlt_dec a 0), (Rlt_dec (an n) 0); try reflexivity; [rewrite Rabs_left in K' by lra; lra | rewrite Rabs_pos_eq in K' by lra; lra].
      * exists 0%nat. intros n _. cbv beta. f_equal. unfold spin_sign. pose proof (is_lim_seq_le (fun _ => 0) an 0 a S (is_lim_seq_const 0) La) as K'. cbn in K'. specialize (S n).
        destruct (Rlt_dec a 0), (Rlt_dec (an n) 0); lra.
    + intros n. apply Rabs_pos.
    + intros n. rewrite <- mino_std. apply Hn.
  - destruct (proj2 (C53_frequencies_exactly HX HR a p e x E L Q He Hx HC) N) as (ur & uth & uph & g & HF).
    destruct (C65_fundamental_frequencies HX HR _ _ _ _ _ _ _ _ HF) as (G & _ & U1 & U2 & _).
    exists ur, uth, uph, g.
    assert (P1 : 0 < ur) by (replace ur with (ur / g * g) by (field; lra); apply Rmult_lt_0_compat; assumption).
    assert (P2 : 0 < uth) by (replace uth with (uth / g * g) by (field; lra); apply Rmult_lt_0_compat; assumption).
    refine (conj P1 (conj P2 (conj (fun _ => HF) _))).
    intros an pn en xn urn uthn uphn gn La Lp Le Lx S Hn.
    exact (C86_frequencies_continuous HX HR an pn en xn urn uthn uphn gn a p e x ur uth uph g La Lp Le Lx S Hn HF).
Qed.

(** the orbit without finite frequencies of C53 is the limit of orbits with finite frequencies *)
Lemma beyond_removable p : 65/9 < p -> exists ur uth uph g,
  mino_frequencies (Some (sqrt 65 / 9)) (Some p) (Some 0) (Some 1) = Ret (Some ur, Some uth, Some uph, Some g).
Proof.
  intros Hp. set (a := sqrt 65 / 9). assert (S0 : 0 < sqrt 65) by (apply sqrt_lt_R0; lra). assert (S2 : sqrt 65 ^2 = 65) by (apply pow2_sqrt; lra).
  assert (A2 : a^2 = 65/81). { unfold a. replace ((sqrt 65 / 9)^2) with (sqrt 65 ^2 / 81) by field. rewrite S2. reflexivity. }
  assert (A0 : 0 < a) by (unfold a; lra). assert (A1 : a < 1) by nra.
  destruct (C54_every_accepted_orbit HX HR a p 0 1 ltac:(lra) ltac:(lra) ltac:(lra) (accepts_equatorial_6 HR a p ltac:(lra) ltac:(lra))) as (E & L & Q & HC & HE & _ & FR).
  { intros (_ & _ & [(_ & [K|K])|(K & _)]); [| |lra].
    - unfold on_static_limit in K. replace (p / (1 - 0)) with p in K by field. nra.
    - replace (p / (1 - 0)) with p in K by field. replace (p / (1 + 0)) with p in K by field. apply light_ring_equatorial in K; [|lra]. rewrite A2 in K.
      assert (16 < (p - 3)^2) by nra. nra. }
  destruct FR as (ur & uth & uph & g & HF & _); [|now exists ur, uth, uph, g].
  destruct (circ HR a p 1 E L Q (or_introl eq_refl) HC) as (_ & B & C & D & _ & EE & LL). rewrite Rmult_1_l in *.
  assert (SG : spin_sign a = 1) by (unfold spin_sign; destruct (Rlt_dec a 0); lra). rewrite SG in LL. rewrite ?Rmult_1_l in EE, LL, D.
  set (s := sqrt p) in *. set (s0 := 3 * a). assert (Q0 : s0^2 = 65/9) by (unfold s0; nra).
  assert (SS : s0 < s) by (unfold s0 in *; nra).
  replace (sqrt (1 - a^2)) with (4/9). 2: { rewrite A2. replace (1 - 65/81) with ((4/9)^2) by field. rewrite sqrt_pow2; lra. }
  assert (SD : 0 < sqrt (cD a s)) by now apply sqrt_lt_R0.
  intros K. assert (Z : (s - s0) * (- (s0 / 3) * s^3 + 13/27 * s^2 + 13 * s0 / 27 * s - 169/243) = 0).
  { assert (F : 2 * (1 + 4/9) * (s^3 - 2 * s + a) = a * (s^4 - 2 * a * s + a^2)).
    { apply (Rmult_eq_reg_r (s / (s^2 * sqrt (cD a s)))); [|apply Rgt_not_eq, Rdiv_lt_0_compat; [lra | apply Rmult_lt_0_compat; [apply pow_lt; lra | exact SD]]].
      transitivity (2 * E * (1 + 4/9)); [rewrite EE; unfold cE; field; split; lra|]. rewrite K, LL. unfold cL. rewrite ?Rmult_1_l. field. split; lra. }
    assert (AS : a = s0 / 3) by (unfold s0; field). rewrite AS in F.
    transitivity (2 * (1 + 4/9) * (s^3 - 2 * s + s0 / 3) - s0 / 3 * (s^4 - 2 * (s0 / 3) * s + (s0 / 3)^2)); [|lra].
    replace (s0 / 3 * (s^4 - 2 * (s0 / 3) * s + (s0 / 3)^2)) with (s0 / 3 * s^4 - 2 * s0^2 / 9 * s + s0 * s0^2 / 27) by field.
    transitivity (- (s0 / 3) * s^4 + (13/27 + s0^2 / 3) * s^3 + (13 * s0 / 27 - 13 * s0 / 27) * s^2 + (- 169/243 - 13 * s0^2 / 27) * s + 169 * s0 / 243); [field|].
    rewrite Q0. field. }
  apply Rmult_integral in Z as [Z|Z]; [lra|].
  assert (S00 : 0 < s0) by (unfold s0; lra). clear - Z SS S00 Q0. clearbody s s0.
  assert (P0 : s0 * s0 <= s0 * s) by (apply Rmult_le_compat_l; lra).
  assert (P1 : 65/9 * s^2 <= s0 * s^3). { replace (s0 * s^3) with ((s0 * s) * s^2) by ring. apply Rmult_le_compat_r; [apply pow2_ge_0|]. lra. }
  assert (P2 : s0 * s <= s * s) by (apply Rmult_le_compat_r; lra). assert (0 < s^2) by (apply pow_lt; lra). lra.
Qed.
Example C97_case : exists urn uthn uphn gn : nat -> R,
  constants_of_motion (Some (sqrt 65 / 9)) (Some (65/9)) (Some 0) (Some 1) = Ret (Some (25 / sqrt 715), Some (10 / sqrt 11), Some 0) /\
  (~ exists ur uth uph g, mino_frequencies (Some (sqrt 65 / 9)) (Some (65/9)) (Some 0) (Some 1) = Ret (Some ur, Some uth, Some uph, Some g)) /\
  is_lim_seq (fun n => 65/9 + / (INR n + 1)) (65/9) /\
  forall n, mino_frequencies (Some (sqrt 65 / 9)) (Some (65/9 + / (INR n + 1))) (Some 0) (Some 1) = Ret (Some (urn n), Some (uthn n), Some (uphn n), Some (gn n)).
Proof.
  assert (HN : forall n, exists ur uth uph g, mino_frequencies (Some (sqrt 65 / 9)) (Some (65/9 + / (INR n + 1))) (Some 0) (Some 1) = Ret (Some ur, Some uth, Some uph, Some g)).
  { intros n. apply beyond_removable. assert (0 < / (INR n + 1)) by (apply Rinv_0_lt_compat; pose proof (pos_INR n); lra). lra. }
  set (f := fun n => match mino_frequencies (Some (sqrt 65 / 9)) (Some (65/9 + / (INR n + 1))) (Some 0) (Some 1) with Ret (Some u, Some v, Some w, Some y) => (u, v, w, y) | _ => (0, 0, 0, 0) end).
  exists (fun n => fst (fst (fst (f n)))), (fun n => snd (fst (fst (f n)))), (fun n => snd (fst (f n))), (fun n => snd (f n)).
  destruct (C53_refuted X HX HR) as (_ & HC & HN0). refine (conj HC (conj HN0 (conj _ _))).
  - replace (Finite (65/9)) with (Finite (65/9 + 0)) by (f_equal; ring). apply is_lim_seq_plus'; [apply is_lim_seq_const|].
    apply (is_lim_seq_inv _ p_infty); [|discriminate]. apply (is_lim_seq_ext (fun n => INR (S n))); [intros n; apply S_INR|].
    apply -> (is_lim_seq_incr_1 INR). apply is_lim_seq_INR.
  - intros n. unfold f. destruct (HN n) as (u & v & w & y & K). rewrite K. reflexivity.
Qed.
End Main.

(** * Runs of the complex-root plunge functions, and the derivatives of its integrals *)
From Coq Require Import Reals Lra Lia ZArith String List Psatz.
From Coquelicot Require Import Coquelicot.
From Verif Require Import Num Outcome External Checked ExternalSpec Spec SpecElliptic Elliptic
  Model_Units Model_Constants Model_Frequencies Model_Stable Model_Plunge
  Props_Elliptic P_Radial P_Polar P_Traj P_Traj2 P_Plunge.
Import ListNotations.
Open Scope R_scope.

Lemma atan_opp_inv t : t < 0 -> atan (/ t) = - (PI / 2) - atan t.
Proof.
  intros H. replace (/ t) with (- / (- t)) by (field; lra). rewrite atan_opp, atan_inv by lra.
  rewrite atan_opp. ring.
Qed.
(** arctan2 away from the closed negative real axis *)
Lemma Ratan2_pos_y y x : 0 < y -> Ratan2 y x = PI / 2 - atan (x / y).
Proof.
  intros H. unfold Ratan2. destruct (Rlt_dec 0 x) as [K|K]; [|destruct (Rlt_dec x 0) as [K'|K']].
  - replace (y / x) with (/ (x / y)) by (field; lra). rewrite atan_inv; [reflexivity|]. now apply Rdiv_lt_0_compat.
  - destruct (Rle_dec 0 y); [|lra]. replace (y / x) with (/ (x / y)) by (field; lra).
    rewrite atan_opp_inv; [field|]. unfold Rdiv. rewrite <- (Ropp_involutive x).
    pose proof (Rdiv_lt_0_compat (- x) y ltac:(lra) H). unfold Rdiv in *. lra.
  - assert (x = 0) as -> by lra. destruct (Rlt_dec 0 y); [|lra]. unfold Rdiv. rewrite Rmult_0_l, atan_0. ring.
Qed.
Lemma Ratan2_neg_y y x : y < 0 -> Ratan2 y x = - (PI / 2) - atan (x / y).
Proof.
  intros H. unfold Ratan2. destruct (Rlt_dec 0 x) as [K|K]; [|destruct (Rlt_dec x 0) as [K'|K']].
  - replace (y / x) with (/ (x / y)) by (field; lra). rewrite atan_opp_inv; [reflexivity|].
    pose proof (Rdiv_lt_0_compat x (- y) K ltac:(lra)).
    replace (x / y) with (- (x / - y)) by (field; lra). lra.
  - destruct (Rle_dec 0 y); [lra|]. replace (y / x) with (/ (x / y)) by (field; lra).
    rewrite atan_inv; [field|]. replace (x / y) with ((- x) / (- y)) by (field; lra). apply Rdiv_lt_0_compat; lra.
  - assert (x = 0) as -> by lra. destruct (Rlt_dec 0 y); [lra|]. destruct (Rlt_dec y 0); [|lra].
    unfold Rdiv. rewrite Rmult_0_l, atan_0. ring.
Qed.
Lemma derive_continuous (f : R -> R) t d : is_derive f t d -> continuous f t.
Proof. intros D. apply (ex_derive_continuous (V := R_NormedModule)). now exists d. Qed.
Lemma locally_pos (f : R -> R) t d : is_derive f t d -> 0 < f t -> locally t (fun s => 0 < f s).
Proof.
  intros D H. pose proof (derive_continuous _ _ _ D) as C.
  apply (C (fun z => 0 < z)). apply open_gt. exact H.
Qed.
Lemma Ratan2_derive (x y : R -> R) t dx dy : is_derive x t dx -> is_derive y t dy ->
  0 < x t \/ y t <> 0 ->
  is_derive (fun s => Ratan2 (y s) (x s)) t ((x t * dy - y t * dx) / (x t ^ 2 + y t ^ 2)).
Proof.
  intros Dx Dy H.
  assert (Q : 0 < x t ^ 2 + y t ^ 2).
  { destruct H as [H|H]; [assert (0 < x t ^ 2) by (apply pow_lt; lra) | assert (0 < y t ^ 2) by now apply pow2_gt_0];
    pose proof (pow2_ge_0 (x t)); pose proof (pow2_ge_0 (y t)); lra. }
  destruct (Rtotal_order (y t) 0) as [N|[Z|P]].
  - apply (is_derive_ext_loc (fun s => - (PI / 2) - atan (x s / y s))).
    + assert (Dn : is_derive (fun s => - y s) t (- dy)) by (apply (is_derive_opp (V := R_NormedModule)); exact Dy).
      pose proof (locally_pos (fun s => - y s) t _ Dn ltac:(lra)) as L.
      apply (filter_imp (fun s => 0 < - y s)); [|exact L]. intros s Hs. symmetry. apply Ratan2_neg_y. lra.
    + auto_derive.
      * repeat split; [now exists dx | now exists dy | lra].
      * rewrite (is_derive_unique (fun s : R => x s) _ _ Dx), (is_derive_unique (fun s : R => y s) _ _ Dy).
        field. split; [lra|]. simpl in *. lra.
  - destruct H as [H|H]; [|contradiction].
    apply (is_derive_ext_loc (fun s => atan (y s / x s))).
    + apply (filter_imp (fun s => 0 < x s)); [|exact (locally_pos x t _ Dx H)].
      intros s Hs. unfold Ratan2. destruct (Rlt_dec 0 (x s)); [reflexivity|contradiction].
    + auto_derive.
      * repeat split; [now exists dy | now exists dx | lra].
      * rewrite (is_derive_unique (fun s : R => x s) _ _ Dx), (is_derive_unique (fun s : R => y s) _ _ Dy).
        field. split; [lra|]. simpl in *. lra.
  - apply (is_derive_ext_loc (fun s => PI / 2 - atan (x s / y s))).
    + apply (filter_imp (fun s => 0 < y s)); [|exact (locally_pos y t _ Dy P)].
      intros s Hs. symmetry. apply Ratan2_pos_y. exact Hs.
    + auto_derive.
      * repeat split; [now exists dx | now exists dy | lra].
      * rewrite (is_derive_unique (fun s : R => x s) _ _ Dx), (is_derive_unique (fun s : R => y s) _ _ Dy).
        field. split; [lra|]. simpl in *. lra.
Qed.

Section Run.
Context {X : External R} (HX : special_spec X).
Context (r1 r2 u v : R) (Hr : r1 <= r2) (Hv : 0 < v) (E : R) (HE : E^2 < 1).
Local Notation A := (pA r2 u v).
Local Notation B := (pB r1 u v).
Local Notation m := (pk2 r1 r2 u v).
Local Notation K := (ellK m).
Definition xi (q : R) : R := amX (X := X) m (2 * K / PI * q + 0).
Definition pur : R := PI * sqrt (A * B * (1 - E^2)) / (2 * K).
Lemma pK_pos : 0 < K. Proof. apply ellK_pos, pk2_bounds; assumption. Qed.
Lemma ABc_pos : 0 < A * B * (1 - E^2).
Proof.
  pose proof (pA_pos r2 u v Hv). pose proof (pB_pos r1 u v Hv).
  repeat apply Rmult_lt_0_compat; lra.
Qed.
Lemma pur_pos : 0 < pur.
Proof.
  pose proof PI_RGT_0. pose proof pK_pos. pose proof (sqrt_lt_R0 _ ABc_pos).
  apply Rdiv_lt_0_compat; [now apply Rmult_lt_0_compat | lra].
Qed.
Lemma xi_derive q : is_derive xi q (2 * K / PI * sqrt (dl m (xi q))).
Proof. exact (amX_derive HX m (2 * K / PI) 0 (pk2_bounds r1 r2 u v Hr Hv) q). Qed.
Lemma A_run : plunge_A (Some r1) (Some r2) (Some u) (Some v) = Some A.
Proof. unfold plunge_A. cnum. apply csqrt_some, Rlt_le, A_arg, Hv. Qed.
Lemma B_run : plunge_B (Some r1) (Some r2) (Some u) (Some v) = Some B.
Proof. unfold plunge_B. cnum. apply csqrt_some, Rlt_le, B_arg, Hv. Qed.
Lemma den_nz : 4 * A * B <> 0. Proof. apply Rgt_not_eq, den_pos, Hv. Qed.
Lemma pk_run : plunge_k_r (Some r1) (Some r2) (Some A) (Some B) = Some (sqrt m).
Proof. unfold plunge_k_r. cnum. rewrite cdiv_some by exact den_nz. apply csqrt_some, pk2_bounds; assumption. Qed.
Lemma pk_sq : sqrt m ^ 2 = m. Proof. apply pow2_sqrt, (pk2_bounds r1 r2 u v Hr Hv). Qed.
Lemma jac_run q : plunge_jacobi (Some (sqrt m)) (Some q)
  = (Some (sin (xi q)), Some (cos (xi q)), Some (sqrt (1 - m * sin (xi q) ^ 2)), Some (xi q)).
Proof.
  pose proof PI_RGT_0. pose proof (pk2_bounds r1 r2 u v Hr Hv) as Hm.
  unfold plunge_jacobi. cnum. rewrite pk_sq, (ellipk_checked HX) by tauto. rewrite cdiv_some by lra.
  replace (2 * K * q / PI) with (2 * K / PI * q + 0) by (field; lra).
  rewrite (ellipj_checked HX) by assumption. reflexivity.
Qed.
Lemma plunge_r_run q : plunge_r (Some r1) (Some r2) (Some A) (Some B) (Some q) = Some (pr r1 r2 u v xi q).
Proof.
  unfold plunge_r. rewrite pk_run, jac_run. cnum.
  destruct (prx_code r1 r2 u v Hv (sin (xi q)) (cos (xi q))) as [N1 N2].
  - pose proof (cos2_sin2 (xi q)). lra.
  - apply COS_bound.
  - rewrite cdiv_some by exact N1. now rewrite N2.
Qed.

(** the first two radial integrals; 1/f enters the third kind, so A <> B *)
Section Integrals.
Context (HAB : A <> B) (H12 : r1 < r2).
Local Notation f := (4 * A * B / (A - B)^2).
Local Notation s q := (sin (xi q)).
Local Notation c q := (cos (xi q)).
Local Notation dn q := (sqrt (dl m (xi q))).
Definition Ir (q : R) : R :=
  (A * r1 - B * r2) / (A - B) * (q / pur)
  - 1 / sqrt (1 - E^2) * atan ((r2 - r1) * s q / (2 * sqrt (A * B) * dn q))
  + (A + B) * (r2 - r1) / (2 * (A - B) * sqrt (A * B * (1 - E^2))) * ellPi (- 1 / f) (xi q) m.
Lemma AmB2 : 0 < (A - B)^2. Proof. apply pow2_gt_0. lra. Qed.
Lemma f_pos : 0 < f. Proof. apply Rdiv_lt_0_compat; [apply den_pos, Hv | apply AmB2]. Qed.
Lemma nf_lt : - 1 / f < 1.
Proof.
  pose proof f_pos as F. unfold Rdiv. pose proof (Rinv_0_lt_compat _ F). unfold Rdiv in *. lra.
Qed.
Lemma AB_pos : 0 < A * B. Proof. apply Rmult_lt_0_compat; [apply pA_pos, Hv | apply pB_pos, Hv]. Qed.
Lemma f_run : plunge_f (Some A) (Some B) = Some f.
Proof. unfold plunge_f. cnum. rewrite cdiv_some; [reflexivity|]. apply Rgt_not_eq, AmB2. Qed.
Lemma dn_pos q : 0 < dn q. Proof. apply sqrt_dl_pos, (pk2_bounds r1 r2 u v Hr Hv). Qed.
Lemma Ir_run q : I_r (Some E) (Some r1) (Some r2) (Some A) (Some B) (Some pur) (Some q) = Some (Ir q).
Proof.
  pose proof pur_pos as U. pose proof (pk2_bounds r1 r2 u v Hr Hv) as Hm. pose proof f_pos as F. pose proof AB_pos as P.
  pose proof ABc_pos as P'. pose proof (sqrt_lt_R0 _ P) as SP. pose proof (sqrt_lt_R0 _ P') as SP'.
  assert (Sc : 0 < sqrt (1 - E^2)) by (apply sqrt_lt_R0; lra). pose proof (dn_pos q) as D.
  unfold I_r. rewrite f_run, pk_run, jac_run. cnum. fold (dl m (xi q)). rewrite pk_sq.
  rewrite (csqrt_some (1 - E^2)), (csqrt_some (A * B)), (csqrt_some (A * B * (1 - E^2))) by lra.
  rewrite (cdiv_some (- (1)) f) by lra. rewrite (C31_ellippiinc HX) by (tauto || apply nf_lt).
  rewrite !cdiv_some; [reflexivity|..].
  all: try lra; repeat (apply Rmult_integral_contrapositive_currified); try lra; try (apply Rgt_not_eq; assumption).
Qed.

(** *** derivative of the first integral: r *)
Lemma w_pur : 2 * K / PI * pur = sqrt (A * B * (1 - E^2)).
Proof. pose proof PI_RGT_0. pose proof pK_pos. unfold pur. field. lra. Qed.
Lemma sqrt_ABc : sqrt (A * B * (1 - E^2)) = sqrt (A * B) * sqrt (1 - E^2).
Proof. apply sqrt_mult; [left; apply AB_pos | lra]. Qed.
Lemma dl_dn q : dn q ^ 2 = 1 - m * s q ^ 2.
Proof. unfold dl. apply pow2_sqrt. apply Rlt_le. apply (dl_pos m (xi q)), (pk2_bounds r1 r2 u v Hr Hv). Qed.
Lemma dn_derive q : is_derive (fun q => dn q) q (- m * s q * c q * (2 * K / PI)).
Proof.
  pose proof (xi_derive q) as D. pose proof (dn_pos q) as P.
  assert (0 < dl m (xi q)) by (apply dl_pos, pk2_bounds; assumption).
  unfold dl in *. auto_derive.
  - repeat split; [now exists (2 * K / PI * dn q) |]. unfold Rminus in *. simpl in *. lra.
  - rewrite (is_derive_unique (fun x : R => xi x) _ _ D). unfold dl in *.
    replace (1 + - (m * (s q * (s q * 1)))) with (1 - m * s q ^ 2) by ring. pose proof PI_RGT_0. clear D.
    set (d := sqrt (1 - m * s q ^ 2)) in *. clearbody d. field. repeat split; lra.
Qed.
Lemma s_derive q : is_derive (fun q => s q) q (c q * (2 * K / PI * dn q)).
Proof.
  pose proof (xi_derive q) as D. auto_derive; [repeat split; now exists (2 * K / PI * dn q)|].
  rewrite (is_derive_unique (fun x : R => xi x) _ _ D). ring.
Qed.
Lemma c_derive q : is_derive (fun q => c q) q (- s q * (2 * K / PI * dn q)).
Proof.
  pose proof (xi_derive q) as D. auto_derive; [repeat split; now exists (2 * K / PI * dn q)|].
  rewrite (is_derive_unique (fun x : R => xi x) _ _ D). ring.
Qed.
Lemma Pi_derive q : is_derive (fun q => ellPi (- 1 / f) (xi q) m) q (2 * K / PI * (f / (f + s q ^ 2))).
Proof.
  pose proof (xi_derive q) as D. pose proof (dn_pos q) as P. pose proof f_pos as F. pose proof (pow2_ge_0 (s q)).
  evar_last.
  - apply (is_derive_comp (fun p => ellPi (- 1 / f) p m) xi q).
    + apply ellPi_derive; [apply nf_lt | apply pk2_bounds; assumption].
    + exact D.
  - unfold hP, scal; simpl; unfold mult; simpl. set (ff := f) in *. clearbody ff.
    unfold dl at 1. fold (dl m (xi q)) in *. set (d := sqrt (dl m (xi q))) in *. clearbody d.
    pose proof PI_RGT_0. unfold dl. set (sx := s q) in *. clearbody sx. clear D. field.
    assert (0 < ff + sx^2) by lra.
    assert (0 < 1 - - 1 / ff * sx^2).
    { replace (1 - - 1 / ff * sx^2) with ((ff + sx^2) / ff) by (field; lra). now apply Rdiv_lt_0_compat. }
    repeat split; try lra.
    + pose proof den_pos r1 r2 u v Hv. pose proof AmB2. assert (0 <= (A - B)^2 * sx^2) by (apply Rmult_le_pos; lra).
      simpl in *. lra.
    + apply Rgt_not_eq, pB_pos, Hv.
    + apply Rgt_not_eq, pA_pos, Hv.
Qed.
Lemma at_arg q : is_derive (fun q => atan ((r2 - r1) * s q / (2 * sqrt (A * B) * dn q))) q
  (2 * K / PI * (2 * sqrt (A * B) * (r2 - r1) * c q / (4 * A * B + (A - B)^2 * s q ^ 2))).
Proof.
  pose proof (dn_derive q) as Dd. pose proof (s_derive q) as Ds. pose proof (dn_pos q) as P. pose proof AB_pos as P2.
  pose proof (sqrt_lt_R0 _ P2) as P3. pose proof (dl_dn q) as E2. pose proof AmB2 as P4. pose proof (pow2_ge_0 (s q)) as P5.
  evar_last.
  - apply (is_derive_comp atan (fun q => (r2 - r1) * s q / (2 * sqrt (A * B) * dn q)) q).
    + apply is_derive_atan.
    + apply is_derive_div; [apply is_derive_scal; exact Ds | apply is_derive_scal; exact Dd |].
      repeat apply Rmult_integral_contrapositive_currified; lra.
  - unfold scal; simpl; unfold mult; simpl. unfold Rsqr.
    assert (M : 4 * (A * B) * m = (r2 - r1)^2 - (A - B)^2).
    { unfold pk2. field. pose proof (pA_pos r2 u v Hv). pose proof (pB_pos r1 u v Hv). lra. }
    assert (Q : sqrt (A * B) ^ 2 = A * B) by (apply pow2_sqrt; lra).
    set (y := sqrt (A * B)) in *. set (d := dn q) in *. set (sx := s q) in *. set (cx := c q) in *.
    assert (N : 0 < 4 * (A * B) + (A - B)^2 * sx^2).
    { apply Rplus_lt_le_0_compat; [lra|]. apply Rmult_le_pos; lra. }
    assert (N2 : (2 * y * d)^2 + ((r2 - r1) * sx)^2 = 4 * (A * B) + (A - B)^2 * sx^2).
    { transitivity (4 * y^2 * d^2 + (r2 - r1)^2 * sx^2); [ring|]. rewrite E2, Q.
      transitivity (4 * (A * B) - (4 * (A * B) * m) * sx^2 + (r2 - r1)^2 * sx^2); [ring|]. rewrite M. ring. }
    transitivity (2 * K / PI * (2 * y * (r2 - r1) * cx * (d^2 + m * sx^2) / ((2 * y * d)^2 + ((r2 - r1) * sx)^2))).
    { clearbody y d sx cx. field. pose proof PI_RGT_0. rewrite <- N2 in N. repeat split; try lra.  }
    rewrite N2, E2. replace (4 * (A * B)) with (4 * A * B) by ring. replace (1 - m * sx^2 + m * sx^2) with 1 by ring. now rewrite Rmult_1_r.
Qed.
Lemma prx_alg (A' B' c' : R) : A' <> B' -> A' * (1 + c') + B' * (1 - c') <> 0 -> A' * (1 - c') + B' * (1 + c') <> 0 ->
  (A' * r1 - B' * r2) / (A' - B') - 2 * (A' * B') * (r2 - r1) * c' / (4 * A' * B' + (A' - B')^2 * (1 - c'^2))
  + (A' + B') * (r2 - r1) / (2 * (A' - B')) * (4 * (A' * B') / (4 * A' * B' + (A' - B')^2 * (1 - c'^2)))
  = (A' * r1 * (1 + c') + B' * r2 * (1 - c')) / (A' * (1 + c') + B' * (1 - c')).
Proof.
  intros H H1 H2.
  assert (F : 4 * A' * B' + (A' - B')^2 * (1 - c'^2) = (A' * (1 + c') + B' * (1 - c')) * (A' * (1 - c') + B' * (1 + c'))) by ring.
  rewrite F. field. repeat split; lra.
Qed.
Lemma lin3 (g1 g2 g3 : R -> R) q x1 x2 x3 k1 k2 k3 : is_derive g1 q x1 -> is_derive g2 q x2 -> is_derive g3 q x3 ->
  is_derive (fun q => k1 * g1 q - k2 * g2 q + k3 * g3 q) q (k1 * x1 - k2 * x2 + k3 * x3).
Proof.
  intros D1 D2 D3. auto_derive; [repeat split; now eexists; eassumption|].
  rewrite (is_derive_unique (fun x : R => g1 x) _ _ D1), (is_derive_unique (fun x : R => g2 x) _ _ D2),
    (is_derive_unique (fun x : R => g3 x) _ _ D3). ring.
Qed.
Lemma id_derive q : is_derive (fun q => q / pur) q (/ pur).
Proof. pose proof pur_pos. auto_derive; [trivial | field; lra]. Qed.
Lemma lin5 (g1 g2 g3 g4 g5 : R -> R) q x1 x2 x3 x4 x5 k1 k2 k3 k5 :
  is_derive g1 q x1 -> is_derive g2 q x2 -> is_derive g3 q x3 -> is_derive g4 q x4 -> is_derive g5 q x5 ->
  is_derive (fun q => k1 * g1 q + k2 * g2 q - k3 * g3 q - g4 q + k5 * g5 q) q (k1 * x1 + k2 * x2 - k3 * x3 - x4 + k5 * x5).
Proof.
  intros D1 D2 D3 D4 D5. auto_derive; [repeat split; now eexists; eassumption|].
  rewrite (is_derive_unique (fun x : R => g1 x) _ _ D1), (is_derive_unique (fun x : R => g2 x) _ _ D2),
    (is_derive_unique (fun x : R => g3 x) _ _ D3), (is_derive_unique (fun x : R => g4 x) _ _ D4), (is_derive_unique (fun x : R => g5 x) _ _ D5). ring.
Qed.
Theorem Ir_derive q : is_derive Ir q (pr r1 r2 u v xi q / pur).
Proof.
  pose proof (Pi_derive q) as DP. pose proof (at_arg q) as DA. pose proof AB_pos as P2. pose proof pur_pos as U.
  pose proof (sqrt_lt_R0 _ P2) as P3. assert (P4 : 0 < sqrt (1 - E^2)) by (apply sqrt_lt_R0; lra).
  pose proof AmB2 as P5. pose proof f_pos as F. pose proof (cos2_sin2 (xi q)) as C2. pose proof (COS_bound (xi q)) as CB.
  pose proof (pden_pos r1 r2 u v Hv _ CB) as Dp. pose proof (pden_pos r1 r2 u v Hv (- c q) ltac:(lra)) as Dm.
  unfold Ir. evar_last.
  - exact (lin3 _ _ _ q _ _ _ _ _ _ (id_derive q) DA DP).
  -
    assert (W : 2 * K / PI = sqrt (A * B) * sqrt (1 - E^2) / pur).
    { apply Rmult_eq_reg_r with pur; [|lra]. rewrite w_pur, sqrt_ABc. field. lra. }
    rewrite W, sqrt_ABc. unfold pr, prx, pden in *.
    assert (Q : sqrt (A * B) ^ 2 = A * B) by (apply pow2_sqrt; lra).
    assert (S : s q ^ 2 = 1 - c q ^ 2) by lra.
    rewrite <- (prx_alg A B (c q)) by lra. rewrite S.
    assert (FS : f / (f + (1 - c q ^ 2)) = 4 * (A * B) / (4 * A * B + (A - B)^2 * (1 - c q ^ 2))).
    { assert (N : 4 * A * B + (A - B)^2 * (1 - c q ^ 2) <> 0).
      { replace (4 * A * B + (A - B)^2 * (1 - c q ^ 2)) with ((A * (1 + c q) + B * (1 - c q)) * (A * (1 - c q) + B * (1 + c q))) by ring.
        apply Rmult_integral_contrapositive_currified; lra. }
      field. repeat split; try lra; simpl in *; lra. }
    rewrite FS. set (y := sqrt (A * B)) in *. set (z := sqrt (1 - E^2)) in *. set (G := 4 * A * B + (A - B)^2 * (1 - c q ^ 2)) in *.
    assert (HG : G <> 0).
    { unfold G. replace (4 * A * B + (A - B)^2 * (1 - c q ^ 2)) with ((A * (1 + c q) + B * (1 - c q)) * (A * (1 - c q) + B * (1 + c q))) by ring.
        apply Rmult_integral_contrapositive_currified; lra. }
    replace (4 * (A * B)) with (4 * y^2) by lra. replace (2 * (A * B)) with (2 * y^2) by lra.
    clearbody y z G. set (p := pur) in *. clearbody p. set (AA := A) in *. set (BB := B) in *. set (cc := c q) in *. clearbody AA BB cc.
    field. repeat split; try lra; simpl in *; lra.
Qed.

(** *** the second integral: r^2 *)
Local Notation kap := (A^2 + 2 * r1^2 - B^2 - 2 * r2^2).
Local Notation gg := (sqrt (f * (1 + f * m))).
Definition Ir2 (q : R) : R :=
  (A * r1^2 - B * r2^2) / (A - B) * (q / pur)
  + sqrt (A * B) / sqrt (1 - E^2) * ellE (xi q) m
  - (A + B) * kap / (4 * (A - B) * sqrt ((1 - E^2) * A * B)) * ellPi (- 1 / f) (xi q) m
  - sqrt (A * B) * (A + B - (A - B) * c q) * s q * dn q / ((A - B) * sqrt (1 - E^2) * (f + s q ^ 2))
  + kap / (4 * (r2 - r1) * sqrt (1 - E^2)) * Ratan2 (2 * s q * dn q * gg) (f - (1 + 2 * f * m) * s q ^ 2).
Lemma ellipeinc_checked p n : n < 1 -> ellipeinc (Some p) (Some n) = Some (ellE p n).
Proof.
  intros H. simpl. destruct (Rleb_spec n 1) as [_|G]; [|lra]. simpl.
  f_equal. apply (sp_ellipeinc X HX). exact H.
Qed.
Lemma AmB : A - B <> 0. Proof. lra. Qed.
Lemma AB_nz : 0 < A /\ 0 < B. Proof. split; [apply pA_pos, Hv | apply pB_pos, Hv]. Qed.
Lemma fm_val : 1 + f * m = (r2 - r1)^2 / (A - B)^2.
Proof. pose proof AB_nz. pose proof AmB. unfold pk2. field. repeat split; lra. Qed.
Lemma fm_pos : 0 < f * (1 + f * m).
Proof.
  rewrite fm_val. apply Rmult_lt_0_compat; [apply f_pos|]. apply Rdiv_lt_0_compat; [apply pow2_gt_0; lra | apply AmB2].
Qed.
Lemma gg_val : gg = 2 * sqrt (A * B) * (r2 - r1) / (A - B)^2.
Proof.
  pose proof AB_pos as P. pose proof AmB2 as P2. pose proof (sqrt_lt_R0 _ P). pose proof AB_nz as N. pose proof AmB as N2.
  transitivity (sqrt ((2 * sqrt (A * B) * (r2 - r1) / (A - B)^2)^2)).
  - f_equal. rewrite fm_val.
    transitivity (4 * sqrt (A * B)^2 * (r2 - r1)^2 / (A - B)^4); [rewrite pow2_sqrt by lra; field; lra | field; lra].
  - apply sqrt_pow2. apply Rdiv_le_0_compat; [|assumption]. repeat apply Rmult_le_pos; lra.
Qed.
Lemma fs_pos q : 0 < f + s q ^ 2. Proof. pose proof f_pos. pose proof (pow2_ge_0 (s q)). lra. Qed.
Lemma atan2_arg q : 0 < f - (1 + 2 * f * m) * s q ^ 2 \/ 2 * s q * dn q * gg <> 0.
Proof.
  destruct (Req_dec (s q) 0) as [Z|Z].
  - left. rewrite Z. pose proof f_pos. lra.
  - right. pose proof (dn_pos q). pose proof (sqrt_lt_R0 _ fm_pos).
    repeat apply Rmult_integral_contrapositive_currified; lra.
Qed.
Lemma atan2_norm q : (f - (1 + 2 * f * m) * s q ^ 2)^2 + (2 * s q * dn q * gg)^2 = (f + s q ^ 2)^2.
Proof.
  replace ((2 * s q * dn q * gg)^2) with (4 * s q ^ 2 * dn q ^ 2 * gg^2) by ring.
  rewrite dl_dn, (pow2_sqrt (f * (1 + f * m))) by (left; apply fm_pos). ring.
Qed.

Lemma E_derive q : is_derive (fun q => ellE (xi q) m) q (2 * K / PI * (dn q ^ 2)).
Proof.
  evar_last.
  - apply (is_derive_comp (fun p => ellE p m) xi q); [apply ellE_derive, pk2_bounds; assumption | apply xi_derive].
  - unfold hE, scal; simpl; unfold mult; simpl. ring.
Qed.
Lemma atan2_derive q : is_derive (fun q => Ratan2 (2 * s q * dn q * gg) (f - (1 + 2 * f * m) * s q ^ 2)) q
  (2 * K / PI * (2 * gg * c q / (f + s q ^ 2))).
Proof.
  pose proof (dn_derive q) as Dd. pose proof (s_derive q) as Ds. pose proof (fs_pos q) as Fp. pose proof PI_RGT_0 as HPI.
  assert (Dy : is_derive (fun q => 2 * s q * dn q * gg) q (2 * gg * (2 * K / PI) * c q * (1 - 2 * m * s q ^ 2))).
  { set (g0 := gg). evar_last.
    - apply (is_derive_ext (fun q => g0 * (2 * (s q * dn q)))); [intros t; simpl; ring|].
      apply is_derive_scal, is_derive_scal. exact (is_derive_mult _ _ q _ _ Ds Dd Rmult_comm).
    - unfold plus, mult; simpl. transitivity (2 * g0 * (2 * K / PI) * c q * (dn q ^ 2 - m * s q ^ 2)); [field; lra|].
      rewrite dl_dn. ring. }
  assert (Dx : is_derive (fun q => f - (1 + 2 * f * m) * s q ^ 2) q (- (1 + 2 * f * m) * (2 * s q * c q * (2 * K / PI * dn q)))).
  { set (k0 := 1 + 2 * f * m). set (k1 := f). clearbody k0 k1. set (z := c q * (2 * K / PI * dn q)) in *.
    evar_last.
    - apply (is_derive_ext (fun q => k1 - k0 * (s q * s q))); [intros t; simpl; ring|].
      apply (is_derive_minus (V := R_NormedModule)); [apply is_derive_const|]. apply is_derive_scal.
      exact (is_derive_mult _ _ q _ _ Ds Ds Rmult_comm).
    - unfold minus, plus, opp, zero, mult; simpl. unfold z. ring. }
  evar_last; [exact (Ratan2_derive _ _ q _ _ Dx Dy (atan2_arg q))|].
  cbv beta. rewrite atan2_norm. pose proof (dl_dn q) as E2.
  set (g0 := gg). set (f0 := f) in *. set (d := dn q) in *. set (sx := s q) in *. set (cx := c q) in *. set (w := 2 * K / PI) in *. set (mm := m) in *.
  clearbody g0 f0 d sx cx mm w.
  transitivity (w * (2 * g0 * cx * ((f0 - (1 + 2 * f0 * mm) * sx^2) * (1 - 2 * mm * sx^2) + 2 * sx^2 * d^2 * (1 + 2 * f0 * mm))) / (f0 + sx^2)^2).
  - field. simpl in *. lra.
  - rewrite E2. field. simpl in *. lra.
Qed.
Definition h4 (q : R) : R := sqrt (A * B) * (A + B - (A - B) * c q) * s q * dn q / ((A - B) * sqrt (1 - E^2) * (f + s q ^ 2)).
Lemma h4_gen (S0 C0 D0 : R -> R) q AA BB y z f0 mm w :
  is_derive S0 q (C0 q * (w * D0 q)) -> is_derive C0 q (- S0 q * (w * D0 q)) -> is_derive D0 q (- mm * S0 q * C0 q * w) ->
  D0 q ^ 2 = 1 - mm * S0 q ^ 2 -> AA - BB <> 0 -> 0 < z -> 0 < f0 + S0 q ^ 2 ->
  is_derive (fun q => y * (AA + BB - (AA - BB) * C0 q) * S0 q * D0 q / ((AA - BB) * z * (f0 + S0 q ^ 2))) q
   (w * (y / ((AA - BB) * z) *
  (((AA - BB) * S0 q ^ 2 * (1 - mm * S0 q ^ 2) + (AA + BB - (AA - BB) * C0 q) * C0 q * (1 - 2 * mm * S0 q ^ 2)) * (f0 + S0 q ^ 2)
   - 2 * (AA + BB - (AA - BB) * C0 q) * C0 q * S0 q ^ 2 * (1 - mm * S0 q ^ 2)) / (f0 + S0 q ^ 2)^2)).
Proof.
  intros Ds Dc Dd E2 N P4 Fp.
  auto_derive.
  - repeat split; try (eexists; eassumption).
    apply Rmult_integral_contrapositive_currified; [apply Rmult_integral_contrapositive_currified; [exact N | apply Rgt_not_eq; exact P4]|].
    apply Rgt_not_eq. simpl in *. lra.
  - rewrite (is_derive_unique (fun x : R => S0 x) _ _ Ds), (is_derive_unique (fun x : R => C0 x) _ _ Dc), (is_derive_unique (fun x : R => D0 x) _ _ Dd).
    replace (1 - 2 * mm * S0 q ^ 2) with (D0 q ^ 2 - mm * S0 q ^ 2) by lra. rewrite <- E2.
    field. repeat split; try assumption; apply Rgt_not_eq; simpl in *; lra.
Qed.
Lemma h4_derive q : is_derive h4 q (2 * K / PI * (sqrt (A * B) / ((A - B) * sqrt (1 - E^2)) *
  (((A - B) * s q ^ 2 * (1 - m * s q ^ 2) + (A + B - (A - B) * c q) * c q * (1 - 2 * m * s q ^ 2)) * (f + s q ^ 2)
   - 2 * (A + B - (A - B) * c q) * c q * s q ^ 2 * (1 - m * s q ^ 2)) / (f + s q ^ 2)^2)).
Proof.
  apply (h4_gen (fun q => s q) (fun q => c q) (fun q => dn q) q A B (sqrt (A * B)) (sqrt (1 - E^2)) f m (2 * K / PI)
    (s_derive q) (c_derive q) (dn_derive q) (dl_dn q) AmB).
  - apply sqrt_lt_R0. lra.
  - apply fs_pos.
Qed.
Lemma prx2_alg (A' B' c' : R) : A' <> B' -> A' <> 0 -> B' <> 0 -> A' * (1 + c') + B' * (1 - c') <> 0 -> A' * (1 - c') + B' * (1 + c') <> 0 ->
  forall k f', k = A'^2 + 2 * r1^2 - B'^2 - 2 * r2^2 -> f' = 4 * A' * B' / (A' - B')^2 ->
  forall m', m' = ((r2 - r1)^2 - (A' - B')^2) / (4 * A' * B') ->
  forall g, g = (4 * A' * B' + (A' - B')^2 * (1 - c'^2)) / (A' - B')^2 ->
  (A' * r1^2 - B' * r2^2) / (A' - B') + A' * B' * (1 - m' * (1 - c'^2)) - (A' + B') * k / (4 * (A' - B')) * (f' / g)
  - A' * B' / (A' - B') * ((((A' - B') * (1 - c'^2) * (1 - m' * (1 - c'^2)) + (A' + B' - (A' - B') * c') * c' * (1 - 2 * m' * (1 - c'^2))) * g
   - 2 * (A' + B' - (A' - B') * c') * c' * (1 - c'^2) * (1 - m' * (1 - c'^2))) / g^2)
  + k * (A' * B') / (A' - B')^2 * (c' / g)
  = ((A' * r1 * (1 + c') + B' * r2 * (1 - c')) / (A' * (1 + c') + B' * (1 - c')))^2.
Proof.
  intros H HA HB H1 H2 k f' -> -> m' -> g ->.
  replace (4 * A' * B' + (A' - B')^2 * (1 - c'^2)) with ((A' * (1 + c') + B' * (1 - c')) * (A' * (1 - c') + B' * (1 + c'))) by ring.
  field. repeat split; lra.
Qed.

Lemma Ir2_run q : I_r2 (Some E) (Some r1) (Some r2) (Some A) (Some B) (Some pur) (Some q) = Some (Ir2 q).
Proof.
  pose proof pur_pos as U. pose proof (pk2_bounds r1 r2 u v Hr Hv) as Hm. pose proof f_pos as F. pose proof AB_pos as P.
  assert (P' : 0 < (1 - E^2) * A * B) by (rewrite Rmult_assoc; apply Rmult_lt_0_compat; lra).
  pose proof (sqrt_lt_R0 _ P) as SP. pose proof (sqrt_lt_R0 _ P') as SP'. pose proof fm_pos as FM. pose proof AmB as N0.
  assert (Sc : 0 < sqrt (1 - E^2)) by (apply sqrt_lt_R0; lra). pose proof (dn_pos q) as D. pose proof (fs_pos q) as Fs.
  unfold I_r2. rewrite f_run, pk_run, jac_run. cnum. fold (dl m (xi q)). rewrite pk_sq.
  rewrite (csqrt_some (1 - E^2)), (csqrt_some (A * B)), (csqrt_some ((1 - E^2) * A * B)), (csqrt_some (f * (1 + f * m))) by lra.
  rewrite (cdiv_some (- (1)) f) by lra. rewrite (C31_ellippiinc HX) by (tauto || apply nf_lt).
  rewrite (ellipeinc_checked (xi q) m) by tauto.
  rewrite !cdiv_some; [reflexivity|..].
  all: try lra; repeat (apply Rmult_integral_contrapositive_currified); try assumption; try (apply Rgt_not_eq; assumption || lra).
Qed.
Theorem Ir2_derive q : is_derive Ir2 q (pr r1 r2 u v xi q ^ 2 / pur).
Proof.
  pose proof (Pi_derive q) as DP. pose proof (atan2_derive q) as DA. pose proof (E_derive q) as DE. pose proof (h4_derive q) as DH.
  pose proof AB_pos as P2. pose proof pur_pos as U.
  pose proof (sqrt_lt_R0 _ P2) as P3. assert (P4 : 0 < sqrt (1 - E^2)) by (apply sqrt_lt_R0; lra).
  pose proof AmB2 as P5. pose proof f_pos as F. pose proof (cos2_sin2 (xi q)) as C2. pose proof (COS_bound (xi q)) as CB.
  pose proof (pden_pos r1 r2 u v Hv _ CB) as Dp. pose proof (pden_pos r1 r2 u v Hv (- c q) ltac:(lra)) as Dm.
  pose proof AB_nz as [PA PB]. pose proof AmB as N0.
  evar_last.
  - exact (lin5 _ _ _ _ _ q _ _ _ _ _ _ _ _ _ (id_derive q) DE DP DH DA).
  - assert (W : 2 * K / PI = sqrt (A * B) * sqrt (1 - E^2) / pur).
    { apply Rmult_eq_reg_r with pur; [|lra]. rewrite w_pur, sqrt_ABc. field. lra. }
    assert (G : f + s q ^ 2 = (4 * A * B + (A - B)^2 * (1 - c q ^ 2)) / (A - B)^2).
    { replace (s q ^ 2) with (1 - c q ^ 2) by lra. field. exact N0. }
    assert (GP : f + s q ^ 2 <> 0) by (apply Rgt_not_eq; apply fs_pos).
    unfold pr, prx, pden in *.
    rewrite <- (prx2_alg A B (c q) HAB (Rgt_not_eq _ _ PA) (Rgt_not_eq _ _ PB) ltac:(lra) ltac:(lra) kap f eq_refl eq_refl m eq_refl (f + s q ^ 2) G).
    rewrite W, gg_val, dl_dn.
    replace (sqrt ((1 - E^2) * A * B)) with (sqrt (A * B) * sqrt (1 - E^2)) by (rewrite <- sqrt_ABc; f_equal; ring).
    assert (Q : sqrt (A * B) ^ 2 = A * B) by (apply pow2_sqrt; lra).
    replace (s q ^ 2) with (1 - c q ^ 2) in * by lra. clear DP DA DE DH G W Dp Dm P5.
    set (g0 := f + (1 - c q ^ 2)) in *. set (f0 := f) in *. clearbody g0 f0. set (k0 := kap). clearbody k0.
    set (m0 := m). clearbody m0.
    set (y := sqrt (A * B)) in *. set (z := sqrt (1 - E^2)) in *. clearbody y z. set (p := pur) in *. clearbody p.
    set (AA := A) in *. set (BB := B) in *. set (cc := c q) in *. clearbody AA BB cc. rewrite <- Q.
    field. repeat split; try assumption; try (apply Rgt_not_eq; lra).
Qed.
End Integrals.
End Run.

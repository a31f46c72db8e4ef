(** * The complex-root plunge: the integrals of 1/(r - r_horizon) (plunge.py:235-313) *)
From Coq Require Import Reals Lra Lia ZArith String List Psatz.
From Coquelicot Require Import Coquelicot.
From Verif Require Import Num Outcome External Checked ExternalSpec Spec SpecElliptic Elliptic Carlson2
  Model_Units Model_Constants Model_Frequencies Model_Stable Model_Plunge
  Props_Elliptic Props_Elliptic2 P_Radial P_Polar P_Traj P_Traj2 P_Plunge P_Plunge2.
Import ListNotations.
Open Scope R_scope.

(** the logarithm of the code, for abstract functions sn, cn, dn *)
Lemma log_gen (S0 C0 D0 : R -> R) q mm w D G :
  is_derive S0 q (C0 q * (w * D0 q)) -> is_derive D0 q (- mm * S0 q * C0 q * w) ->
  D0 q ^ 2 = 1 - mm * S0 q ^ 2 -> G ^ 2 = D ^ 2 * (1 - D ^ 2 * mm) -> S0 q ^ 2 <> D ^ 2 ->
  forall k, k ^ 2 = mm ->
  0 < (G + D0 q * S0 q)^2 + (k * (D^2 - S0 q ^ 2))^2 /\
  0 < (G - D0 q * S0 q)^2 + (k * (D^2 - S0 q ^ 2))^2 /\
  is_derive (fun q => ln (((G + D0 q * S0 q)^2 + (k * (D^2 - S0 q ^ 2))^2) / ((G - D0 q * S0 q)^2 + (k * (D^2 - S0 q ^ 2))^2))) q
    (w * (4 * G * C0 q / (D^2 - S0 q ^ 2))).
Proof.
  intros Ds Dd E2 EG HN k Hk.
  set (N0 := (G + D0 q * S0 q)^2 + (k * (D^2 - S0 q ^ 2))^2). set (M0 := (G - D0 q * S0 q)^2 + (k * (D^2 - S0 q ^ 2))^2).
  assert (EN : N0 = D^2 + S0 q ^ 2 - 2 * mm * D^2 * S0 q ^ 2 + 2 * G * D0 q * S0 q).
  { unfold N0. transitivity (G^2 + D0 q ^ 2 * S0 q ^ 2 + k^2 * (D^2 - S0 q ^ 2)^2 + 2 * G * D0 q * S0 q); [ring|]. rewrite EG, E2, Hk. ring. }
  assert (EM : M0 = D^2 + S0 q ^ 2 - 2 * mm * D^2 * S0 q ^ 2 - 2 * G * D0 q * S0 q).
  { unfold M0. transitivity (G^2 + D0 q ^ 2 * S0 q ^ 2 + k^2 * (D^2 - S0 q ^ 2)^2 - 2 * G * D0 q * S0 q); [ring|]. rewrite EG, E2, Hk. ring. }
  assert (NM : N0 * M0 = (D^2 - S0 q ^ 2)^2).
  { rewrite EN, EM. transitivity ((D^2 + S0 q ^ 2 - 2 * mm * D^2 * S0 q ^ 2)^2 - 4 * G^2 * D0 q ^ 2 * S0 q ^ 2); [ring|]. rewrite EG, E2. ring. }
  assert (NM0 : 0 < N0 * M0) by (rewrite NM; apply pow2_gt_0; lra).
  assert (N1 : 0 <= N0) by (unfold N0; apply Rplus_le_le_0_compat; apply pow2_ge_0).
  assert (M1 : 0 <= M0) by (unfold M0; apply Rplus_le_le_0_compat; apply pow2_ge_0).
  assert (NP : 0 < N0) by (destruct (Req_dec N0 0) as [K|K]; [rewrite K in NM0; lra | lra]).
  assert (MP : 0 < M0) by (destruct (Req_dec M0 0) as [K|K]; [rewrite K in NM0; lra | lra]).
  split; [exact NP|]. split; [exact MP|].
  set (P0 := fun q => D0 q * S0 q).
  set (p' := w * C0 q * (1 - 2 * mm * S0 q ^ 2)).
  assert (DP : is_derive P0 q p').
  { unfold P0. evar_last; [exact (is_derive_mult D0 S0 q _ _ Dd Ds Rmult_comm)|].
    unfold plus, mult; simpl. unfold p'. replace (1 - 2 * mm * S0 q ^ 2) with (D0 q ^ 2 - mm * S0 q ^ 2) by lra. ring. }
  set (z' := 2 * S0 q * (C0 q * (w * D0 q))).
  assert (DZ : is_derive (fun q => D^2 - S0 q ^ 2) q (- z')).
  { auto_derive; [now eexists; exact Ds|]. rewrite (is_derive_unique (fun x : R => S0 x) _ _ Ds). unfold z'. ring. }
  assert (DN : is_derive (fun q => (G + P0 q)^2 + (k * (D^2 - S0 q ^ 2))^2) q (2 * (G + P0 q) * p' - 2 * k^2 * (D^2 - S0 q ^ 2) * z')).
  { auto_derive; [repeat split; (now eexists; exact DP) || (now eexists; exact Ds)|].
    rewrite (is_derive_unique (fun x : R => P0 x) _ _ DP), (is_derive_unique (fun x : R => S0 x) _ _ Ds). unfold z'. ring. }
  assert (DM : is_derive (fun q => (G - P0 q)^2 + (k * (D^2 - S0 q ^ 2))^2) q (- 2 * (G - P0 q) * p' - 2 * k^2 * (D^2 - S0 q ^ 2) * z')).
  { auto_derive; [repeat split; (now eexists; exact DP) || (now eexists; exact Ds)|].
    rewrite (is_derive_unique (fun x : R => P0 x) _ _ DP), (is_derive_unique (fun x : R => S0 x) _ _ Ds). unfold z'. ring. }
  evar_last.
  - apply (is_derive_comp ln (fun q => ((G + P0 q)^2 + (k * (D^2 - S0 q ^ 2))^2) / ((G - P0 q)^2 + (k * (D^2 - S0 q ^ 2))^2))).
    + apply is_derive_ln. unfold P0. fold N0 M0. now apply Rdiv_lt_0_compat.
    + apply is_derive_div; [exact DN | exact DM | unfold P0; fold M0; lra].
  - unfold scal; simpl; unfold mult; simpl. 
    change ((G + D0 q * S0 q) * ((G + D0 q * S0 q) * 1) + k * (D * (D * 1) - S0 q * (S0 q * 1)) * (k * (D * (D * 1) - S0 q * (S0 q * 1)) * 1)) with N0.
    change ((G - D0 q * S0 q) * ((G - D0 q * S0 q) * 1) + k * (D * (D * 1) - S0 q * (S0 q * 1)) * (k * (D * (D * 1) - S0 q * (S0 q * 1)) * 1)) with M0.
    unfold P0 in *. 
    change ((G + D0 q * S0 q) * ((G + D0 q * S0 q) * 1) + k * (D * (D * 1) - S0 q * (S0 q * 1)) * (k * (D * (D * 1) - S0 q * (S0 q * 1)) * 1)) with N0.
    change ((G - D0 q * S0 q) * ((G - D0 q * S0 q) * 1) + k * (D * (D * 1) - S0 q * (S0 q * 1)) * (k * (D * (D * 1) - S0 q * (S0 q * 1)) * 1)) with M0.
    set (X1 := 2 * (G + D0 q * S0 q) * p' - 2 * (k * (k * 1)) * (D * (D * 1) - S0 q * (S0 q * 1)) * z').
    set (X2 := - 2 * (G - D0 q * S0 q) * p' - 2 * (k * (k * 1)) * (D * (D * 1) - S0 q * (S0 q * 1)) * z').
    transitivity ((X1 * M0 - X2 * N0) / (N0 * M0)); [field; lra|]. rewrite NM.
    assert (EX : X1 * M0 - X2 * N0 = w * 4 * G * C0 q * (D^2 - S0 q ^ 2)).
    { unfold X1, X2. rewrite EN, EM. replace (k * (k * 1)) with mm by (rewrite <- Hk; ring). unfold p', z'.
      transitivity (w * C0 q * (4 * G * ((1 - 2 * mm * S0 q ^ 2) * (D^2 + S0 q ^ 2 - 2 * mm * D^2 * S0 q ^ 2)
         - 2 * S0 q ^ 2 * D0 q ^ 2 * (1 - 2 * mm * S0 q ^ 2) + 2 * mm * (D^2 - S0 q ^ 2) * S0 q ^ 2 * D0 q ^ 2 * 2))); [ring|].
      rewrite E2. ring. }
    rewrite EX. simpl. field. simpl in *. lra.
Qed.

Section Horizon.
Context {X : External R} (HX : special_spec X).
Context (r1 r2 u v : R) (Hr : r1 <= r2) (Hv : 0 < v) (E : R) (HE : E^2 < 1).
Context (h : R) (Ha : r1 < h) (Hb : h < r2).
Local Notation A := (pA r2 u v).
Local Notation B := (pB r1 u v).
Local Notation m := (pk2 r1 r2 u v).
Local Notation K := (ellK m).
Local Notation al := (h - r1).
Local Notation be := (r2 - h).
Local Notation xi := (xi (X := X) r1 r2 u v).
Local Notation pur := (pur r1 r2 u v E).
Local Notation s q := (sin (xi q)).
Local Notation c q := (cos (xi q)).
Local Notation dn q := (sqrt (dl m (xi q))).
Context (HAB : A * al <> B * be).
Local Notation Sg := (A * al + B * be).
Definition Dh : R := sqrt (4 * A * B * be * al) / Sg.
Definition N2 : R := (h - u)^2 + v^2.
Lemma PA : 0 < A. Proof. apply pA_pos, Hv. Qed.
Lemma PB : 0 < B. Proof. apply pB_pos, Hv. Qed.
Lemma Sg_pos : 0 < Sg.
Proof. pose proof PA. pose proof PB. apply Rplus_lt_0_compat; apply Rmult_lt_0_compat; lra. Qed.
Lemma Darg : 0 < 4 * A * B * be * al.
Proof. pose proof PA. pose proof PB. repeat apply Rmult_lt_0_compat; lra. Qed.
Lemma Dh_pos : 0 < Dh.
Proof. apply Rdiv_lt_0_compat; [apply sqrt_lt_R0, Darg | apply Sg_pos]. Qed.
Lemma Dh_sq : Dh ^ 2 = 4 * A * B * be * al / Sg ^ 2.
Proof.
  pose proof Sg_pos. unfold Dh. transitivity (sqrt (4 * A * B * be * al) ^ 2 / Sg ^ 2); [field; lra|].
  rewrite pow2_sqrt by (left; exact Darg). reflexivity.
Qed.
Lemma Dh_lt : Dh ^ 2 < 1.
Proof.
  rewrite Dh_sq. pose proof Sg_pos as S. assert (0 < Sg ^ 2) by now apply pow_lt.
  apply Rlt_div_l; [assumption|]. assert (0 < (A * al - B * be)^2) by (apply pow2_gt_0; lra).
  replace (4 * A * B * be * al) with (Sg^2 - (A * al - B * be)^2) by ring. lra.
Qed.
Lemma N2_pos : 0 < N2. Proof. pose proof (pow2_ge_0 (h - u)). pose proof (vsq v Hv). unfold N2. lra. Qed.
(** Stewart's theorem *)
Lemma stewart : A^2 * al + B^2 * be - be * al * (r2 - r1) = (r2 - r1) * N2.
Proof. rewrite (pA_sq r2 u v Hv), (pB_sq r1 u v Hv). unfold N2. ring. Qed.
Lemma m_val : 4 * A * B * m = (r2 - r1)^2 - (A - B)^2.
Proof. pose proof PA. pose proof PB. unfold pk2. field. lra. Qed.
Lemma one_D2m : 1 - Dh^2 * m = ((r2 - r1)^2 * N2) / Sg ^ 2.
Proof.
  rewrite Dh_sq. pose proof Sg_pos.
  transitivity ((Sg^2 - be * al * (4 * A * B * m)) / Sg^2); [field; lra|]. f_equal. rewrite m_val.
  transitivity ((r2 - r1) * (A^2 * al + B^2 * be - be * al * (r2 - r1))); [ring|]. rewrite stewart. ring.
Qed.
Lemma sqrt_one_D2m : sqrt (1 - Dh^2 * m) = (r2 - r1) * sqrt N2 / Sg.
Proof.
  pose proof Sg_pos. pose proof N2_pos as P. pose proof (sqrt_lt_R0 _ P).
  rewrite one_D2m. transitivity (sqrt (((r2 - r1) * sqrt N2 / Sg)^2)).
  - f_equal. transitivity ((r2 - r1)^2 * sqrt N2 ^ 2 / Sg^2); [rewrite pow2_sqrt by lra; reflexivity | field; lra].
  - apply sqrt_pow2. apply Rdiv_le_0_compat; [apply Rmult_le_pos; lra | assumption].
Qed.
Lemma one_D2m_pos : 0 < 1 - Dh^2 * m.
Proof.
  rewrite one_D2m. pose proof Sg_pos. apply Rdiv_lt_0_compat; [|now apply pow_lt].
  apply Rmult_lt_0_compat; [apply pow_lt; lra | apply N2_pos].
Qed.
Definition nh : R := 1 / Dh^2.
Lemma nh_gt : 1 < nh.
Proof. pose proof Dh_pos. pose proof Dh_lt. unfold nh. apply Rlt_div_r; [apply pow_lt; assumption | lra]. Qed.
Lemma nh_iff z : nh * z = 1 <-> z = Dh^2.
Proof.
  pose proof Dh_pos. assert (0 < Dh^2) by now apply pow_lt. unfold nh. split; intros Hz.
  - apply Rmult_eq_reg_l with (1 / Dh^2); [rewrite Hz; field; lra|]. unfold Rdiv. rewrite Rmult_1_l. apply Rgt_not_eq. now apply Rinv_0_lt_compat.
  - rewrite Hz. field. lra.
Qed.
Local Notation G := (Dh * sqrt (1 - Dh^2 * m)).
Local Notation k := (sqrt m).
Definition logh (q : R) : R :=
  ln (((G + dn q * s q)^2 + (k * (Dh^2 - s q ^ 2))^2) / ((G - dn q * s q)^2 + (k * (Dh^2 - s q ^ 2))^2)).
Definition kP : R := (r2 - r1) * (A * (r1 - h) + B * (r2 - h)) / (2 * sqrt (A * B * (1 - E^2)) * (h - r1) * (r2 - h) * (A * (r1 - h) - B * (r2 - h))).
Definition kL : R := 4 * sqrt ((1 - E^2) * (r2 - h) * (h - r1)) * sqrt (A^2 * (h - r1) - (r2 - h) * (r1^2 - B^2 + r2 * h - r1 * (r2 + h))).
Definition Ih (q : R) : R :=
  (A - B) * (q / pur) / (A * (r1 - h) - B * (r2 - h)) + kP * ellPi_hyper nh m (xi q) - sqrt (r2 - r1) * logh q / kL.
Lemma G_sq : G^2 = Dh^2 * (1 - Dh^2 * m).
Proof. transitivity (Dh^2 * sqrt (1 - Dh^2 * m) ^ 2); [ring|]. rewrite pow2_sqrt by (left; exact one_D2m_pos). reflexivity. Qed.
Lemma logh_gen q : s q ^ 2 <> Dh^2 ->
  0 < (G + dn q * s q)^2 + (k * (Dh^2 - s q ^ 2))^2 /\
  0 < (G - dn q * s q)^2 + (k * (Dh^2 - s q ^ 2))^2 /\
  is_derive logh q (2 * K / PI * (4 * G * c q / (Dh^2 - s q ^ 2))).
Proof.
  intros Hq. exact (log_gen (fun q => s q) (fun q => c q) (fun q => dn q) q m (2 * K / PI) Dh G
    (s_derive HX r1 r2 u v Hr Hv q) (dn_derive HX r1 r2 u v Hr Hv q) (dl_dn r1 r2 u v Hr Hv q) G_sq Hq k (pk_sq r1 r2 u v Hr Hv)).
Qed.
Lemma den_neg : A * (r1 - h) - B * (r2 - h) = - Sg. Proof. ring. Qed.
Lemma stew_arg : A^2 * (h - r1) - (r2 - h) * (r1^2 - B^2 + r2 * h - r1 * (r2 + h)) = (r2 - r1) * N2.
Proof. rewrite <- stewart. ring. Qed.
Lemma horizon_arg : 0 < (1 - E^2) * (r2 - h) * (h - r1).
Proof. repeat apply Rmult_lt_0_compat; lra. Qed.
Lemma kL_pos : 0 < kL.
Proof.
  unfold kL. rewrite stew_arg. pose proof N2_pos. pose proof (sqrt_lt_R0 _ horizon_arg).
  assert (0 < sqrt ((r2 - r1) * N2)) by (apply sqrt_lt_R0, Rmult_lt_0_compat; lra). repeat apply Rmult_lt_0_compat; lra.
Qed.
Lemma Ih_run q : s q ^ 2 <> Dh^2 ->
  I_r_horizon (Some h) (Some E) (Some r1) (Some r2) (Some A) (Some B) (Some pur) (Some q) = Some (Ih q).
Proof.
  intros Hq. pose proof (pur_pos r1 r2 u v Hr Hv E HE) as U. pose proof (pk2_bounds r1 r2 u v Hr Hv) as Hm.
  pose proof PA as PA'. pose proof PB as PB'. pose proof Sg_pos as S. pose proof Dh_pos as DP. pose proof (ABc_pos r1 r2 u v Hv E HE) as P'.
  pose proof (sqrt_lt_R0 _ P') as SP'. pose proof horizon_arg as P2. pose proof (sqrt_lt_R0 _ P2) as SP2. pose proof N2_pos as NP.
  assert (P3 : 0 < A^2 * (h - r1) - (r2 - h) * (r1^2 - B^2 + r2 * h - r1 * (r2 + h))).
  { rewrite stew_arg. apply Rmult_lt_0_compat; lra. }
  pose proof (sqrt_lt_R0 _ P3) as SP3. destruct (logh_gen q Hq) as (L1 & L2 & _). pose proof one_D2m_pos as OD. pose proof kL_pos as KL.
  assert (D2 : 0 < Dh^2) by now apply pow_lt.
  unfold I_r_horizon. rewrite (pk_run r1 r2 u v Hr Hv), (jac_run HX r1 r2 u v Hr Hv). cnum. fold (dl m (xi q)). rewrite (pk_sq r1 r2 u v Hr Hv).
  rewrite (csqrt_some (4 * A * B * be * al)) by (left; exact Darg). rewrite (cdiv_some _ Sg) by lra. cnum. fold Dh.
  rewrite (csqrt_some (A * B * (1 - E^2))), (csqrt_some ((1 - E^2) * (r2 - h) * (h - r1))), (csqrt_some (r2 - r1)) by lra.
  rewrite (csqrt_some (A^2 * (h - r1) - (r2 - h) * (r1^2 - B^2 + r2 * h - r1 * (r2 + h)))), (csqrt_some (1 - Dh^2 * m)) by lra.
  rewrite (cdiv_some 1 (Dh^2)) by lra. fold nh. rewrite (ellippiinc_hyper_run HX nh m nh_gt (proj2 Hm)) by (now rewrite nh_iff).
  rewrite (cdiv_some _ ((G - dn q * s q)^2 + (k * (Dh^2 - s q ^ 2))^2)) by lra.
  unfold clog. destruct (Rlt_dec 0 _) as [_|NN]; [|exfalso; apply NN; now apply Rdiv_lt_0_compat].
  assert (NZ : A * (r1 - h) - B * (r2 - h) <> 0) by (rewrite den_neg; apply Ropp_neq_0_compat; lra).
  rewrite !cdiv_some; [reflexivity|..]; try assumption; try lra.
  all: repeat (apply Rmult_integral_contrapositive_currified); try assumption; try lra.
Qed.
Lemma lin3h (g1 g2 g3 : R -> R) q x1 x2 x3 k1 k1' k2 k3 k3' : k1' <> 0 -> k3' <> 0 ->
  is_derive g1 q x1 -> is_derive g2 q x2 -> is_derive g3 q x3 ->
  is_derive (fun q => k1 * g1 q / k1' + k2 * g2 q - k3 * g3 q / k3') q (k1 * x1 / k1' + k2 * x2 - k3 * x3 / k3').
Proof.
  intros N1 N3 D1 D2 D3. auto_derive; [repeat split; now eexists; eassumption|].
  rewrite (is_derive_unique (fun x : R => g1 x) _ _ D1), (is_derive_unique (fun x : R => g2 x) _ _ D2),
    (is_derive_unique (fun x : R => g3 x) _ _ D3). field. split; assumption.
Qed.
Lemma PiH_derive q : s q ^ 2 <> Dh^2 -> is_derive (fun q => ellPi_hyper nh m (xi q)) q (2 * K / PI * (Dh^2 / (Dh^2 - s q ^ 2))).
Proof.
  intros Hq. pose proof (dn_pos r1 r2 u v Hr Hv (X := X) q) as P. pose proof Dh_pos as DP. assert (0 < Dh^2) by now apply pow_lt.
  evar_last.
  - apply (is_derive_comp (ellPi_hyper nh m) xi q).
    + apply ellPi_hyper_derive; [exact nh_gt | apply pk2_bounds; assumption | now rewrite nh_iff].
    + apply (xi_derive HX r1 r2 u v Hr Hv).
  - unfold hP, scal; simpl; unfold mult; simpl. unfold dl at 2. unfold nh.
    set (d := dn q) in *. set (sx := s q) in *. clearbody d sx. pose proof PI_RGT_0. set (D := Dh) in *. clearbody D.
    simpl in *. field. repeat split; lra.
Qed.
(** the reciprocal distance to the horizon as a function of cos(xi) *)
Lemma hor_alg (A' B' c' a' b' : R) : A' * (1 + c') + B' * (1 - c') <> 0 -> A' * a' + B' * b' <> 0 -> a' <> 0 -> b' <> 0 ->
  (A' * a' + B' * b') * c' - (A' * a' - B' * b') <> 0 -> (A' * a' + B' * b') * c' + (A' * a' - B' * b') <> 0 ->
  (A' - B') / - (A' * a' + B' * b')
  + (a' + b') * (B' * b' - A' * a') / (2 * a' * b' * - (A' * a' + B' * b')) * (4 * A' * B' * a' * b' / (((A' * a' + B' * b') * c' - (A' * a' - B' * b')) * ((A' * a' + B' * b') * c' + (A' * a' - B' * b'))))
  - 2 * A' * B' * (a' + b') * c' / (((A' * a' + B' * b') * c' - (A' * a' - B' * b')) * ((A' * a' + B' * b') * c' + (A' * a' - B' * b')))
  = - (A' * (1 + c') + B' * (1 - c')) / ((A' * a' + B' * b') * c' + (A' * a' - B' * b')).
Proof. intros. field. repeat split; lra. Qed.
Lemma pr_h q : pr r1 r2 u v xi q - h = - (Sg * c q + (A * al - B * be)) / pden r1 r2 u v (c q).
Proof.
  pose proof (pden_pos r1 r2 u v Hv _ (COS_bound (xi q))) as D. unfold pr, prx. unfold pden in *. field. lra.
Qed.
Lemma D_minus q : Sg^2 * (Dh^2 - s q ^ 2) = (Sg * c q - (A * al - B * be)) * (Sg * c q + (A * al - B * be)).
Proof.
  pose proof Sg_pos. rewrite Dh_sq. pose proof (cos2_sin2 (xi q)) as C2. replace (s q ^ 2) with (1 - c q ^ 2) by lra.
  field. lra.
Qed.
Theorem Ih_derive q : s q ^ 2 <> Dh^2 -> pr r1 r2 u v xi q <> h /\ is_derive Ih q (/ (pr r1 r2 u v xi q - h) / pur).
Proof.
  intros Hq. pose proof (D_minus q) as DM. pose proof Sg_pos as S.
  assert (NZ : (Sg * c q - (A * al - B * be)) * (Sg * c q + (A * al - B * be)) <> 0).
  { rewrite <- DM. apply Rmult_integral_contrapositive_currified; [apply pow_nonzero; lra | lra]. }
  assert (Z1 : Sg * c q - (A * al - B * be) <> 0) by (intros Z; rewrite Z in NZ; lra).
  assert (Z2 : Sg * c q + (A * al - B * be) <> 0) by (intros Z; rewrite Z in NZ; lra).
  pose proof (pden_pos r1 r2 u v Hv _ (COS_bound (xi q))) as Dp. pose proof (pr_h q) as PH.
  assert (PN : pr r1 r2 u v xi q - h <> 0).
  { rewrite PH. unfold Rdiv. apply Rmult_integral_contrapositive_currified; [lra|]. apply Rinv_neq_0_compat. lra. }
  split; [lra|].
  pose proof (pur_pos r1 r2 u v Hr Hv E HE) as U. pose proof PA as PA'. pose proof PB as PB'. pose proof kL_pos as KL.
  destruct (logh_gen q Hq) as (_ & _ & DL). pose proof (PiH_derive q Hq) as DP.
  assert (ND : A * (r1 - h) - B * (r2 - h) <> 0) by (rewrite den_neg; apply Ropp_neq_0_compat; lra).
  unfold Ih. evar_last.
  - exact (lin3h (fun q => q / pur) _ _ q _ _ _ (A - B) _ kP (sqrt (r2 - r1)) kL ND (Rgt_not_eq _ _ KL) (id_derive r1 r2 u v Hr Hv E HE q) DP DL).
  - pose proof (AB_pos r1 r2 u v Hv) as PAB. pose proof (sqrt_lt_R0 _ PAB) as SAB. assert (SE : 0 < sqrt (1 - E^2)) by (apply sqrt_lt_R0; lra).
    assert (W : 2 * K / PI = sqrt (A * B) * sqrt (1 - E^2) / pur).
    { apply Rmult_eq_reg_r with pur; [|lra]. rewrite (w_pur r1 r2 u v Hr Hv E), (sqrt_ABc r1 r2 u v Hv E HE). field. lra. }
    pose proof N2_pos as NP. pose proof (sqrt_lt_R0 _ NP) as SN.
    assert (Q : sqrt (A * B) ^ 2 = A * B) by (apply pow2_sqrt; lra).
    assert (QE : sqrt (1 - E^2) ^ 2 = 1 - E^2) by (apply pow2_sqrt; lra).
    assert (SR : 0 < sqrt (r2 - r1)) by (apply sqrt_lt_R0; lra).
    assert (Sba : 0 < sqrt (be * al)) by (apply sqrt_lt_R0, Rmult_lt_0_compat; lra).
    assert (DV : Dh = 2 * sqrt (A * B) * sqrt (be * al) / Sg).
    { unfold Dh. f_equal. apply sqrt_lem_1; [left; exact Darg | repeat apply Rmult_le_pos; lra |].
      transitivity (4 * sqrt (A * B) ^ 2 * sqrt (be * al) ^ 2); [ring|]. rewrite Q. rewrite pow2_sqrt by (apply Rmult_le_pos; lra). ring. }
    assert (KLV : kL = 4 * (sqrt (1 - E^2) * sqrt (be * al)) * (sqrt (r2 - r1) * sqrt N2)).
    { unfold kL. rewrite stew_arg. rewrite (sqrt_mult (r2 - r1) N2) by lra. f_equal. f_equal.
      rewrite Rmult_assoc. rewrite sqrt_mult; [reflexivity | lra | apply Rmult_le_pos; lra]. }
    rewrite PH. rewrite KLV, sqrt_one_D2m, W. unfold kP. rewrite (sqrt_ABc r1 r2 u v Hv E HE), den_neg.
    assert (D2 : Dh^2 / (Dh^2 - s q ^ 2) = 4 * A * B * al * be / ((Sg * c q - (A * al - B * be)) * (Sg * c q + (A * al - B * be)))).
    { rewrite <- DM. replace (4 * A * B * al * be) with (Dh^2 * Sg^2) by (rewrite Dh_sq; field; lra). field. split; lra. }
    assert (D3 : forall z, z / (Dh^2 - s q ^ 2) = z * Sg^2 / ((Sg * c q - (A * al - B * be)) * (Sg * c q + (A * al - B * be)))).
    { intros z. rewrite <- DM. field. split; lra. }
    rewrite D2, D3, DV.
    transitivity (((A - B) / - Sg
       + (al + be) * (B * be - A * al) / (2 * al * be * - Sg) * (4 * A * B * al * be / ((Sg * c q - (A * al - B * be)) * (Sg * c q + (A * al - B * be))))
       - 2 * A * B * (al + be) * c q / ((Sg * c q - (A * al - B * be)) * (Sg * c q + (A * al - B * be)))) / pur).
    + set (Z := (Sg * c q - (A * al - B * be)) * (Sg * c q + (A * al - B * be))) in *.
      replace (2 * A * B * (al + be) * c q) with (2 * sqrt (A * B) ^ 2 * (al + be) * c q) by (rewrite Q; ring).
      replace (A * (r1 - h) + B * (r2 - h)) with (B * be - A * al) by ring. replace (r2 - r1) with (al + be) in * by ring.
      clear DM DL DP PH D2 D3 DV KLV W PN Hq. set (SS := Sg) in *. set (y := sqrt (A * B)) in *. set (e := sqrt (1 - E^2)) in *. set (sr := sqrt (al + be)) in *.
      set (sn := sqrt N2) in *. set (sba := sqrt (be * al)) in *. set (p := pur) in *. set (AA := A) in *. set (BB := B) in *. set (cc := c q) in *.
      clearbody Z SS y e sr sn sba p cc.
      field. repeat split; try assumption; lra.
    + transitivity (- (A * (1 + c q) + B * (1 - c q)) / (Sg * c q + (A * al - B * be)) / pur).
      * f_equal. apply hor_alg; try assumption; try lra; try (unfold pden in Dp; lra).
      * unfold pden in *. field. repeat split; try assumption; lra.
Qed.
End Horizon.

(** * Property C57: time and azimuth of complex-root plunges *)
From Coq Require Import Reals Lra Lia ZArith String List Psatz.
From Coquelicot Require Import Coquelicot.
From Verif Require Import Num Outcome External Checked ExternalSpec Spec SpecElliptic Elliptic
  Model_Units Model_Constants Model_Frequencies Model_Stable Model_Plunge
  Props_Elliptic Props_Elliptic2 P_Radial P_Polar P_Traj P_Plunge P_Plunge2 P_Plunge3 P_Plunge4
  Props_Constants Props_Trajectory Props_Plunge Props_Plunge2.
Import ListNotations.
Open Scope R_scope.

Section Plunge.
Context {X : External R} (HP : polyroots_spec X) (HX : special_spec X).
Context (a E L Q : R) (Ha : a <> 0) (Ha1 : a^2 < 1) (HE : E^2 < 1) (HL : L <> 0) (HQ : 0 <= Q).
Section Sol.
Context (r1 r2 u v : R) (Hr : r1 <= r2) (Hv : 0 < v).
Context (HR : plunging_radial_roots (Some a) (Some E) (Some L) (Some Q)
              = Ret (ComplexRoots (Some r1) (Some r2) (Some u, Some (- v)) (Some u, Some v))).
Context (HF : forall r, radial_potential a E L Q r = (1 - E^2) * (r2 - r) * (r - r1) * ((r - u)^2 + v^2)).
Local Notation A := (pA r2 u v).
Local Notation B := (pB r1 u v).
Local Notation ur := (pur r1 r2 u v E).
Local Notation ut := (put a E L Q).
Local Notation xi := (xi (X := X) r1 r2 u v).
Local Notation rp := (1 + sqrt (1 - a^2)).
Local Notation rm := (1 - sqrt (1 - a^2)).
Lemma w_pos : 0 < sqrt (1 - a^2). Proof. apply sqrt_lt_R0. lra. Qed.
Lemma w_sq : sqrt (1 - a^2) ^ 2 = 1 - a^2. Proof. apply pow2_sqrt. lra. Qed.
Lemma Delta_fac r : Delta a r = (r - rp) * (r - rm).
Proof. unfold Delta. transitivity ((r - 1)^2 - sqrt (1 - a^2) ^ 2); [rewrite w_sq; ring | ring]. Qed.
Context (D1 : Delta a r1 <> 0) (D2 : Delta a r2 <> 0).
Lemma strict h : Delta a h = 0 -> r1 < h < r2.
Proof.
  intros Hh. assert (P : 0 <= radial_potential a E L Q h).
  { unfold radial_potential. rewrite Hh. rewrite Rmult_0_l, Rminus_0_r. apply pow2_ge_0. }
  rewrite HF in P. assert (N1 : h <> r1) by congruence. assert (N2 : h <> r2) by congruence.
  assert (W : 0 < (h - u)^2 + v^2) by (pose proof (pow2_ge_0 (h - u)); assert (0 < v^2) by (apply pow_lt; lra); lra).
  assert (P' : 0 <= (r2 - h) * (h - r1)).
  { apply Rnot_lt_le. intros Z. assert (0 < (1 - E^2) * ((h-u)^2+v^2) * - ((r2 - h) * (h - r1))) by (repeat apply Rmult_lt_0_compat; lra). lra. }
  destruct (Rlt_le_dec h r1) as [Z|Z].
  - exfalso. assert (0 < (r2 - h) * (r1 - h)) by (apply Rmult_lt_0_compat; lra). lra.
  - split; [lra|]. apply Rnot_le_lt. intros Y. assert (0 < (h - r2) * (h - r1)) by (apply Rmult_lt_0_compat; lra). lra.
Qed.
Lemma rp_h : Delta a rp = 0. Proof. rewrite Delta_fac. ring. Qed.
Lemma rm_h : Delta a rm = 0. Proof. rewrite Delta_fac. ring. Qed.
Lemma H12 : r1 < r2. Proof. pose proof (strict _ rp_h). lra. Qed.
Context (HAB : A <> B) (Cp : A * (rp - r1) <> B * (r2 - rp)) (Cm : A * (rm - r1) <> B * (r2 - rm)).
Definition good (q : R) : Prop := sin (xi q) ^ 2 <> Dh r1 r2 u v rp ^ 2 /\ sin (xi q) ^ 2 <> Dh r1 r2 u v rm ^ 2.
Local Notation Ip q := (Ih (X := X) r1 r2 u v E rp q).
Local Notation Im q := (Ih (X := X) r1 r2 u v E rm q).
Definition ptr (q : R) : R :=
  E * (rp^2 + rm^2 + rp * rm + 2 * a^2) * (q / ur) + E * (Ir2 (X := X) r1 r2 u v E q + Ir (X := X) r1 r2 u v E q * (rm + rp))
  + ((rm^2 + a^2) * (E * (rm^2 + a^2) - a * L) / (rm - rp) * Im q + (rp^2 + a^2) * (E * (rp^2 + a^2) - a * L) / (rp - rm) * Ip q).
Definition pphr (q : R) : R :=
  a * ((E * (rm^2 + a^2) - a * L) / (rm - rp) * Im q + (E * (rp^2 + a^2) - a * L) / (rp - rm) * Ip q).
Lemma Ip_run q : good q -> I_r_horizon (Some rp) (Some E) (Some r1) (Some r2) (Some A) (Some B) (Some ur) (Some q) = Some (Ip q).
Proof. intros [G1 G2]. pose proof (strict _ rp_h) as [S1 S2]. exact (Ih_run HX r1 r2 u v Hr Hv E HE rp S1 S2 Cp q G1). Qed.
Lemma Im_run q : good q -> I_r_horizon (Some rm) (Some E) (Some r1) (Some r2) (Some A) (Some B) (Some ur) (Some q) = Some (Im q).
Proof. intros [G1 G2]. pose proof (strict _ rm_h) as [S1 S2]. exact (Ih_run HX r1 r2 u v Hr Hv E HE rm S1 S2 Cm q G2). Qed.
Lemma ptr_run q : good q ->
  plunge_t_r (Some a) (Some E) (Some L) (Some r1) (Some r2) (Some A) (Some B) (Some ur) (Some q) = Some (ptr q).
Proof.
  intros G. pose proof w_pos. pose proof (pur_pos r1 r2 u v Hr Hv E HE). unfold plunge_t_r. cbv zeta. cnum. rewrite (csqrt_some (1 - a^2)) by lra. cnum.
  pose proof (Ip_run q G) as R1. pose proof (Im_run q G) as R2. pose proof (Ir_run HX r1 r2 u v Hr Hv E HE HAB q) as R3.
  pose proof (Ir2_run HX r1 r2 u v Hr Hv E HE HAB H12 q) as R4. cnum_in R1. cnum_in R2. cnum_in R3. cnum_in R4. rewrite R1, R2, R3, R4.
  rewrite !cdiv_some by lra. reflexivity.
Qed.
Lemma pphr_run q : good q ->
  plunge_phi_r (Some a) (Some E) (Some L) (Some r1) (Some r2) (Some A) (Some B) (Some ur) (Some q) = Some (pphr q).
Proof.
  intros G. pose proof w_pos. unfold plunge_phi_r. cbv zeta. cnum. rewrite (csqrt_some (1 - a^2)) by lra. cnum.
  pose proof (Ip_run q G) as R1. pose proof (Im_run q G) as R2. cnum_in R1. cnum_in R2. rewrite R1, R2.
  rewrite !cdiv_some by lra. reflexivity.
Qed.
Lemma lin5t (g1 g2 g3 g4 g5 : R -> R) q x1 x2 x3 x4 x5 k1 k2 k3 k4 k5 :
  is_derive g1 q x1 -> is_derive g2 q x2 -> is_derive g3 q x3 -> is_derive g4 q x4 -> is_derive g5 q x5 ->
  is_derive (fun q => k1 * g1 q + k2 * (g2 q + g3 q * k3) + (k4 * g4 q + k5 * g5 q)) q (k1 * x1 + k2 * (x2 + x3 * k3) + (k4 * x4 + k5 * x5)).
Proof.
  intros E1 E2 E3 E4 E5. auto_derive; [repeat split; now eexists; eassumption|].
  rewrite (is_derive_unique (fun x : R => g1 x) _ _ E1), (is_derive_unique (fun x : R => g2 x) _ _ E2),
    (is_derive_unique (fun x : R => g3 x) _ _ E3), (is_derive_unique (fun x : R => g4 x) _ _ E4), (is_derive_unique (fun x : R => g5 x) _ _ E5). ring.
Qed.
Local Notation rr q := (pr r1 r2 u v xi q).
Lemma frac_t (r p m' : R) : r <> p -> r <> m' -> p <> m' -> p + m' = 2 -> p * m' = a^2 ->
  E * (p^2 + m'^2 + p * m' + 2 * a^2) + E * (r^2 + r * (m' + p))
  + ((m'^2 + a^2) * (E * (m'^2 + a^2) - a * L) / (m' - p) * / (r - m') + (p^2 + a^2) * (E * (p^2 + a^2) - a * L) / (p - m') * / (r - p))
  = (r^2 + a^2) * (E * (r^2 + a^2) - a * L) / ((r - p) * (r - m')) + a * L.
Proof. intros N1 N2 N3 S P. rewrite <- P. field. repeat split; lra. Qed.
Lemma ptr_derive q : good q -> Delta a (rr q) <> 0 /\
  is_derive ptr q (((rr q ^ 2 + a^2) * (E * (rr q ^ 2 + a^2) - a * L) / Delta a (rr q) + a * L) / ur).
Proof.
  intros [G1 G2]. pose proof w_pos as W. pose proof w_sq as W2. pose proof (strict _ rp_h) as [S1 S2]. pose proof (strict _ rm_h) as [S3 S4].
  pose proof (pur_pos r1 r2 u v Hr Hv E HE) as U.
  destruct (Ih_derive HX r1 r2 u v Hr Hv E HE rp S1 S2 Cp q G1) as [N1 Dp]. destruct (Ih_derive HX r1 r2 u v Hr Hv E HE rm S3 S4 Cm q G2) as [N2 Dm].
  split. { rewrite Delta_fac. apply Rmult_integral_contrapositive_currified; lra. }
  evar_last.
  - exact (lin5t _ _ _ _ _ q _ _ _ _ _ (E * (rp^2 + rm^2 + rp * rm + 2 * a^2)) E (rm + rp)
      ((rm^2 + a^2) * (E * (rm^2 + a^2) - a * L) / (rm - rp)) ((rp^2 + a^2) * (E * (rp^2 + a^2) - a * L) / (rp - rm))
      (id_derive r1 r2 u v Hr Hv E HE q) (Ir2_derive HX r1 r2 u v Hr Hv E HE HAB H12 q) (Ir_derive HX r1 r2 u v Hr Hv E HE HAB q) Dm Dp).
  - rewrite Delta_fac. rewrite <- frac_t by (try assumption; try lra; ring_simplify; lra).
    field. repeat split; lra.
Qed.
Lemma lin2p (g1 g2 : R -> R) q x1 x2 k0 k1 k2 : is_derive g1 q x1 -> is_derive g2 q x2 ->
  is_derive (fun q => k0 * (k1 * g1 q + k2 * g2 q)) q (k0 * (k1 * x1 + k2 * x2)).
Proof.
  intros E1 E2. auto_derive; [repeat split; now eexists; eassumption|].
  rewrite (is_derive_unique (fun x : R => g1 x) _ _ E1), (is_derive_unique (fun x : R => g2 x) _ _ E2). ring.
Qed.
Lemma frac_p (r p m' : R) : r <> p -> r <> m' -> p <> m' -> p + m' = 2 -> p * m' = a^2 ->
  a * ((E * (m'^2 + a^2) - a * L) / (m' - p) * / (r - m') + (E * (p^2 + a^2) - a * L) / (p - m') * / (r - p))
  = a * (E * (r^2 + a^2) - a * L) / ((r - p) * (r - m')) - a * E.
Proof. intros N1 N2 N3 S P. rewrite <- P. field. repeat split; lra. Qed.
Lemma pphr_derive q : good q ->
  is_derive pphr q ((a * (E * (rr q ^ 2 + a^2) - a * L) / Delta a (rr q) - a * E) / ur).
Proof.
  intros [G1 G2]. pose proof w_pos as W. pose proof w_sq as W2. pose proof (strict _ rp_h) as [S1 S2]. pose proof (strict _ rm_h) as [S3 S4].
  pose proof (pur_pos r1 r2 u v Hr Hv E HE) as U.
  destruct (Ih_derive HX r1 r2 u v Hr Hv E HE rp S1 S2 Cp q G1) as [N1 Dp]. destruct (Ih_derive HX r1 r2 u v Hr Hv E HE rm S3 S4 Cm q G2) as [N2 Dm].
  evar_last.
  - exact (lin2p _ _ q _ _ a ((E * (rm^2 + a^2) - a * L) / (rm - rp)) ((E * (rp^2 + a^2) - a * L) / (rp - rm)) Dm Dp).
  - rewrite Delta_fac. rewrite <- frac_p by (try assumption; try lra; ring_simplify; lra).
    field. repeat split; lra.
Qed.
(** the good phases are those at which neither r nor its value half a radial period later is a horizon radius *)
Lemma xi_pi q : xi (q + PI) = xi q + PI.
Proof.
  pose proof (pk2_bounds r1 r2 u v Hr Hv) as Km. pose proof PI_RGT_0. unfold P_Plunge2.xi.
  pose proof (amX_shift HX (pk2 r1 r2 u v) (2 * ellK (pk2 r1 r2 u v) / PI * q + 0) 1 Km) as S. rewrite !Rmult_1_l in S. rewrite <- S.
  f_equal. field. lra.
Qed.
Lemma good_h h q : r1 < h < r2 -> A * (h - r1) <> B * (r2 - h) -> rr q <> h -> rr (q + PI) <> h -> sin (xi q) ^ 2 <> Dh r1 r2 u v h ^ 2.
Proof.
  intros [S1 S2] C N1 N2 Z.
  pose proof (Sg_pos r1 r2 u v Hv h S1 S2) as Sg. pose proof (D_minus (X := X) r1 r2 u v Hv h S1 S2 q) as DM. rewrite Z in DM.
  pose proof (pr_h (X := X) r1 r2 u v Hv h q) as P1. pose proof (pr_h (X := X) r1 r2 u v Hv h (q + PI)) as P2.
  rewrite xi_pi in P2. rewrite neg_cos in P2.
  replace (Dh r1 r2 u v h ^ 2 - Dh r1 r2 u v h ^ 2) with 0 in DM by ring. rewrite Rmult_0_r in DM. symmetry in DM.
  apply Rmult_integral in DM as [DM|DM].
  - apply N2. assert (rr (q + PI) - h = 0); [|lra]. rewrite P2.
    replace (- ((A * (h - r1) + B * (r2 - h)) * - cos (xi q) + (A * (h - r1) - B * (r2 - h)))) with 0 by lra. unfold Rdiv. ring.
  - apply N1. assert (rr q - h = 0); [|lra]. rewrite P1, DM. unfold Rdiv. ring.
Qed.
Lemma good_iff q : Delta a (rr q) <> 0 -> Delta a (rr (q + PI)) <> 0 -> good q.
Proof.
  intros N1 N2. rewrite Delta_fac in N1, N2. split; apply good_h; try assumption.
  - exact (strict _ rp_h).
  - intros Z. apply N1. rewrite Z. ring.
  - intros Z. apply N2. rewrite Z. ring.
  - exact (strict _ rm_h).
  - intros Z. apply N1. rewrite Z. ring.
  - intros Z. apply N2. rewrite Z. ring.
Qed.

Definition plt (qt qr qth l : R) : R :=
  ptr (ur * l + qr) + ptth (X := X) a E L Q (ut * l + (qth + PI / 2)) - (ptr qr + ptth (X := X) a E L Q (qth + PI / 2)) + qt.
Definition plph (qr qth qph l : R) : R :=
  pphr (ur * l + qr) + pphth (X := X) a E L Q (ut * l + (qth + PI / 2)) - (pphr qr + pphth (X := X) a E L Q (qth + PI / 2)) + qph.
Lemma shift_sum (f g : R -> R) w1 b1 w2 b2 l d1' d2' c c' : is_derive f (w1 * l + b1) d1' -> is_derive g (w2 * l + b2) d2' ->
  is_derive (fun l => f (w1 * l + b1) + g (w2 * l + b2) - c + c') l (w1 * d1' + w2 * d2').
Proof.
  intros E1 E2. auto_derive; [repeat split; now eexists; eassumption|].
  rewrite (is_derive_unique (fun x : R => f x) _ _ E1), (is_derive_unique (fun x : R => g x) _ _ E2). ring.
Qed.
Lemma plt_derive qt qr qth l : good (ur * l + qr) -> Delta a (plr (X := X) E r1 r2 u v qr l) <> 0 /\
  is_derive (plt qt qr qth) l (dt_dlambda a E L (plr (X := X) E r1 r2 u v qr l) (plth (X := X) a E L Q qth l)).
Proof.
  intros G. destruct (ptr_derive _ G) as [N D]. pose proof (ptth_derive HX a E L Q Ha HE HL HQ (ut * l + (qth + PI / 2))) as D'.
  pose proof (pur_pos r1 r2 u v Hr Hv E HE) as U. pose proof (put_pos a E L Q Ha HE HL HQ) as U'.
  split; [exact N|]. unfold plt.
  evar_last; [exact (shift_sum _ _ _ _ _ _ _ _ _ _ _ D D')|].
  unfold plr, plth, dt_dlambda. set (r := rr (ur * l + qr)) in *. set (th0 := th _ _ _).
    set (S0 := sin th0). clearbody S0 r. set (U0 := ur) in *. set (U1 := ut) in *. set (D0 := Delta a r) in *. clearbody U0 U1 D0. field. repeat split; lra.
Qed.
Lemma plph_derive qr qth qph l : good (ur * l + qr) ->
  is_derive (plph qr qth qph) l (dphi_dlambda a E L (plr (X := X) E r1 r2 u v qr l) (plth (X := X) a E L Q qth l)).
Proof.
  intros G. destruct (ptr_derive _ G) as [N _]. pose proof (pphr_derive _ G) as D. pose proof (pphth_derive HX a E L Q Ha HE HL HQ (ut * l + (qth + PI / 2))) as D'.
  pose proof (pur_pos r1 r2 u v Hr Hv E HE) as U. pose proof (put_pos a E L Q Ha HE HL HQ) as U'.
  assert (Sn : sin (th (pzm a E L Q) (psi_p (X := X) a E L Q) (ut * l + (qth + PI / 2))) <> 0) by (apply Rgt_not_eq, sin_th_pos, pHz; assumption).
  unfold plph.
  evar_last; [exact (shift_sum _ _ _ _ _ _ _ _ _ _ _ D D')|].
  unfold plr, plth, dphi_dlambda. set (r := rr (ur * l + qr)) in *. set (th0 := th _ _ _) in *.
    set (S0 := sin th0) in *. clearbody S0 r. set (U0 := ur) in *. set (U1 := ut) in *. set (D0 := Delta a r) in *. clearbody U0 U1 D0. field. repeat split; lra.
Qed.
Lemma full_run qt qr qth qph : good qr -> exists T1 T2 T3 T4,
  plunging_trajectory (Some a) (Some E) (Some L) (Some Q) (Some qt, Some qr, Some qth, Some qph) None "natural" "natural"
  = Ret (T1, T2, T3, T4) /\
  forall l, good (ur * l + qr) -> T1 (Some l) = Ret (Some (plt qt qr qth l)) /\ T4 (Some l) = Ret (Some (plph qr qth qph l)).
Proof.
  intros G0.
  unfold plunging_trajectory. rewrite HR. cbn [bind]. unfold complex_plunge_trajectory.
  change (check_units None "natural" "natural") with (Ret tt). cbn [bind]. rewrite (freq_run HX a E L Q Ha HE HL HQ r1 r2 u v Hr Hv HR). cbn [bind].
  unfold plunging_radial_solutions_complex. rewrite HR. cbn [bind fst snd]. cbv zeta. rewrite (freq_run HX a E L Q Ha HE HL HQ r1 r2 u v Hr Hv HR). cbn [bind].
  unfold plunging_polar_solutions. rewrite (freq_run HX a E L Q Ha HE HL HQ r1 r2 u v Hr Hv HR). cbn [bind].
  do 4 eexists. split; [reflexivity|]. intros l G. cbv beta.
  rewrite (A_run r1 r2 u v Hv), (B_run r1 r2 u v Hv).
  rewrite (ptr_run _ G0), (pphr_run _ G0).
  change (time_conversion (T := option R) "natural") with (Ret (fun (d : option R) (_ : option (option R)) => d)). cbn [bind].
  pose proof (ptr_run _ G) as R1. pose proof (pphr_run _ G) as R2.
  pose proof (t_theta_run HX a E L Q Ha HE HL HQ (ut * l + (qth + PI / 2))) as R3. pose proof (phi_theta_run HX a E L Q Ha HE HL HQ (ut * l + (qth + PI / 2))) as R4.
  pose proof (t_theta_run HX a E L Q Ha HE HL HQ (qth + PI / 2)) as R5. pose proof (phi_theta_run HX a E L Q Ha HE HL HQ (qth + PI / 2)) as R6.
  cnum_in R1. cnum_in R2. cnum_in R3. cnum_in R4. cnum_in R5. cnum_in R6. cnum. rewrite (cdiv_some PI 2) by lra. cnum.
  rewrite R1, R2, R3, R4, R5, R6. split; reflexivity.
Qed.
End Sol.

Lemma cubic_coefficient r1 r2 u v :
  (forall r, radial_potential a E L Q r = (1 - E^2) * (r2 - r) * (r - r1) * ((r - u)^2 + v^2)) -> (1 - E^2) * (r1 + r2 + 2 * u) = 2.
Proof.
  intros HF. pose proof (HF 1) as H1. pose proof (HF (-1)) as H2. pose proof (HF 2) as H3. pose proof (HF (-2)) as H4.
  unfold radial_potential, Delta in *. lra.
Qed.
Lemma AB_nz r1 r2 u v : 0 < v -> r1 < r2 -> pA r2 u v = pB r1 u v -> r1 + r2 = 2 * u.
Proof.
  intros Hv H12 Z. pose proof (pA_sq r2 u v Hv) as SA. pose proof (pB_sq r1 u v Hv) as SB. rewrite Z in SA. rewrite SB in SA.
  assert (K : (r2 - r1) * (r1 + r2 - 2 * u) = 0) by lra. apply Rmult_integral in K as [K|K]; lra.
Qed.
(** the particle is not on a horizon at Mino time l, nor at the point half a radial period later *)
Definition clear_of_horizons (r : R -> R) (ur l : R) : Prop := Delta a (r l) <> 0 /\ Delta a (r (l + PI / ur)) <> 0.
Lemma clear_open (r : R -> R) ur l : (forall l, exists d, is_derive r l d) -> clear_of_horizons r ur l -> locally l (clear_of_horizons r ur).
Proof.
  intros D [N1 N2].
  assert (C : forall l, continuous (fun l => Delta a (r l)) l).
  { intros x. destruct (D x) as [d Dx]. apply (ex_derive_continuous (V := R_NormedModule) (fun l => Delta a (r l)) x).
    unfold Delta. auto_derive. repeat split; now exists d. }
  assert (C2 : continuous (fun l => Delta a (r (l + PI / ur))) l).
  { apply (continuous_comp (fun l => l + PI / ur) (fun l => Delta a (r l)) l); [|apply C].
    apply (ex_derive_continuous (V := R_NormedModule) (fun l => l + PI / ur) l). auto_derive. trivial. }
  apply filter_and.
  - apply (C l (fun y => y <> 0)). apply open_neq. exact N1.
  - apply (C2 (fun y => y <> 0)). apply open_neq. exact N2.
Qed.

(** ** C57: t and phi obey the geodesic equations wherever the particle is clear of the horizons *)
Theorem C57_time_and_azimuth_equations r1 r2 qt qr qth qph r theta ur ut :
  complex_plunge a E L Q r1 r2 ->
  coordinates (plunge_run a E L Q qt qr qth qph) r theta ->
  plunging_mino_frequencies (Some a) (Some E) (Some L) (Some Q) = Ret (Some ur, Some ut) ->
  Delta a r1 <> 0 -> Delta a r2 <> 0 -> r1 + r2 <> 1 / (1 - E^2) ->
  (forall l, ur * l + qr = PI / 2 -> Delta a (r l) <> 0) ->
  clear_of_horizons r ur 0 ->
  exists T1 T2 T3 T4 t phi, plunge_run a E L Q qt qr qth qph = Ret (T1, T2, T3, T4) /\
  t 0 = qt /\ phi 0 = qph /\
  forall l, clear_of_horizons r ur l ->
    locally l (fun s => T1 (Some s) = Ret (Some (t s)) /\ T4 (Some s) = Ret (Some (phi s))) /\
    is_derive t l (dt_dlambda a E L (r l) (theta l)) /\
    is_derive phi l (dphi_dlambda a E L (r l) (theta l)).
Proof.
  intros C H F N1 N2 N12 Nq N0. destruct (complex_plunge_inv HP a E L Q r1 r2 C) as (u & v & Hr & Hv & HR & HF).
  pose proof (coordinates_are HX a E L Q Ha HE HL HQ r1 r2 u v qt qr qth qph r theta Hr Hv HR H) as Eq.
  rewrite (freq_run HX a E L Q Ha HE HL HQ r1 r2 u v Hr Hv HR) in F. apply Ret_inj in F. apply pair_equal_spec in F as [F1 F2].
  assert (ur = pur r1 r2 u v E) as -> by congruence. assert (ut = put a E L Q) as -> by congruence. clear F1 F2.
  pose proof (pur_pos r1 r2 u v Hr Hv E HE) as U. pose proof (strict r1 r2 u v Hr Hv HF N1 N2) as St.
  pose proof (rp_h) as Rp. pose proof (rm_h) as Rm. pose proof (St _ Rp) as Sp.
  assert (HAB : pA r2 u v <> pB r1 u v).
  { intros Z. apply AB_nz in Z; [|exact Hv|lra]. pose proof (cubic_coefficient r1 r2 u v HF) as V. apply N12.
    replace (r1 + r2 + 2 * u) with (2 * (r1 + r2)) in V by lra.
    apply Rmult_eq_reg_l with (1 - E^2); [|lra]. field_simplify; lra. }
  pose proof (pk2_bounds r1 r2 u v Hr Hv) as Km. pose proof PI_RGT_0 as HPI.
  assert (XH : xi (X := X) r1 r2 u v (PI / 2) = PI / 2).
  { unfold xi. etransitivity; [|exact (amX_K HX _ Km)]. f_equal. field. lra. }
  assert (CC : forall h, Delta a h = 0 -> pA r2 u v * (h - r1) <> pB r1 u v * (r2 - h)).
  { intros h Hh Z. destruct (St h Hh) as [S1 S2].
    assert (W : pur r1 r2 u v E * ((PI / 2 - qr) / pur r1 r2 u v E) + qr = PI / 2) by (field; lra).
    apply (Nq _ W). destruct (Eq ((PI / 2 - qr) / pur r1 r2 u v E)) as [-> _]. unfold plr. rewrite W.
    pose proof (pr_h (X := X) r1 r2 u v Hv h (PI / 2)) as P. rewrite XH, cos_PI2 in P.
    replace (pA r2 u v * (h - r1) - pB r1 u v * (r2 - h)) with 0 in P by lra.
    replace (pr r1 r2 u v (xi (X := X) r1 r2 u v) (PI / 2)) with h; [exact Hh|].
    rewrite Rmult_0_r, Rplus_0_r, Ropp_0 in P. unfold Rdiv in P. lra. }
  pose proof (CC _ Rp) as Cp. pose proof (CC _ Rm) as Cm.
  assert (GD : forall l, clear_of_horizons r (pur r1 r2 u v E) l -> good r1 r2 u v (pur r1 r2 u v E * l + qr)).
  { intros l [G1 G2]. destruct (Eq l) as [E1 _]. destruct (Eq (l + PI / pur r1 r2 u v E)) as [E2 _]. rewrite E1 in G1. rewrite E2 in G2.
    apply (good_iff r1 r2 u v Hr Hv HF N1 N2 Cp Cm); [exact G1|].
    unfold plr in G2. replace (pur r1 r2 u v E * l + qr + PI) with (pur r1 r2 u v E * (l + PI / pur r1 r2 u v E) + qr) by (field; lra). exact G2. }
  pose proof (GD 0 N0) as G0. rewrite Rmult_0_r, Rplus_0_l in G0.
  destruct (full_run r1 r2 u v Hr Hv HR HF N1 N2 HAB Cp Cm qt qr qth qph G0) as (T1 & T2 & T3 & T4 & HT & RT).
  exists T1, T2, T3, T4. do 2 eexists. refine (conj HT (conj _ (conj _ _))); [| |intros l Hl; refine (conj _ (conj _ _))].
  3:{ assert (Dr : forall l, exists d, is_derive r l d).
      { intros x. destruct (plr_derive HX a E L Q HE r1 r2 u v Hr Hv HF qr x) as (d & Dd & _). exists d.
        eapply is_derive_ext; [|exact Dd]. intros s. now destruct (Eq s) as [-> _]. }
      generalize (clear_open r _ l Dr Hl). apply filter_imp. intros s Hs. exact (RT s (GD s Hs)). }
  - unfold plt. rewrite !Rmult_0_r, !Rplus_0_l. ring.
  - unfold plph. rewrite !Rmult_0_r, !Rplus_0_l. ring.
  - destruct (Eq l) as [-> ->]. exact (proj2 (plt_derive r1 r2 u v Hr Hv HF N1 N2 HAB Cp Cm qt qr qth l (GD l Hl))).
  - destruct (Eq l) as [-> ->]. exact (plph_derive r1 r2 u v Hr Hv HF N1 N2 HAB Cp Cm qr qth qph l (GD l Hl)).
Qed.
End Plunge.
Print Assumptions C57_time_and_azimuth_equations.
(** the plunge of [plunge_case] started at its inner turning point meets the hypotheses *)
Example C57_case {X : External R} (HP : polyroots_spec X) (HX : special_spec X) :
  exists r theta ur ut,
  complex_plunge (3/5) (3/5) (2/75) (2/9) (1/8) 3 /\
  coordinates (plunge_run (3/5) (3/5) (2/75) (2/9) 0 0 0 0) r theta /\
  plunging_mino_frequencies (Some (3/5)) (Some (3/5)) (Some (2/75)) (Some (2/9)) = Ret (Some ur, Some ut) /\
  Delta (3/5) (1/8) <> 0 /\ Delta (3/5) 3 <> 0 /\ 1/8 + 3 <> 1 / (1 - (3/5)^2) /\
  (forall l, ur * l + 0 = PI / 2 -> Delta (3/5) (r l) <> 0) /\
  clear_of_horizons (3/5) r ur 0.
Proof.
  destruct (plunge_case HP) as [C F0]. assert (Ha : 3/5 <> 0) by lra. assert (HE : (3/5)^2 < 1) by lra. assert (HL : 2/75 <> 0) by lra. assert (HQ : 0 <= 2/9) by lra.
  destruct (C39_plunges_are_defined HP HX (3/5) (3/5) (2/75) (2/9) Ha HE HL HQ (1/8) 3 0 0 0 0 C) as [(ur & ut & F & U & _) (r & theta & H)].
  destruct (C39_plunge_phases HP HX (3/5) (3/5) (2/75) (2/9) Ha HE HL HQ (1/8) 3 0 0 0 0 r theta ur ut C H F 0 0) as (Z1 & _).
  destruct (C39_plunge_phases HP HX (3/5) (3/5) (2/75) (2/9) Ha HE HL HQ (1/8) 3 0 0 0 0 r theta ur ut C H F (0 + PI / ur) 0) as (_ & Z2 & _).
  exists r, theta, ur, ut. refine (conj C (conj H (conj F (conj _ (conj _ (conj _ (conj _ _))))))); try (unfold Delta; lra).
  - intros l G. destruct (complex_plunge_inv HP _ _ _ _ (1/8) 3 C) as (u & v & Hr & Hv & HR & HF).
    pose proof (coordinates_are HX _ _ _ _ Ha HE HL HQ (1/8) 3 u v 0 0 0 0 r theta Hr Hv HR H) as Eq.
    rewrite (freq_run HX _ _ _ _ Ha HE HL HQ (1/8) 3 u v Hr Hv HR) in F. apply Ret_inj in F. apply pair_equal_spec in F as [F1 F2].
    assert (ur = pur (1/8) 3 u v (3/5)) as -> by congruence. destruct (Eq l) as [-> _]. unfold plr. rewrite G.
    pose proof (pk2_bounds (1/8) 3 u v Hr Hv) as Km. pose proof PI_RGT_0 as HPI.
    assert (XH : xi (X := X) (1/8) 3 u v (PI / 2) = PI / 2).
    { unfold xi. etransitivity; [|exact (amX_K HX _ Km)]. f_equal. field. lra. }
    pose proof (cubic_coefficient _ _ _ _ _ _ _ _ HF) as V. assert (u = 0) by lra. subst u.
    assert (V2 : v^2 = 1/3).
    { pose proof (HF 0) as K. rewrite F0 in K. rewrite (pow2_sqrt (1/3)) in K by lra. lra. }
    pose proof (pA_sq 3 0 v Hv) as SA. pose proof (pB_sq (1/8) 0 v Hv) as SB. rewrite V2 in SA, SB.
    intros D. set (r0 := pr (1/8) 3 0 v (xi (X := X) (1/8) 3 0 v) (PI / 2)) in *.
    pose proof (pr_h (X := X) (1/8) 3 0 v Hv r0 (PI / 2)) as P. rewrite XH, cos_PI2 in P. fold r0 in P.
    pose proof (pden_pos (1/8) 3 0 v Hv 0 ltac:(lra)) as Pd.
    assert (Z : pA 3 0 v * (r0 - 1/8) = pB (1/8) 0 v * (3 - r0)).
    { replace (r0 - r0) with 0 in P by ring. symmetry in P. apply Rmult_integral in P as [P|P]; [lra|]. exfalso. revert P. apply Rinv_neq_0_compat. lra. }
    assert (Z2' : pA 3 0 v ^ 2 * (r0 - 1/8)^2 = pB (1/8) 0 v ^ 2 * (3 - r0)^2).
    { transitivity ((pA 3 0 v * (r0 - 1/8))^2); [ring|]. rewrite Z. ring. }
    rewrite SA, SB in Z2'. assert (K : (r0 - 9/5) * (r0 - 1/5) = 0) by (unfold Delta in D; lra).
    apply Rmult_integral in K as [K|K].
    + replace r0 with (9/5) in Z2' by lra. lra.
    + replace r0 with (1/5) in Z2' by lra. lra.
  - unfold clear_of_horizons. rewrite Z1 by (simpl; ring). rewrite Z2 by (field_simplify; lra). split; unfold Delta; lra.
Qed.

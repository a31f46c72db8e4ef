(** * Real-root plunges: the radial functions when the horizons lie between the turning points
    (stable.py:240-375 called from plunge.py:614-713) *)
From Coq Require Import Reals Lra Lia ZArith List String Psatz.
From Coquelicot Require Import Coquelicot.
From Verif Require Import Num Outcome External Checked ExternalSpec Carlson2.
From Verif Require Import Model_Constants Model_Frequencies Model_Stable.
From Verif Require Import Spec SpecElliptic Elliptic Props_Elliptic Props_Elliptic2 P_Radial P_Polar P_Traj P_Traj2.
Open Scope R_scope.

Section Radial.
Context {X : External R} (HX : special_spec X).
Context (a E L r1 r2 r3 r4 : R).
Local Notation c := (1 - E ^ 2).
Local Notation m := (kr2 r1 r2 r3 r4).
Context (Hs : 0 < sr2 c r1 r2 r3 r4) (Hm : 0 <= m < 1) (Ho : 0 < (r1 - r3) * (r2 - r3)).
Local Notation rrs := (Some r1, Some r2, Some r3, Some r4).
Local Notation K := (ellK m).
Local Notation s := (sqrt (sr2 c r1 r2 r3 r4)).
Local Notation psi_r := (psi_r (X := X) r1 r2 r3 r4).
Local Notation rh := (rho r1 r2 r3 psi_r).
Local Notation rp := (rp a).
Local Notation rm := (rm a).
Context (Ha : a^2 < 1).
Lemma rpm' : 0 < sqrt (1 - a ^ 2) /\ rp + rm = 2 /\ rp * rm = a ^ 2 /\ rp - rm <> 0.
Proof.
  assert (0 < 1 - a^2) by lra. pose proof (sqrt_lt_R0 _ H). pose proof (pow2_sqrt _ (Rlt_le _ _ H)).
  unfold P_Traj.rp, P_Traj.rm. repeat split; lra.
Qed.
Lemma csqrt_a' : csqrt (Some (1 - a ^ 2)) = Some (sqrt (1 - a ^ 2)).
Proof. apply csqrt_some. lra. Qed.

(** a horizon strictly between the turning points *)
Section H.
Context (b : R) (Hb : (r1 - b) * (r2 - b) < 0).
Local Notation hb := (hb r1 r2 r3 b).
Lemma hbn : r2 - b <> 0 /\ r1 - b <> 0.
Proof. split; intros Z; rewrite Z in Hb; lra. Qed.
Lemma hb_gt1 : 1 < hb.
Proof.
  destruct (rad_nz _ _ _ _ _ Hs Ho) as (N1 & _). destruct hbn as (B2 & B1). unfold P_Radial.hb.
  cut (0 < (r1 - r2) * (r3 - b) / ((r1 - r3) * (r2 - b)) - 1); [lra|].
  replace ((r1 - r2) * (r3 - b) / ((r1 - r3) * (r2 - b)) - 1)
    with (((r1 - r3) * (r2 - r3)) * - ((r1 - b) * (r2 - b)) / ((r1 - r3) * (r2 - b))^2) by (field; split; assumption).
  apply Rdiv_lt_0_compat; [apply Rmult_lt_0_compat; lra|].
  apply pow2_gt_0. apply Rmult_integral_contrapositive. split; assumption.
Qed.
Lemma rho_hb q : rh q - b = (r2 - b) * (1 - hb * sn2 psi_r q) / (1 - hr r1 r2 r3 * sn2 psi_r q).
Proof.
  unfold rho. pose proof (sn2_bound psi_r q) as Hx. rewrite (rx_alt (1 - E^2) _ _ _ _ Hs Ho) by assumption.
  destruct (rad_nz _ _ _ _ _ Hs Ho) as (N1 & _). destruct hbn as (B2 & B1).
  pose proof (hden _ _ (hr_lt1 _ _ _ _ _ Hs Ho) Hx). pose proof (rden_nz _ _ _ _ _ Hs Ho _ Hx) as Rd.
  unfold P_Radial.hb, hr, rden in *. field. repeat split; try assumption; lra.
Qed.
Lemma pole_iff q : hb * sn2 psi_r q = 1 <-> rh q = b.
Proof.
  pose proof (rho_hb q) as H. pose proof (hden _ _ (hr_lt1 _ _ _ _ _ Hs Ho) (sn2_bound psi_r q)) as D. destruct hbn as (B2 & _). split; intros Z.
  - assert (rh q - b = 0); [|lra]. rewrite H, Z. unfold Rdiv. ring.
  - rewrite Z in H. replace (b - b) with 0 in H by ring. symmetry in H.
    apply Rmult_integral in H as [H|H]; [|exfalso; revert H; apply Rinv_neq_0_compat; lra].
    apply Rmult_integral in H as [H|H]; lra.
Qed.
Lemma third_kind_h q : r3 - b <> 0 -> rh q - b <> 0 ->
  (r2 - r3) / ((r3 - b) * (r2 - b)) / (1 - hb * sn2 psi_r q) = 1 / (r3 - b) - 1 / (rh q - b).
Proof.
  intros Hb3 Hr. assert (PZ : 1 - hb * sn2 psi_r q <> 0) by (intros Z; apply Hr; rewrite (proj1 (pole_iff q)); lra).
  pose proof (rho_hb q) as K. pose proof (sn2_bound psi_r q) as Hx.
  destruct (rad_nz _ _ _ _ _ Hs Ho) as (N1 & _). destruct hbn as (B2 & B1).
  pose proof (hden _ _ (hr_lt1 _ _ _ _ _ Hs Ho) Hx) as D1. rewrite K. set (x := sn2 psi_r q) in *.
  apply (Rmult_eq_reg_r ((r3 - b) * (r2 - b) * (1 - hb * x))).
  - transitivity (r2 - r3); [field; repeat split; lra|].
    transitivity ((r2 - b) * (1 - hb * x) - (1 - hr r1 r2 r3 * x) * (r3 - b)); [|field; repeat split; lra].
    unfold P_Radial.hb, hr. field. split; assumption.
  - repeat (apply Rmult_integral_contrapositive; split); lra.
Qed.
Lemma hyper_along q : rh q - b <> 0 -> is_derive (fun q => ellPi_hyper hb m (psi_r q)) q (K / PI / (1 - hb * sn2 psi_r q)).
Proof.
  intros Hr. assert (PZ : hb * sn2 psi_r q <> 1) by (intros Z; apply Hr; rewrite (proj1 (pole_iff q)); lra).
  pose proof (sqrt_dl_pos m (psi_r q) (proj2 Hm)).
  replace (K / PI / (1 - hb * sn2 psi_r q)) with ((K / PI * sqrt (dl m (psi_r q))) * hP hb m (psi_r q)).
  - apply (is_derive_comp (ellPi_hyper hb m) psi_r); [apply ellPi_hyper_derive; [apply hb_gt1 | exact (proj2 Hm) | exact PZ] | now apply (psi_r_derive HX)].
  - unfold hP, dl, sn2 in *. pose proof PI_RGT_0. field. repeat split; lra.
Qed.
End H.
Context (Hp2 : (r1 - rp) * (r2 - rp) < 0) (Hm2 : (r1 - rm) * (r2 - rm) < 0).
Context (Hp3 : r3 - rp <> 0) (Hm3 : r3 - rm <> 0).
Local Notation hr' := (hr r1 r2 r3).
Local Notation hp' := (hb r1 r2 r3 rp).
Local Notation hm' := (hb r1 r2 r3 rm).
Local Notation Pic n := (ellPi n (PI / 2) m).
Local Notation Hy n q := (ellPi_hyper n m q).
Local Notation Ec := (ellE (PI / 2) m).
Local Notation Ap := (Ap a E L).
Local Notation Bp := (Bp a E L).
Lemma radial_nz' : (r1 - r3) * (r2 - rp) <> 0 /\ (r1 - r3) * (r2 - rm) <> 0 /\ r1 - r3 <> 0 /\
  r2 - rp <> 0 /\ r2 - rm <> 0.
Proof.
  destruct (rad_nz _ _ _ _ _ Hs Ho) as (N1 & _).
  destruct (hbn _ Hp2) as (P2 & _). destruct (hbn _ Hm2) as (M2 & _).
  repeat split; try assumption; apply Rmult_integral_contrapositive; now split.
Qed.
Definition h_cond' := (hr_lt1 _ _ _ _ _ Hs Ho, hb_gt1 rp Hp2, hb_gt1 rm Hm2).
(** value of t_r, phi_r *)
Definition trh (q : R) : R :=
  2 / s * (E / 2 * ((r2 - r3) * (r1 + r2 + r3 + r4) * (ellPi hr' (psi_r q) m - q / PI * Pic hr')
    + (r1 - r3) * (r2 - r4) * (second r1 r2 r3 r4 psi_r q - q / PI * Ec))
  + 2 * E * (r2 - r3) * (ellPi hr' (psi_r q) m - q / PI * Pic hr')
  - 2 / (rp - rm) * (Ap rp * (r2 - r3) / ((r3 - rp) * (r2 - rp)) * (Hy hp' (psi_r q) - q / PI * Hy hp' (PI / 2))
     - Ap rm * (r2 - r3) / ((r3 - rm) * (r2 - rm)) * (Hy hm' (psi_r q) - q / PI * Hy hm' (PI / 2)))).
Definition phrh (q : R) : R :=
  - 2 * a / ((rp - rm) * s)
  * (Bp rp * (r2 - r3) / ((r3 - rp) * (r2 - rp)) * (Hy hp' (psi_r q) - q / PI * Hy hp' (PI / 2))
     - Bp rm * (r2 - r3) / ((r3 - rm) * (r2 - rm)) * (Hy hm' (psi_r q) - q / PI * Hy hm' (PI / 2))).

Ltac nzs := repeat match goal with
  | |- _ /\ _ => split
  | |- _ * _ <> 0 => apply Rmult_integral_contrapositive; split
  end; try assumption; try lra.

Lemma radial_t_run' q : rh q - rp <> 0 -> rh q - rm <> 0 -> radial_t (Some a) (Some E) (Some L) rrs (Some q) = Some (trh q).
Proof.
  intros R1 R2. pose proof PI_RGT_0.
  assert (Z2 : hp' * sin (psi_r q) ^ 2 <> 1) by (intros Z; apply R1; rewrite (proj1 (pole_iff rp Hp2 q) Z); ring).
  assert (Z3 : hm' * sin (psi_r q) ^ 2 <> 1) by (intros Z; apply R2; rewrite (proj1 (pole_iff rm Hm2 q) Z); ring). pose proof (s_pos _ _ _ _ _ Hs) as Sp. pose proof (K_pos _ _ _ _ Hm) as Kp. destruct rpm' as (S0 & S1 & S2 & S3).
  destruct radial_nz' as (N1 & N2 & N3 & N4 & N5). destruct h_cond' as [[H1 H2] H3].
  unfold radial_t. rewrite (kr_run E) by assumption. cnum. rewrite (kr_sq _ _ _ _ Hm), csqrt_a'. fold rp rm.
  rewrite (ellipk_checked HX) by tauto. rewrite (csqrt_s _ _ _ _ _ Hs).
  rewrite (cdiv_some (r1 - r2) (r1 - r3)) by assumption. fold hr'.
  rewrite (cdiv_some _ ((r1 - r3) * (r2 - rp))) by assumption. fold (hb r1 r2 r3 rp).
  rewrite (cdiv_some _ ((r1 - r3) * (r2 - rm))) by assumption. fold (hb r1 r2 r3 rm).
  rewrite (cdiv_some (K * q) PI) by lra.
  rewrite (ellipj_checked HX) by assumption. rewrite u_arg. fold (psi_r q).
  rewrite (C31_ellippiinc HX _ hr'), (C31_ellippi HX hr'), (C31_ellipeinc HX), (ellipe_checked HX) by (assumption || tauto).
  pose proof (ellippiinc_hyper_run HX hp' m H2 (proj2 Hm) _ Z2) as G1; pose proof (ellippiinc_hyper_run HX hm' m H3 (proj2 Hm) _ Z3) as G2.
  pose proof (ellippi_hyper_run HX hp' m H2 (proj2 Hm)) as G3; pose proof (ellippi_hyper_run HX hm' m H3 (proj2 Hm)) as G4.
  cnum_in G1; cnum_in G2; cnum_in G3; cnum_in G4. rewrite G1, G2, G3, G4.
  rewrite csqrt_some by (apply Rlt_le, (dl_pos m (psi_r q)); tauto).
  assert (D : hr' * sin (psi_r q) ^ 2 - 1 <> 0).
  { pose proof (hden hr' _ H1 (sin2_bound (psi_r q))). lra. }
  rewrite !cdiv_some by nzs. reflexivity.
Qed.
Lemma radial_phi_run' q : rh q - rp <> 0 -> rh q - rm <> 0 -> radial_phi (Some a) (Some E) (Some L) rrs (Some q) = Some (phrh q).
Proof.
  intros R1 R2. pose proof PI_RGT_0.
  assert (Z2 : hp' * sin (psi_r q) ^ 2 <> 1) by (intros Z; apply R1; rewrite (proj1 (pole_iff rp Hp2 q) Z); ring).
  assert (Z3 : hm' * sin (psi_r q) ^ 2 <> 1) by (intros Z; apply R2; rewrite (proj1 (pole_iff rm Hm2 q) Z); ring). pose proof (s_pos _ _ _ _ _ Hs) as Sp. pose proof (K_pos _ _ _ _ Hm) as Kp. destruct rpm' as (S0 & S1 & S2 & S3).
  destruct radial_nz' as (N1 & N2 & N3 & N4 & N5). destruct h_cond' as [[H1 H2] H3].
  unfold radial_phi. rewrite (kr_run E) by assumption. cnum. rewrite (kr_sq _ _ _ _ Hm), csqrt_a'. fold rp rm.
  rewrite (ellipk_checked HX) by tauto. rewrite (csqrt_s _ _ _ _ _ Hs).
  rewrite (cdiv_some _ ((r1 - r3) * (r2 - rp))) by assumption. fold (hb r1 r2 r3 rp).
  rewrite (cdiv_some _ ((r1 - r3) * (r2 - rm))) by assumption. fold (hb r1 r2 r3 rm).
  rewrite (cdiv_some (K * q) PI) by lra.
  rewrite (ellipj_checked HX) by assumption. rewrite u_arg. fold (psi_r q).
  pose proof (ellippiinc_hyper_run HX hp' m H2 (proj2 Hm) _ Z2) as G1; pose proof (ellippiinc_hyper_run HX hm' m H3 (proj2 Hm) _ Z3) as G2.
  pose proof (ellippi_hyper_run HX hp' m H2 (proj2 Hm)) as G3; pose proof (ellippi_hyper_run HX hm' m H3 (proj2 Hm)) as G4.
  cnum_in G1; cnum_in G2; cnum_in G3; cnum_in G4. rewrite G1, G2, G3, G4.
  rewrite !cdiv_some by nzs. reflexivity.
Qed.

(** averages and derivatives *)
Definition Gth_t : R :=
  (E / 2 * ((r3 * (r1 + r2 + r3) - r1 * r2) * K + (r2 - r3) * (r1 + r2 + r3 + r4) * Pic hr'
            + (r1 - r3) * (r2 - r4) * Ec)
   + 2 * E * (r3 * K + (r2 - r3) * Pic hr')
   + 2 / (rp - rm) * (Ap rp / (r3 - rp) * (K - (r2 - r3) / (r2 - rp) * Hy hp' (PI / 2))
                      - Ap rm / (r3 - rm) * (K - (r2 - r3) / (r2 - rm) * Hy hm' (PI / 2)))) / K.
Definition Gth_p : R :=
  a / (rp - rm) * (Bp rp / (r3 - rp) * (K - (r2 - r3) / (r2 - rp) * Hy hp' (PI / 2))
                   - Bp rm / (r3 - rm) * (K - (r2 - r3) / (r2 - rm) * Hy hm' (PI / 2))) / K.
Local Notation ur := (PI * s / (2 * K)).
Local Notation Vt := (Vt a E L).
Local Notation Vph := (Vph a E L).

Lemma trh_derive q : rh q - rp <> 0 -> rh q - rm <> 0 -> is_derive trh q ((Vt (rh q) - Gth_t) / ur).
Proof.
  intros R1 R2. pose proof PI_RGT_0. pose proof (s_pos _ _ _ _ _ Hs) as Sp. pose proof (K_pos _ _ _ _ Hm) as Kp. destruct rpm' as (S0 & S1 & S2 & S3).
  destruct radial_nz' as (N1 & N2 & N3 & N4 & N5). destruct h_cond' as [[H1 H2] H3].
  pose proof (ellPi_along _ _ _ _ Hm _ _ (psi_r_derive HX _ _ _ _ Hm) hr' q H1) as D1.
  pose proof (hyper_along rp Hp2 q R1) as D2.
  pose proof (hyper_along rm Hm2 q R2) as D3.
  pose proof (second_derive c _ _ _ _ Hs Hm Ho _ _ (psi_r_derive HX _ _ _ _ Hm) q) as D4.
  pose proof (third_kind_r _ _ _ _ _ Hs Ho psi_r q) as F1.
  pose proof (third_kind_h rp Hp2 q Hp3 R1) as F2.
  pose proof (third_kind_h rm Hm2 q Hm3 R2) as F3.
  pose proof (second_r _ _ _ _ _ Hs Ho psi_r q) as F4.
  
  unfold trh.
  set (P1 := fun q => ellPi hr' (psi_r q) m) in *. set (P2 := fun q => Hy hp' (psi_r q)) in *.
  set (P3 := fun q => Hy hm' (psi_r q)) in *. set (P4 := second r1 r2 r3 r4 psi_r) in *.
  change (is_derive (fun q =>   2 / s * (E / 2 * ((r2 - r3) * (r1 + r2 + r3 + r4) * (P1 q - q / PI * Pic hr')
    + (r1 - r3) * (r2 - r4) * (P4 q - q / PI * Ec))
  + 2 * E * (r2 - r3) * (P1 q - q / PI * Pic hr')
  - 2 / (rp - rm) * (Ap rp * (r2 - r3) / ((r3 - rp) * (r2 - rp)) * (P2 q - q / PI * Hy hp' (PI / 2))
     - Ap rm * (r2 - r3) / ((r3 - rm) * (r2 - rm)) * (P3 q - q / PI * Hy hm' (PI / 2))))) q ((Vt (rh q) - Gth_t) / ur)).
  unfold P_Traj.Vt, Gth_t.
  set (x := sn2 psi_r q) in *.
  pose proof (hden _ x H1 (sn2_bound psi_r q)) as Z1.
  set (f1 := / (1 - hr' * x)). set (f2 := / (1 - hp' * x)). set (f3 := / (1 - hm' * x)).
  set (rr := rh q) in *. 
  set (f4 := second' r1 r2 r3 r4 x) in *.
  assert (D1' : is_derive P1 q (K / PI * f1)) by exact D1.
  assert (D2' : is_derive P2 q (K / PI * f2)) by exact D2.
  assert (D3' : is_derive P3 q (K / PI * f3)) by exact D3.
  assert (F1' : (r2 - r3) * f1 = rr - r3) by exact F1.
  assert (F2' : (r2 - r3) / ((r3 - rp) * (r2 - rp)) * f2 = 1 / (r3 - rp) - 1 / (rr - rp)) by exact F2.
  assert (F3' : (r2 - r3) / ((r3 - rm) * (r2 - rm)) * f3 = 1 / (r3 - rm) - 1 / (rr - rm)) by exact F3.
  assert (F4' : (r1 - r3) * (r2 - r4) * f4 + (r1 + r2 + r3 + r4) * ((r2 - r3) * f1) + (r3 * (r1 + r2 + r3) - r1 * r2) = 2 * rr ^ 2).
  { rewrite <- F4. unfold f1, Rdiv. ring. }
  clearbody f1 f2 f3 f4 rr P1 P2 P3 P4. clear D1 D2 D3 F1 F2 F3 F4.
  set (s0 := s) in *. set (K0 := K) in *. set (p1 := Pic hr') in *. set (p2 := Hy hp' (PI / 2)) in *.
  set (p3 := Hy hm' (PI / 2)) in *. set (p4 := Ec) in *. clearbody s0 K0 p1 p2 p3 p4.
  set (Wp := Ap rp) in *. set (Wm := Ap rm) in *. clearbody Wp Wm.
  auto_derive.
  - repeat split; eexists; eassumption.
  - rewrite (is_derive_unique (fun x : R => P1 x) _ _ D1'), (is_derive_unique (fun x : R => P2 x) _ _ D2'), (is_derive_unique (fun x : R => P3 x) _ _ D3'), (is_derive_unique (fun x : R => P4 x) _ _ D4).
    transitivity ((E / 2 * ((r1 + r2 + r3 + r4) * ((r2 - r3) * f1) + (r1 - r3) * (r2 - r4) * f4)
        - E / 2 * ((r2 - r3) * (r1 + r2 + r3 + r4) * p1 + (r1 - r3) * (r2 - r4) * p4) / K0
        + 2 * E * ((r2 - r3) * f1) - 2 * E * (r2 - r3) * p1 / K0
        - 2 / (rp - rm) * (Wp * ((r2 - r3) / ((r3 - rp) * (r2 - rp)) * f2) - Wp * (r2 - r3) / ((r3 - rp) * (r2 - rp)) * p2 / K0
             - Wm * ((r2 - r3) / ((r3 - rm) * (r2 - rm)) * f3) + Wm * (r2 - r3) / ((r3 - rm) * (r2 - rm)) * p3 / K0)) / (PI * s0 / (2 * K0))).
    { field. repeat split; nzs. }
    rewrite F2', F3'.
    replace ((r1 + r2 + r3 + r4) * ((r2 - r3) * f1) + (r1 - r3) * (r2 - r4) * f4)
      with (2 * rr ^ 2 - (r3 * (r1 + r2 + r3) - r1 * r2)) by lra.
    rewrite F1'. field. repeat split; nzs.
Qed.
Lemma phrh_derive q : rh q - rp <> 0 -> rh q - rm <> 0 -> is_derive phrh q ((Vph (rh q) - Gth_p) / ur).
Proof.
  intros R1 R2. pose proof PI_RGT_0. pose proof (s_pos _ _ _ _ _ Hs) as Sp. pose proof (K_pos _ _ _ _ Hm) as Kp. destruct rpm' as (S0 & S1 & S2 & S3).
  destruct radial_nz' as (N1 & N2 & N3 & N4 & N5). destruct h_cond' as [[H1 H2] H3].
  pose proof (hyper_along rp Hp2 q R1) as D2.
  pose proof (hyper_along rm Hm2 q R2) as D3.
  pose proof (third_kind_h rp Hp2 q Hp3 R1) as F2.
  pose proof (third_kind_h rm Hm2 q Hm3 R2) as F3.
  
  unfold phrh.
  set (P2 := fun q => Hy hp' (psi_r q)) in *. set (P3 := fun q => Hy hm' (psi_r q)) in *.
  change (is_derive (fun q => - 2 * a / ((rp - rm) * s)
  * (Bp rp * (r2 - r3) / ((r3 - rp) * (r2 - rp)) * (P2 q - q / PI * Hy hp' (PI / 2))
     - Bp rm * (r2 - r3) / ((r3 - rm) * (r2 - rm)) * (P3 q - q / PI * Hy hm' (PI / 2)))) q ((Vph (rh q) - Gth_p) / ur)).
  unfold P_Traj.Vph, Gth_p.
  set (x := sn2 psi_r q) in *.
  set (f2 := / (1 - hp' * x)). set (f3 := / (1 - hm' * x)).
  set (rr := rh q) in *. 
  assert (D2' : is_derive P2 q (K / PI * f2)) by exact D2.
  assert (D3' : is_derive P3 q (K / PI * f3)) by exact D3.
  assert (F2' : (r2 - r3) / ((r3 - rp) * (r2 - rp)) * f2 = 1 / (r3 - rp) - 1 / (rr - rp)) by exact F2.
  assert (F3' : (r2 - r3) / ((r3 - rm) * (r2 - rm)) * f3 = 1 / (r3 - rm) - 1 / (rr - rm)) by exact F3.
  clearbody f2 f3 rr P2 P3. clear D2 D3 F2 F3.
  set (s0 := s) in *. set (K0 := K) in *. set (p2 := Hy hp' (PI / 2)) in *.
  set (p3 := Hy hm' (PI / 2)) in *. clearbody s0 K0 p2 p3.
  set (Wp := Bp rp) in *. set (Wm := Bp rm) in *. clearbody Wp Wm.
  auto_derive.
  - repeat split; eexists; eassumption.
  - rewrite (is_derive_unique (fun x : R => P2 x) _ _ D2'), (is_derive_unique (fun x : R => P3 x) _ _ D3').
    transitivity ((- a / (rp - rm) * (Wp * ((r2 - r3) / ((r3 - rp) * (r2 - rp)) * f2) - Wp * (r2 - r3) / ((r3 - rp) * (r2 - rp)) * p2 / K0
             - Wm * ((r2 - r3) / ((r3 - rm) * (r2 - rm)) * f3) + Wm * (r2 - r3) / ((r3 - rm) * (r2 - rm)) * p3 / K0)) / (PI * s0 / (2 * K0))).
    { field. repeat split; nzs. }
    rewrite F2', F3'. field. repeat split; nzs.
Qed.

(** partial fractions of the radial right-hand sides *)
Lemma Delta_rpm' r : Delta a r = (r - rp) * (r - rm).
Proof. destruct rpm' as (_ & S1 & S2 & _). unfold Delta. rewrite <- S2. replace 2 with (rp + rm) by assumption. ring. Qed.
Lemma Vt_dt' r theta : r - rp <> 0 -> r - rm <> 0 ->
  4 * E + Vt r + a ^ 2 * E * cos theta ^ 2 = dt_dlambda a E L r theta.
Proof.
  intros N1 N2. destruct rpm' as (_ & S1 & S2 & S3). unfold dt_dlambda. rewrite Delta_rpm', sin_sq.
  unfold P_Traj.Vt, P_Traj.Ap. replace rm with (2 - rp) in * by lra. clear S1. symmetry in S2.
  set (b := rp) in *. clearbody b. set (ct := cos theta) in *. clearbody ct.
  field_simplify_eq; [ring [S2] | repeat split; assumption].
Qed.
Lemma Vph_dphi' r theta : r - rp <> 0 -> r - rm <> 0 ->
  Vph r + L / sin theta ^ 2 = dphi_dlambda a E L r theta.
Proof.
  intros N1 N2. destruct rpm' as (_ & S1 & S2 & S3). unfold dphi_dlambda. rewrite Delta_rpm'.
  unfold P_Traj.Vph, P_Traj.Bp. replace rm with (2 - rp) in * by lra. clear S1. symmetry in S2.
  set (b := rp) in *. clearbody b. set (u := L / sin theta ^ 2). clearbody u.
  field_simplify_eq; [ring [S2] | repeat split; assumption].
Qed.
End Radial.

(** ** the frequencies *)
Section FreqH.
Context {X : External R} (HX : special_spec X).
Context (a E L zm : R) (zp : option R) (beta a2s : R).
Local Notation A2 := (a ^ 2 * (1 - E ^ 2)).
Local Notation m := (kt2 A2 zm beta).
Context (Hz : 0 <= zm < 1) (HL : L <> 0) (Hb : 0 < beta) (Hm : 0 <= m < 1).
Context (Hbeta : beta = (A2 * (1 - zm) + L ^ 2) / (1 - zm)).
Context (Hk : ktheta_of (Some a) (Some zm) zp = Some (sqrt m)).
Context (Ha : a2sqrt_of (Some a) (Some E) (Some L) (Some zm) zp = Some a2s).
Local Notation K := (ellK m).
Local Notation Ec := (ellE (PI / 2) m).
Local Notation Pc := (ellPi zm (PI / 2) m).
Local Notation Gth := (Gth a E L zm beta a2s).
Context (r1 r2 r3 r4 : R).
Local Notation c := (1 - E ^ 2).
Local Notation mr := (kr2 r1 r2 r3 r4).
Context (Hs : 0 < sr2 c r1 r2 r3 r4) (Hmr : 0 <= mr < 1) (Ho : 0 < (r1 - r3) * (r2 - r3)).
Context (Haa : a^2 < 1).
Context (Hp2 : (r1 - rp a) * (r2 - rp a) < 0) (Hm2 : (r1 - rm a) * (r2 - rm a) < 0).
Context (Hp3 : r3 - rp a <> 0) (Hm3 : r3 - rm a <> 0).
Local Notation rrs := (Some r1, Some r2, Some r3, Some r4).
Local Notation Kr := (ellK mr).
Local Notation s := (sqrt (sr2 c r1 r2 r3 r4)).
Local Notation hp' := (hb r1 r2 r3 (rp a)).
Local Notation hm' := (hb r1 r2 r3 (rm a)).
Ltac nzs := repeat match goal with
  | |- _ /\ _ => split
  | |- _ * _ <> 0 => apply Rmult_integral_contrapositive; split
  end; try assumption; try lra.
Lemma gamma_run' v :
  2 * a2s * E * v * (K - Ec) / (PI * L) = Gth ->
  gamma_formula (Some a) (Some E) (Some L) rrs (Some zm, zp) (Some (PI * s / (2 * Kr))) (Some v)
  = Some (4 * E + Gth + Gth_t a E L r1 r2 r3 r4).
Proof.
  intros HG. pose proof PI_RGT_0. pose proof (s_pos _ _ _ _ _ Hs) as Sp. pose proof (K_pos _ _ _ _ Hmr) as Kp.
  destruct (rpm' a Haa) as (S0 & S1 & S2 & S3).
  destruct (radial_nz' a E r1 r2 r3 r4 Hs Ho Hp2 Hm2) as (N1 & N2 & N3 & N4 & N5).
  destruct (h_cond' a E r1 r2 r3 r4 Hs Ho Hp2 Hm2) as [[H1 H2] H3].
  unfold gamma_formula. rewrite Ha. change (nif (neqb (Some a) (nZ 0)) (nZ 0) (nsqrt (ndiv (Some zm) zp))) with (ktheta_of (Some a) (Some zm) zp).
  rewrite Hk, (kr_run E) by assumption. cnum. rewrite (kr_sq _ _ _ _ Hmr), (kt_sq _ _ _ _ Hz Hm), (csqrt_a' a Haa). fold (rp a) (rm a).
  rewrite !(ellipk_checked HX), !(ellipe_checked HX) by tauto. rewrite (csqrt_s _ _ _ _ _ Hs).
  rewrite (cdiv_some (r1 - r2) (r1 - r3)) by assumption. fold (hr r1 r2 r3).
  rewrite (cdiv_some _ ((r1 - r3) * (r2 - rp a))) by assumption. fold hp'.
  rewrite (cdiv_some _ ((r1 - r3) * (r2 - rm a))) by assumption. fold hm'.
  rewrite (C31_ellippi HX (hr r1 r2 r3)) by (assumption || tauto).
  pose proof (ellippi_hyper_run HX hp' mr H2 (proj2 Hmr)) as G3; pose proof (ellippi_hyper_run HX hm' mr H3 (proj2 Hmr)) as G4.
  cnum_in G3; cnum_in G4. rewrite G3, G4.
  rewrite !cdiv_some by nzs. f_equal. unfold Gth_t, Ap. rewrite HG.
  set (k0 := Kr) in *. set (s0 := s) in *. set (p1 := ellPi (hr r1 r2 r3) (PI / 2) mr).
  set (p2 := ellPi_hyper hp' mr (PI / 2)). set (p3 := ellPi_hyper hm' mr (PI / 2)).
  set (e0 := ellE (PI / 2) mr). clearbody k0 s0 p1 p2 p3 e0.
  set (b1 := rp a) in *. set (b2 := rm a) in *. clearbody b1 b2.
  replace (2 * (PI * s0 / (2 * k0)) / (PI * s0)) with (/ k0) by (field; lra).
  field. repeat split; nzs.
Qed.
Lemma phi_run' v :
  2 * v / (PI * (sqrt beta / Rabs L)) * Pc = L * Pc / K -> a <> 0 ->
  phi_freq_formula (Some a) (Some E) (Some L) rrs (Some zm, zp) (Some (PI * s / (2 * Kr))) (Some v)
  = Some (L * Pc / K + Gth_p a E L r1 r2 r3 r4).
Proof.
  intros HG Han. pose proof PI_RGT_0. pose proof (s_pos _ _ _ _ _ Hs) as Sp. pose proof (K_pos _ _ _ _ Hmr) as Kp.
  pose proof (b_pos beta Hb) as B. destruct (Rsgn_abs L HL) as (T1 & T2 & T3 & T4).
  destruct (rpm' a Haa) as (S0 & S1 & S2 & S3).
  destruct (radial_nz' a E r1 r2 r3 r4 Hs Ho Hp2 Hm2) as (N1 & N2 & N3 & N4 & N5).
  destruct (h_cond' a E r1 r2 r3 r4 Hs Ho Hp2 Hm2) as [[H1 H2] H3].
  pose proof Hk as Hk'. unfold ktheta_of in Hk'. cnum_in Hk'. rewrite Reqb_false in Hk' by assumption. cbn [nif] in Hk'.
  unfold phi_freq_formula. rewrite (e0zp_run a E L zm beta) by assumption. rewrite (kr_run E) by assumption. cnum.
  rewrite Hk', (kr_sq _ _ _ _ Hmr), (kt_sq _ _ _ _ Hz Hm), (csqrt_a' a Haa). fold (rp a) (rm a).
  rewrite !(ellipk_checked HX) by tauto. rewrite (csqrt_s _ _ _ _ _ Hs), (sqrt_e0zp L beta) by assumption.
  rewrite (cdiv_some _ ((r1 - r3) * (r2 - rp a))) by assumption. fold hp'.
  rewrite (cdiv_some _ ((r1 - r3) * (r2 - rm a))) by assumption. fold hm'.
  rewrite (C31_ellippi HX zm) by (assumption || tauto).
  pose proof (ellippi_hyper_run HX hp' mr H2 (proj2 Hmr)) as G3; pose proof (ellippi_hyper_run HX hm' mr H3 (proj2 Hmr)) as G4.
  cnum_in G3; cnum_in G4. rewrite G3, G4.
  assert (0 < sqrt beta / Rabs L) by (now apply Rdiv_lt_0_compat).
  rewrite !cdiv_some by nzs. f_equal. unfold Gth_p, Bp. rewrite HG.
  set (k0 := Kr) in *. set (s0 := s) in *. set (Z := L * Pc / K).
  set (p2 := ellPi_hyper hp' mr (PI / 2)). set (p3 := ellPi_hyper hm' mr (PI / 2)).
  clearbody k0 s0 p2 p3 Z.
  set (b1 := rp a) in *. set (b2 := rm a) in *. clearbody b1 b2.
  field. repeat split; nzs.
Qed.
End FreqH.

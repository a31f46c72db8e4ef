(** * The model's trajectory functions evaluate to the analysed real functions *)
From Coq Require Import Reals Lra Lia ZArith List String.
From Coquelicot Require Import Coquelicot.
From Verif Require Import Num Outcome External Checked ExternalSpec.
From Verif Require Import Model_Constants Model_Frequencies Model_Stable.
From Verif Require Import Spec SpecElliptic Elliptic Props_Elliptic P_Radial P_Polar.
Open Scope R_scope.

Section Run.
Context {X : External R} (HX : special_spec X).

(** Jacobi amplitude *)
Definition amX (m u : R) : R := snd (ellipj u m).
Lemma amX_spec m u : 0 <= m < 1 -> ellF (amX m u) m = u /\
  ellipj u m = (sin (amX m u), cos (amX m u), sqrt (1 - m * sin (amX m u) ^ 2), amX m u).
Proof.
  intros Hm. destruct (sp_ellipj X HX u m Hm) as (ph & H1 & H2).
  unfold amX. rewrite H2. simpl. auto.
Qed.
Lemma ellipj_checked m u : 0 <= m < 1 -> ellipj (Some u) (Some m) =
  (Some (sin (amX m u)), Some (cos (amX m u)), Some (sqrt (1 - m * sin (amX m u) ^ 2)), Some (amX m u)).
Proof.
  intros Hm. cbn [ellipj checked]. rewrite !Rleb_true by lra. cbn [andb].
  now rewrite (proj2 (amX_spec m u Hm)).
Qed.
Lemma amX_unique m u p : 0 <= m < 1 -> ellF p m = u -> amX m u = p.
Proof. intros Hm H. apply (ellF_inj m); [lra|]. rewrite (proj1 (amX_spec m u Hm)). now symmetry. Qed.
Lemma amX_derive m w k : 0 <= m < 1 -> forall q,
  is_derive (fun q => amX m (w * q + k)) q (w * sqrt (dl m (amX m (w * q + k)))).
Proof. intros Hm. apply (amplitude_derive m (amX m) w k); [lra|]. intros u. now apply amX_spec. Qed.

(** ** radial functions *)
Section Radial.
Context (a E L r1 r2 r3 r4 : R).
Local Notation c := (1 - E ^ 2).
Local Notation m := (kr2 r1 r2 r3 r4).
Context (Hs : 0 < sr2 c r1 r2 r3 r4) (Hm : 0 <= m < 1) (Ho : 0 < (r1 - r3) * (r2 - r3)).
Local Notation rrs := (Some r1, Some r2, Some r3, Some r4).
Local Notation K := (ellK m).
Local Notation s := (sqrt (sr2 c r1 r2 r3 r4)).
Definition psi_r (q : R) : R := amX m (K / PI * q + 0).
Lemma psi_r_derive q : is_derive psi_r q (K / PI * sqrt (dl m (psi_r q))).
Proof. exact (amX_derive m (K / PI) 0 Hm q). Qed.

Lemma kr_run : kr_of (Some r1) (Some r2) (Some r3) (Some r4) = Some (sqrt m).
Proof.
  destruct (rad_nz _ _ _ _ _ Hs Ho) as (N1 & N2 & N3 & N4).
  unfold kr_of. cnum. rewrite cdiv_some by (apply Rmult_integral_contrapositive; now split).
  apply csqrt_some. exact (proj1 Hm).
Qed.
Lemma kr_sq : sqrt m ^ 2 = m. Proof. apply pow2_sqrt. tauto. Qed.
Lemma K_pos : 0 < K. Proof. apply ellK_pos. tauto. Qed.
Lemma s_pos : 0 < s. Proof. now apply sqrt_lt_R0. Qed.
Lemma csqrt_s : csqrt (Some (c * (r1 - r3) * (r2 - r4))) = Some s.
Proof. apply csqrt_some, Rlt_le. exact Hs. Qed.
Lemma u_arg q : K * q / PI = K / PI * q + 0. Proof. pose proof PI_RGT_0. field. lra. Qed.
Lemma r_freq_run : r_freq_formula (Some E) rrs = Some (PI * s / (2 * K)).
Proof.
  pose proof K_pos. unfold r_freq_formula. rewrite kr_run. cnum. rewrite kr_sq.
  rewrite csqrt_s, (ellipk_checked HX) by tauto. now rewrite cdiv_some by lra.
Qed.
Lemma radial_r_run q : radial_r rrs (Some q) = Some (rho r1 r2 r3 psi_r q).
Proof.
  pose proof PI_RGT_0. pose proof (rden_nz _ _ _ _ _ Hs Ho _ (sin2_bound (psi_r q))) as D.
  unfold radial_r. rewrite kr_run. cnum. rewrite kr_sq.
  rewrite (ellipk_checked HX) by tauto. rewrite cdiv_some by lra.
  rewrite ellipj_checked by assumption. rewrite u_arg.
  fold (psi_r q). rewrite cdiv_some by exact D. reflexivity.
Qed.

Context (Ha : 0 <= a < 1).
Definition rp : R := 1 + sqrt (1 - a ^ 2).
Definition rm : R := 1 - sqrt (1 - a ^ 2).
Lemma rpm : 0 < sqrt (1 - a ^ 2) /\ rp + rm = 2 /\ rp * rm = a ^ 2 /\ rp - rm <> 0.
Proof.
  assert (0 < 1 - a^2) by nra. pose proof (sqrt_lt_R0 _ H). pose proof (pow2_sqrt _ (Rlt_le _ _ H)).
  unfold rp, rm. repeat split; lra.
Qed.
Lemma csqrt_a : csqrt (Some (1 - a ^ 2)) = Some (sqrt (1 - a ^ 2)).
Proof. apply csqrt_some. nra. Qed.
Context (Hp2 : 0 < (r1 - rp) * (r2 - rp)) (Hm2 : 0 < (r1 - rm) * (r2 - rm)).
Context (Hp3 : r3 - rp <> 0) (Hm3 : r3 - rm <> 0).
Local Notation hr' := (hr r1 r2 r3).
Local Notation hp' := (hb r1 r2 r3 rp).
Local Notation hm' := (hb r1 r2 r3 rm).
Local Notation Pic n := (ellPi n (PI / 2) m).
Local Notation Ec := (ellE (PI / 2) m).
Definition Ap (b : R) : R := (4 * E - a * L) * b - 2 * a ^ 2 * E.
Definition Bp (b : R) : R := 2 * E * b - a * L.

Lemma radial_nz : (r1 - r3) * (r2 - rp) <> 0 /\ (r1 - r3) * (r2 - rm) <> 0 /\ r1 - r3 <> 0 /\
  r2 - rp <> 0 /\ r2 - rm <> 0.
Proof.
  destruct (rad_nz _ _ _ _ _ Hs Ho) as (N1 & _).
  destruct (hb_nz _ _ _ Hp2) as (P2 & _). destruct (hb_nz _ _ _ Hm2) as (M2 & _).
  repeat split; try assumption; apply Rmult_integral_contrapositive; now split.
Qed.
Definition h_cond := (hr_lt1 _ _ _ _ _ Hs Ho, hb_lt1 _ _ _ _ _ Hs Ho rp Hp2, hb_lt1 _ _ _ _ _ Hs Ho rm Hm2).

(** value of t_r, phi_r *)
Definition tr (q : R) : R :=
  2 / s * (E / 2 * ((r2 - r3) * (r1 + r2 + r3 + r4) * (ellPi hr' (psi_r q) m - q / PI * Pic hr')
    + (r1 - r3) * (r2 - r4) * (second r1 r2 r3 r4 psi_r q - q / PI * Ec))
  + 2 * E * (r2 - r3) * (ellPi hr' (psi_r q) m - q / PI * Pic hr')
  - 2 / (rp - rm) * (Ap rp * (r2 - r3) / ((r3 - rp) * (r2 - rp)) * (ellPi hp' (psi_r q) m - q / PI * Pic hp')
     - Ap rm * (r2 - r3) / ((r3 - rm) * (r2 - rm)) * (ellPi hm' (psi_r q) m - q / PI * Pic hm'))).
Definition phr (q : R) : R :=
  - 2 * a / ((rp - rm) * s)
  * (Bp rp * (r2 - r3) / ((r3 - rp) * (r2 - rp)) * (ellPi hp' (psi_r q) m - q / PI * Pic hp')
     - Bp rm * (r2 - r3) / ((r3 - rm) * (r2 - rm)) * (ellPi hm' (psi_r q) m - q / PI * Pic hm')).

Ltac nzs := repeat match goal with
  | |- _ /\ _ => split
  | |- _ * _ <> 0 => apply Rmult_integral_contrapositive; split
  end; try assumption; try lra.

Lemma radial_t_run q : radial_t (Some a) (Some E) (Some L) rrs (Some q) = Some (tr q).
Proof.
  pose proof PI_RGT_0. pose proof s_pos as Sp. pose proof K_pos as Kp. destruct rpm as (S0 & S1 & S2 & S3).
  destruct radial_nz as (N1 & N2 & N3 & N4 & N5). destruct h_cond as [[H1 H2] H3].
  unfold radial_t. rewrite kr_run. cnum. rewrite kr_sq, csqrt_a. fold rp rm.
  rewrite (ellipk_checked HX) by tauto. rewrite csqrt_s.
  rewrite (cdiv_some (r1 - r2) (r1 - r3)) by assumption. fold hr'.
  rewrite (cdiv_some _ ((r1 - r3) * (r2 - rp))) by assumption. fold (hb r1 r2 r3 rp).
  rewrite (cdiv_some _ ((r1 - r3) * (r2 - rm))) by assumption. fold (hb r1 r2 r3 rm).
  rewrite (cdiv_some (K * q) PI) by lra.
  rewrite ellipj_checked by assumption. rewrite u_arg. fold (psi_r q).
  rewrite !(C31_ellippiinc HX), !(C31_ellippi HX), (C31_ellipeinc HX), (ellipe_checked HX) by (assumption || tauto).
  rewrite csqrt_some by (apply Rlt_le, (dl_pos m (psi_r q)); tauto).
  assert (D : hr' * sin (psi_r q) ^ 2 - 1 <> 0).
  { pose proof (hden hr' _ H1 (sin2_bound (psi_r q))). lra. }
  rewrite !cdiv_some by nzs. reflexivity.
Qed.
Lemma radial_phi_run q : radial_phi (Some a) (Some E) (Some L) rrs (Some q) = Some (phr q).
Proof.
  pose proof PI_RGT_0. pose proof s_pos as Sp. pose proof K_pos as Kp. destruct rpm as (S0 & S1 & S2 & S3).
  destruct radial_nz as (N1 & N2 & N3 & N4 & N5). destruct h_cond as [[H1 H2] H3].
  unfold radial_phi. rewrite kr_run. cnum. rewrite kr_sq, csqrt_a. fold rp rm.
  rewrite (ellipk_checked HX) by tauto. rewrite csqrt_s.
  rewrite (cdiv_some _ ((r1 - r3) * (r2 - rp))) by assumption. fold (hb r1 r2 r3 rp).
  rewrite (cdiv_some _ ((r1 - r3) * (r2 - rm))) by assumption. fold (hb r1 r2 r3 rm).
  rewrite (cdiv_some (K * q) PI) by lra.
  rewrite ellipj_checked by assumption. rewrite u_arg. fold (psi_r q).
  rewrite !(C31_ellippiinc HX), !(C31_ellippi HX) by (assumption || tauto).
  rewrite !cdiv_some by nzs. reflexivity.
Qed.

(** averages and derivatives *)
Definition Vt (r : R) : R := E * r ^ 2 + 2 * E * r + 2 / (rp - rm) * (Ap rp / (r - rp) - Ap rm / (r - rm)).
Definition Gt : R :=
  (E / 2 * ((r3 * (r1 + r2 + r3) - r1 * r2) * K + (r2 - r3) * (r1 + r2 + r3 + r4) * Pic hr'
            + (r1 - r3) * (r2 - r4) * Ec)
   + 2 * E * (r3 * K + (r2 - r3) * Pic hr')
   + 2 / (rp - rm) * (Ap rp / (r3 - rp) * (K - (r2 - r3) / (r2 - rp) * Pic hp')
                      - Ap rm / (r3 - rm) * (K - (r2 - r3) / (r2 - rm) * Pic hm'))) / K.
Definition Vph (r : R) : R := a / (rp - rm) * (Bp rp / (r - rp) - Bp rm / (r - rm)).
Definition Gph : R :=
  a / (rp - rm) * (Bp rp / (r3 - rp) * (K - (r2 - r3) / (r2 - rp) * Pic hp')
                   - Bp rm / (r3 - rm) * (K - (r2 - r3) / (r2 - rm) * Pic hm')) / K.
Local Notation ur := (PI * s / (2 * K)).
Local Notation rh := (rho r1 r2 r3 psi_r).

Lemma rho_nz q : rh q - rp <> 0 /\ rh q - rm <> 0.
Proof. split; eapply rho_b; eassumption. Qed.

Lemma tr_derive q : is_derive tr q ((Vt (rh q) - Gt) / ur).
Proof.
  pose proof PI_RGT_0. pose proof s_pos as Sp. pose proof K_pos as Kp. destruct rpm as (S0 & S1 & S2 & S3).
  destruct radial_nz as (N1 & N2 & N3 & N4 & N5). destruct h_cond as [[H1 H2] H3].
  pose proof (ellPi_along _ _ _ _ Hm _ _ psi_r_derive hr' q H1) as D1.
  pose proof (ellPi_along _ _ _ _ Hm _ _ psi_r_derive hp' q H2) as D2.
  pose proof (ellPi_along _ _ _ _ Hm _ _ psi_r_derive hm' q H3) as D3.
  pose proof (second_derive c _ _ _ _ Hs Hm Ho _ _ psi_r_derive q) as D4.
  pose proof (third_kind_r _ _ _ _ _ Hs Ho psi_r q) as F1.
  pose proof (third_kind_b _ _ _ _ _ Hs Ho psi_r rp Hp2 Hp3 q) as F2.
  pose proof (third_kind_b _ _ _ _ _ Hs Ho psi_r rm Hm2 Hm3 q) as F3.
  pose proof (second_r _ _ _ _ _ Hs Ho psi_r q) as F4.
  destruct (rho_nz q) as [R1 R2].
  unfold tr.
  set (P1 := fun q => ellPi hr' (psi_r q) m) in *. set (P2 := fun q => ellPi hp' (psi_r q) m) in *.
  set (P3 := fun q => ellPi hm' (psi_r q) m) in *. set (P4 := second r1 r2 r3 r4 psi_r) in *.
  change (is_derive (fun q =>   2 / s * (E / 2 * ((r2 - r3) * (r1 + r2 + r3 + r4) * (P1 q - q / PI * Pic hr')
    + (r1 - r3) * (r2 - r4) * (P4 q - q / PI * Ec))
  + 2 * E * (r2 - r3) * (P1 q - q / PI * Pic hr')
  - 2 / (rp - rm) * (Ap rp * (r2 - r3) / ((r3 - rp) * (r2 - rp)) * (P2 q - q / PI * Pic hp')
     - Ap rm * (r2 - r3) / ((r3 - rm) * (r2 - rm)) * (P3 q - q / PI * Pic hm')))) q ((Vt (rh q) - Gt) / ur)).
  unfold Vt, Gt.
  set (x := sn2 psi_r q) in *.
  pose proof (hden _ x H1 (sn2_bound psi_r q)) as Z1.
  pose proof (hden _ x H2 (sn2_bound psi_r q)) as Z2.
  pose proof (hden _ x H3 (sn2_bound psi_r q)) as Z3.
  set (f1 := / (1 - hr' * x)). set (f2 := / (1 - hp' * x)). set (f3 := / (1 - hm' * x)).
  set (rr := rh q) in *. 
  set (f4 := second' r1 r2 r3 r4 x) in *.
  assert (D1' : is_derive P1 q (K / PI * f1)) by exact D1.
  assert (D2' : is_derive P2 q (K / PI * f2)) by exact D2.
  assert (D3' : is_derive P3 q (K / PI * f3)) by exact D3.
  assert (F1' : (r2 - r3) * f1 = rr - r3) by exact F1.
  assert (F2' : (r2 - r3) / ((r3 - rp) * (r2 - rp)) * f2 = 1 / (r3 - rp) - 1 / (rr - rp)) by exact F2.
  assert (F3' : (r2 - r3) / ((r3 - rm) * (r2 - rm)) * f3 = 1 / (r3 - rm) - 1 / (rr - rm)) by exact F3.
  assert (F4' : (r1 - r3) * (r2 - r4) * f4 + (r1 + r2 + r3 + r4) * ((r2 - r3) * f1) + (r3 * (r1 + r2 + r3) - r1 * r2) = 2 * rr ^ 2).
  { rewrite <- F4. unfold f1, Rdiv. ring. }
  clearbody f1 f2 f3 f4 rr P1 P2 P3 P4. clear D1 D2 D3 F1 F2 F3 F4.
  set (s0 := s) in *. set (K0 := K) in *. set (p1 := Pic hr') in *. set (p2 := Pic hp') in *.
  set (p3 := Pic hm') in *. set (p4 := Ec) in *. clearbody s0 K0 p1 p2 p3 p4.
  set (Wp := Ap rp) in *. set (Wm := Ap rm) in *. clearbody Wp Wm.
  auto_derive.
  - repeat split; eexists; eassumption.
  - rewrite (is_derive_unique (fun x : R => P1 x) _ _ D1'), (is_derive_unique (fun x : R => P2 x) _ _ D2'), (is_derive_unique (fun x : R => P3 x) _ _ D3'), (is_derive_unique (fun x : R => P4 x) _ _ D4).
    transitivity ((E / 2 * ((r1 + r2 + r3 + r4) * ((r2 - r3) * f1) + (r1 - r3) * (r2 - r4) * f4)
        - E / 2 * ((r2 - r3) * (r1 + r2 + r3 + r4) * p1 + (r1 - r3) * (r2 - r4) * p4) / K0
        + 2 * E * ((r2 - r3) * f1) - 2 * E * (r2 - r3) * p1 / K0
        - 2 / (rp - rm) * (Wp * ((r2 - r3) / ((r3 - rp) * (r2 - rp)) * f2) - Wp * (r2 - r3) / ((r3 - rp) * (r2 - rp)) * p2 / K0
             - Wm * ((r2 - r3) / ((r3 - rm) * (r2 - rm)) * f3) + Wm * (r2 - r3) / ((r3 - rm) * (r2 - rm)) * p3 / K0)) / (PI * s0 / (2 * K0))).
    { field. repeat split; nzs. }
    rewrite F2', F3'.
    replace ((r1 + r2 + r3 + r4) * ((r2 - r3) * f1) + (r1 - r3) * (r2 - r4) * f4)
      with (2 * rr ^ 2 - (r3 * (r1 + r2 + r3) - r1 * r2)) by lra.
    rewrite F1'. field. repeat split; nzs.
Qed.
Lemma phr_derive q : is_derive phr q ((Vph (rh q) - Gph) / ur).
Proof.
  pose proof PI_RGT_0. pose proof s_pos as Sp. pose proof K_pos as Kp. destruct rpm as (S0 & S1 & S2 & S3).
  destruct radial_nz as (N1 & N2 & N3 & N4 & N5). destruct h_cond as [[H1 H2] H3].
  pose proof (ellPi_along _ _ _ _ Hm _ _ psi_r_derive hp' q H2) as D2.
  pose proof (ellPi_along _ _ _ _ Hm _ _ psi_r_derive hm' q H3) as D3.
  pose proof (third_kind_b _ _ _ _ _ Hs Ho psi_r rp Hp2 Hp3 q) as F2.
  pose proof (third_kind_b _ _ _ _ _ Hs Ho psi_r rm Hm2 Hm3 q) as F3.
  destruct (rho_nz q) as [R1 R2].
  unfold phr.
  set (P2 := fun q => ellPi hp' (psi_r q) m) in *. set (P3 := fun q => ellPi hm' (psi_r q) m) in *.
  change (is_derive (fun q => - 2 * a / ((rp - rm) * s)
  * (Bp rp * (r2 - r3) / ((r3 - rp) * (r2 - rp)) * (P2 q - q / PI * Pic hp')
     - Bp rm * (r2 - r3) / ((r3 - rm) * (r2 - rm)) * (P3 q - q / PI * Pic hm'))) q ((Vph (rh q) - Gph) / ur)).
  unfold Vph, Gph.
  set (x := sn2 psi_r q) in *.
  set (f2 := / (1 - hp' * x)). set (f3 := / (1 - hm' * x)).
  set (rr := rh q) in *. 
  assert (D2' : is_derive P2 q (K / PI * f2)) by exact D2.
  assert (D3' : is_derive P3 q (K / PI * f3)) by exact D3.
  assert (F2' : (r2 - r3) / ((r3 - rp) * (r2 - rp)) * f2 = 1 / (r3 - rp) - 1 / (rr - rp)) by exact F2.
  assert (F3' : (r2 - r3) / ((r3 - rm) * (r2 - rm)) * f3 = 1 / (r3 - rm) - 1 / (rr - rm)) by exact F3.
  clearbody f2 f3 rr P2 P3. clear D2 D3 F2 F3.
  set (s0 := s) in *. set (K0 := K) in *. set (p2 := Pic hp') in *.
  set (p3 := Pic hm') in *. clearbody s0 K0 p2 p3.
  set (Wp := Bp rp) in *. set (Wm := Bp rm) in *. clearbody Wp Wm.
  auto_derive.
  - repeat split; eexists; eassumption.
  - rewrite (is_derive_unique (fun x : R => P2 x) _ _ D2'), (is_derive_unique (fun x : R => P3 x) _ _ D3').
    transitivity ((- a / (rp - rm) * (Wp * ((r2 - r3) / ((r3 - rp) * (r2 - rp)) * f2) - Wp * (r2 - r3) / ((r3 - rp) * (r2 - rp)) * p2 / K0
             - Wm * ((r2 - r3) / ((r3 - rm) * (r2 - rm)) * f3) + Wm * (r2 - r3) / ((r3 - rm) * (r2 - rm)) * p3 / K0)) / (PI * s0 / (2 * K0))).
    { field. repeat split; nzs. }
    rewrite F2', F3'. field. repeat split; nzs.
Qed.

(** partial fractions of the radial right-hand sides *)
Lemma Delta_rpm r : Delta a r = (r - rp) * (r - rm).
Proof. destruct rpm as (_ & S1 & S2 & _). unfold Delta. rewrite <- S2. replace 2 with (rp + rm) by assumption. ring. Qed.
Lemma Vt_dt r theta : r - rp <> 0 -> r - rm <> 0 ->
  4 * E + Vt r + a ^ 2 * E * cos theta ^ 2 = dt_dlambda a E L r theta.
Proof.
  intros N1 N2. destruct rpm as (_ & S1 & S2 & S3). unfold dt_dlambda. rewrite Delta_rpm, sin_sq.
  unfold Vt, Ap. replace rm with (2 - rp) in * by lra. clear S1. symmetry in S2.
  set (b := rp) in *. clearbody b. set (ct := cos theta) in *. clearbody ct.
  field_simplify_eq; [ring [S2] | repeat split; assumption].
Qed.
Lemma Vph_dphi r theta : r - rp <> 0 -> r - rm <> 0 ->
  Vph r + L / sin theta ^ 2 = dphi_dlambda a E L r theta.
Proof.
  intros N1 N2. destruct rpm as (_ & S1 & S2 & S3). unfold dphi_dlambda. rewrite Delta_rpm.
  unfold Vph, Bp. replace rm with (2 - rp) in * by lra. clear S1. symmetry in S2.
  set (b := rp) in *. clearbody b. set (u := L / sin theta ^ 2). clearbody u.
  field_simplify_eq; [ring [S2] | repeat split; assumption].
Qed.

End Radial.
End Run.

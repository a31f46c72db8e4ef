(** * Analysis of the radial solution (pure reals) *)
From Coq Require Import Reals Lra Lia ZArith.
From Coquelicot Require Import Coquelicot.
From Verif Require Import SpecElliptic Elliptic.
Open Scope R_scope.

Lemma convex_pos A B x : 0 < A -> 0 < B -> 0 <= x <= 1 -> 0 < A * (1 - x) + B * x.
Proof.
  intros HA HB Hx. assert (0 <= A * (1 - x)) by (apply Rmult_le_pos; lra).
  destruct (Req_dec x 0) as [->|N]; [lra|].
  assert (0 < B * x) by (apply Rmult_lt_0_compat; lra). lra.
Qed.
Section Radial.
Context (c r1 r2 r3 r4 : R).
Definition kr2 : R := (r1 - r2) * (r3 - r4) / ((r1 - r3) * (r2 - r4)).
Definition sr2 : R := c * (r1 - r3) * (r2 - r4).
Definition hr : R := (r1 - r2) / (r1 - r3).
Context (Hs : 0 < sr2) (Hm : 0 <= kr2 < 1) (Ho : 0 < (r1 - r3) * (r2 - r3)).
Local Notation m := kr2.
Local Notation h := hr.

Lemma rad_nz : r1 - r3 <> 0 /\ r2 - r4 <> 0 /\ r2 - r3 <> 0 /\ c <> 0.
Proof. unfold sr2 in Hs. repeat split; intros K; rewrite ?K in *; lra. Qed.
Definition rden (x : R) : R := (r1 - r2) * x - (r1 - r3).
Lemma rden_nz x : 0 <= x <= 1 -> rden x <> 0.
Proof.
  intros Hx K. unfold rden in K. destruct rad_nz as (N1 & N2 & N3 & N4).
  assert (E1 : (r1 - r3) * (1 - x) + (r2 - r3) * x = 0) by lra.
  destruct (Rlt_dec 0 (r1 - r3)) as [P|P].
  - assert (0 < r2 - r3) by (apply (Rmult_lt_reg_l (r1 - r3)); lra).
    pose proof (convex_pos _ _ x P H Hx). lra.
  - assert (r1 - r3 < 0) by lra.
    assert (r2 - r3 < 0). { apply Ropp_lt_cancel. rewrite Ropp_0. apply (Rmult_lt_reg_l (- (r1 - r3))); lra. }
    pose proof (convex_pos (- (r1 - r3)) (- (r2 - r3)) x ltac:(lra) ltac:(lra) Hx). lra.
Qed.
Lemma hr_lt1 : h < 1.
Proof.
  destruct rad_nz as (N1 & _). unfold hr.
  cut (0 < 1 - (r1 - r2) / (r1 - r3)); [lra|].
  replace (1 - (r1 - r2) / (r1 - r3)) with ((r1 - r3) * (r2 - r3) / (r1 - r3)^2) by (field; assumption).
  apply Rdiv_lt_0_compat; [assumption|]. apply pow2_gt_0. assumption.
Qed.
Lemma hden n x : n < 1 -> 0 <= x <= 1 -> 0 < 1 - n * x.
Proof. intros Hn Hx. pose proof (convex_pos 1 (1 - n) x ltac:(lra) ltac:(lra) Hx). lra. Qed.

(** the code's r as a function of x = sn^2 *)
Definition rx (x : R) : R := (r3 * (r1 - r2) * x - r2 * (r1 - r3)) / ((r1 - r2) * x - (r1 - r3)).
Lemma rx_alt x : 0 <= x <= 1 -> rx x = r3 + (r2 - r3) / (1 - h * x).
Proof.
  intros Hx. pose proof (rden_nz x Hx) as D. destruct rad_nz as (N1 & N2 & N3 & _).
  pose proof (hden h x hr_lt1 Hx). unfold rx, rden, hr in *. field.
  repeat split; lra.
Qed.
Lemma rx_bounds x : r2 <= r1 -> 0 <= x <= 1 -> r2 <= rx x <= r1.
Proof.
  intros H12 Hx. rewrite rx_alt by assumption. destruct rad_nz as (N1 & N2 & N3 & _).
  pose proof (hden h x hr_lt1 Hx) as Dp.
  assert (A : r3 + (r2 - r3) / (1 - h * x) - r2 = (r2 - r3) * h * x / (1 - h * x)) by (field; lra).
  assert (B : r1 - (r3 + (r2 - r3) / (1 - h * x)) = (r1 - r2) * (1 - x) / (1 - h * x)).
  { unfold hr in *. field. repeat split; try assumption; intros K; apply (rden_nz x Hx); unfold rden; lra. }
  assert (0 <= (r2 - r3) * h * x / (1 - h * x)).
  { apply Rdiv_le_0_compat; [|assumption].
    replace ((r2 - r3) * h * x) with ((r1 - r3) * (r2 - r3) * ((r1 - r2) / (r1 - r3)^2) * x)
      by (unfold hr; field; assumption).
    apply Rmult_le_pos; [|lra]. apply Rmult_le_pos; [lra|].
    apply Rdiv_le_0_compat; [lra | now apply pow2_gt_0]. }
  assert (0 <= (r1 - r2) * (1 - x) / (1 - h * x)).
  { apply Rdiv_le_0_compat; [|assumption]. apply Rmult_le_pos; lra. }
  lra.
Qed.

Context (w : R) (psi : R -> R)
  (Hpsi : forall q, is_derive psi q (w * sqrt (dl m (psi q)))).
Definition sn2 (q : R) : R := sin (psi q) ^ 2.
Lemma sn2_bound q : 0 <= sn2 q <= 1. Proof. apply sin2_bound. Qed.
Definition rho (q : R) : R := rx (sn2 q).
Definition rho' (q : R) : R :=
  w * (2 * (r1 - r2) * (r1 - r3) * (r2 - r3) * (sin (psi q) * cos (psi q) * sqrt (dl m (psi q))) / rden (sn2 q) ^ 2).
Lemma rho_derive q : is_derive rho q (rho' q).
Proof.
  pose proof (rden_nz _ (sn2_bound q)) as D. unfold rho, rho'.
  unfold rx, sn2, rden in *.
  replace (w * (2 * (r1 - r2) * (r1 - r3) * (r2 - r3) *
      (sin (psi q) * cos (psi q) * sqrt (dl m (psi q))) /
      ((r1 - r2) * sin (psi q) ^ 2 - (r1 - r3)) ^ 2))
   with ((w * sqrt (dl m (psi q))) * (2 * (r1 - r2) * (r1 - r3) * (r2 - r3) *
      (sin (psi q) * cos (psi q)) / ((r1 - r2) * sin (psi q) ^ 2 - (r1 - r3)) ^ 2)) by (field; assumption).
  apply (is_derive_comp (fun y => (r3 * (r1 - r2) * sin y ^ 2 - r2 * (r1 - r3)) / ((r1 - r2) * sin y ^ 2 - (r1 - r3))) psi);
    [|apply Hpsi].
  auto_derive.
  - simpl in *. lra.
  - field. assumption.
Qed.
Lemma cos2_sin2 y : cos y ^ 2 = 1 - sin y ^ 2.
Proof. pose proof (sin2_cos2 y). unfold Rsqr in *. simpl. lra. Qed.
Lemma rho_ode q v : (v * w) ^ 2 = sr2 / 4 ->
  (v * rho' q) ^ 2 = c * (r1 - rho q) * (rho q - r2) * (rho q - r3) * (rho q - r4).
Proof.
  intros Hv. unfold rho', rho. pose proof (sn2_bound q) as Hx. pose proof (rden_nz _ Hx) as D.
  destruct rad_nz as (N1 & N2 & N3 & N4).
  pose proof (pow2_sqrt (dl m (psi q)) (Rlt_le _ _ (dl_pos m (psi q) (proj2 Hm)))) as Q.
  set (d := sqrt (dl m (psi q))) in *.
  transitivity ((v * w)^2 * (4 * ((r1 - r2) * (r1 - r3) * (r2 - r3))^2 * (sin (psi q) ^2 * cos (psi q)^2 * d^2) / rden (sn2 q) ^ 4)).
  { field. assumption. }
  rewrite Hv, Q, cos2_sin2. unfold dl. fold (sn2 q). set (x := sn2 q) in *.
  unfold rx, rden, sr2, kr2 in *. field. repeat split; assumption.
Qed.

(** integrals of the third kind along the orbit *)
Lemma ellPi_along n q : n < 1 -> is_derive (fun q => ellPi n (psi q) m) q (w / (1 - n * sn2 q)).
Proof.
  intros Hn. pose proof (sqrt_dl_pos m (psi q) (proj2 Hm)). pose proof (dl_pos n (psi q) Hn).
  replace (w / (1 - n * sn2 q)) with ((w * sqrt (dl m (psi q))) * hP n m (psi q)).
  - apply (is_derive_comp (fun y => ellPi n y m) psi); [apply ellPi_derive; tauto | apply Hpsi].
  - unfold hP. change (1 - n * sn2 q) with (dl n (psi q)). field. lra.
Qed.
Lemma third_kind_r q : (r2 - r3) / (1 - h * sn2 q) = rho q - r3.
Proof. unfold rho. rewrite rx_alt by apply sn2_bound. ring. Qed.
Section Horizon.
Context (b : R) (Hb2 : 0 < (r1 - b) * (r2 - b)) (Hb3 : r3 - b <> 0).
Definition hb : R := (r1 - r2) * (r3 - b) / ((r1 - r3) * (r2 - b)).
Lemma hb_nz : r2 - b <> 0 /\ r1 - b <> 0.
Proof. split; intros K; rewrite K in *; lra. Qed.
Lemma hb_lt1 : hb < 1.
Proof.
  destruct rad_nz as (N1 & _). destruct hb_nz as (B2 & B1). unfold hb.
  cut (0 < 1 - (r1 - r2) * (r3 - b) / ((r1 - r3) * (r2 - b))); [lra|].
  replace (1 - (r1 - r2) * (r3 - b) / ((r1 - r3) * (r2 - b)))
    with (((r1 - r3) * (r2 - r3)) * ((r1 - b) * (r2 - b)) / ((r1 - r3) * (r2 - b))^2) by (field; split; assumption).
  apply Rdiv_lt_0_compat; [now apply Rmult_lt_0_compat|].
  apply pow2_gt_0. apply Rmult_integral_contrapositive. split; assumption.
Qed.
Lemma rho_b q : rho q - b <> 0 .
Proof.
  unfold rho. pose proof (sn2_bound q) as Hx. rewrite rx_alt by assumption.
  destruct rad_nz as (N1 & _). destruct hb_nz as (B2 & B1).
  pose proof (hden h _ hr_lt1 Hx). pose proof (hden hb _ hb_lt1 Hx).
  replace (r3 + (r2 - r3) / (1 - h * sn2 q) - b) with ((r2 - b) * (1 - hb * sn2 q) / (1 - h * sn2 q)).
  - apply Rmult_integral_contrapositive. split; [|apply Rinv_neq_0_compat; lra].
    apply Rmult_integral_contrapositive. split; lra.
  - unfold hb, hr in *. field. repeat split; try assumption; intros K; apply (rden_nz _ Hx); unfold rden; lra.
Qed.
Lemma third_kind_b q :
  (r2 - r3) / ((r3 - b) * (r2 - b)) / (1 - hb * sn2 q) = 1 / (r3 - b) - 1 / (rho q - b).
Proof.
  pose proof (rho_b q) as Hr. unfold rho in *. pose proof (sn2_bound q) as Hx. rewrite rx_alt in * by assumption.
  destruct rad_nz as (N1 & _). destruct hb_nz as (B2 & B1).
  pose proof (hden h _ hr_lt1 Hx) as D1. pose proof (hden hb _ hb_lt1 Hx) as D2.
  set (x := sn2 q) in *.
  assert (K : r3 + (r2 - r3) / (1 - h * x) - b = (r2 - b) * (1 - hb * x) / (1 - h * x)).
  { unfold hb, hr in *. field. repeat split; try assumption; intros K; apply (rden_nz _ Hx); unfold rden; lra. }
  rewrite K.
  apply (Rmult_eq_reg_r ((r3 - b) * (r2 - b) * (1 - hb * x))).
  - transitivity (r2 - r3); [field; repeat split; lra|].
    transitivity ((r2 - b) * (1 - hb * x) - (1 - h * x) * (r3 - b)); [|field; repeat split; lra].
    unfold hb, hr. field. split; assumption.
  - repeat (apply Rmult_integral_contrapositive; split); lra.
Qed.
End Horizon.
(** the integral of the second kind, with its algebraic companion *)
Definition second (q : R) : R :=
  ellE (psi q) m + h * sin (psi q) * cos (psi q) * sqrt (1 - m * sin (psi q) ^ 2) / (h * sin (psi q) ^ 2 - 1).
Definition second' (x : R) : R :=
  (1 - m * x) + h * ((1 - 2 * x) * (1 - m * x) / (h * x - 1) - m * x * (1 - x) / (h * x - 1)
     - 2 * h * x * (1 - x) * (1 - m * x) / (h * x - 1) ^ 2).
Lemma second_derive q : is_derive second q (w * second' (sn2 q)).
Proof.
  pose proof (hden h _ hr_lt1 (sn2_bound q)) as D1. unfold sn2 in D1.
  pose proof (dl_pos m (psi q) (proj2 Hm)) as D2.
  pose proof (sqrt_dl_pos m (psi q) (proj2 Hm)) as D3.
  pose proof (pow2_sqrt (dl m (psi q)) (Rlt_le _ _ D2)) as Q.
  unfold second. set (d := sqrt (dl m (psi q))) in *.
  replace (w * second' (sn2 q)) with ((w * d) * (d + h * ((1 - 2 * sn2 q) * d / (h * sn2 q - 1) - m * sn2 q * (1 - sn2 q) / d / (h * sn2 q - 1)
     - 2 * h * sn2 q * (1 - sn2 q) * d / (h * sn2 q - 1) ^ 2))).
  2: { unfold second'. replace (1 - m * sn2 q) with (d^2) by (rewrite Q; reflexivity). field. unfold sn2 in *. split; lra. }
  apply (is_derive_comp (fun y => ellE y m + h * sin y * cos y * sqrt (1 - m * sin y ^ 2) / (h * sin y ^ 2 - 1)) psi); [|apply Hpsi].
  apply (is_derive_plus (V := R_NormedModule)).
  - replace d with (hE m (psi q)) by reflexivity. apply ellE_derive. tauto.
  - unfold sn2. auto_derive.
    + rewrite dl_auto. simpl in *. repeat split; lra.
    + rewrite dl_auto. fold d. pose proof (cos2_sin2 (psi q)) as C2.
      set (sn := sin (psi q)) in *. set (cn := cos (psi q)) in *. clearbody sn cn d.
      field_simplify_eq; [|simpl in *; repeat split; lra].
      ring [C2].
Qed.
Lemma second_r q :
  (r1 - r3) * (r2 - r4) * second' (sn2 q) + (r2 - r3) * (r1 + r2 + r3 + r4) / (1 - h * sn2 q)
  + (r3 * (r1 + r2 + r3) - r1 * r2) = 2 * rho q ^ 2.
Proof.
  unfold rho. pose proof (sn2_bound q) as Hx. rewrite rx_alt by assumption.
  destruct rad_nz as (N1 & N2 & N3 & N4). pose proof (rden_nz _ Hx) as D. pose proof (hden h _ hr_lt1 Hx) as D1.
  set (x := sn2 q) in *. unfold second', hr, kr2, rden in *. field. repeat split; try assumption; lra.
Qed.
End Radial.

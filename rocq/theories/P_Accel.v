(** * Second derivatives of the radial and polar solutions (pure reals) *)
From Coq Require Import Reals Lra Lia ZArith.
From Coquelicot Require Import Coquelicot.
From Verif Require Import SpecElliptic Elliptic P_Radial P_Polar.
Open Scope R_scope.

Section Radial.
Context (c r1 r2 r3 r4 : R) (Hs : 0 < sr2 c r1 r2 r3 r4) (Hm : 0 <= kr2 r1 r2 r3 r4 < 1) (Ho : 0 < (r1 - r3) * (r2 - r3)).
Local Notation m := (kr2 r1 r2 r3 r4).
Context (w : R) (psi : R -> R) (Hpsi : forall q, is_derive psi q (w * sqrt (dl m (psi q)))).
Local Notation C := (2 * (r1 - r2) * (r1 - r3) * (r2 - r3)).
Definition rho'' (q : R) : R :=
  let x := sn2 psi q in let d := rden r1 r2 r3 x in
  w^2 * C * (((1 - 2 * x) / d^2 - 4 * (r1 - r2) * (x * (1 - x)) / d^3) * (1 - m * x) - m * (x * (1 - x)) / d^2).
Lemma rho_derive2 q : is_derive (rho' r1 r2 r3 r4 w psi) q (rho'' q).
Proof.
  pose proof (rden_nz c _ _ _ _ Hs Ho _ (sn2_bound psi q)) as D.
  pose proof (dl_pos m (psi q) (proj2 Hm)) as Dp. pose proof (sqrt_dl_pos m (psi q) (proj2 Hm)) as Sp.
  pose proof (pow2_sqrt _ (Rlt_le _ _ Dp)) as Q.
  set (G := fun y => w * (C * (sin y * cos y * sqrt (1 - m * sin y ^2)) / ((r1 - r2) * sin y ^2 - (r1 - r3))^2)).
  apply (is_derive_ext (fun q => G (psi q))). { intros t. reflexivity. }
  set (d := sqrt (dl m (psi q))) in *.
  replace (rho'' q) with ((w * d) * (w * C * (((cos (psi q) ^2 - sin (psi q)^2) * d - m * (sin (psi q) * cos (psi q))^2 / d) / rden r1 r2 r3 (sn2 psi q)^2
     - 4 * (r1 - r2) * (sin (psi q) * cos (psi q))^2 * d / rden r1 r2 r3 (sn2 psi q) ^3))).
  - apply (is_derive_comp G psi); [|apply Hpsi]. unfold G. unfold sn2, rden, d in *. unfold dl in *.
    auto_derive.
    + refine (conj _ (conj _ I)).
      * replace (1 + - (m * (sin (psi q) * (sin (psi q) * 1)))) with (1 - m * sin (psi q) ^2) by ring. exact Dp.
      * intros K. apply Rmult_integral in K. destruct K as [K|K]; [|apply Rmult_integral in K; destruct K as [K|K]; [|lra]];
        apply D; rewrite <- K; ring.
    + replace (1 + - (m * (sin (psi q) * (sin (psi q) * 1)))) with (1 - m * sin (psi q) ^2) by ring.
      field. repeat match goal with |- _ /\ _ => split end; first [exact D | lra].
  - unfold rho''. rewrite <- (cos2_sin2 (psi q)) at 1. unfold dl in Q. fold (sn2 psi q) in *.
    assert (X : cos (psi q)^2 = 1 - sn2 psi q) by apply cos2_sin2.
    replace ((sin (psi q) * cos (psi q))^2) with (sn2 psi q * (1 - sn2 psi q)) by (rewrite Rpow_mult_distr, X; reflexivity).
    rewrite X. set (x := sn2 psi q) in *. set (dd := rden r1 r2 r3 x) in *. clearbody x dd d. rewrite <- Q. field. split; [exact D | lra].
Qed.
Lemma rho_ode2 q v : (v * w) ^ 2 = sr2 c r1 r2 r3 r4 / 4 ->
  let r := rho r1 r2 r3 psi q in
  v^2 * rho'' q = c / 2 * (- (r - r2) * (r - r3) * (r - r4) + (r1 - r) * ((r - r3) * (r - r4) + (r - r2) * (r - r4) + (r - r2) * (r - r3))).
Proof.
  intros Hv r. unfold r, rho, rho''. pose proof (sn2_bound psi q) as Hx. pose proof (rden_nz c _ _ _ _ Hs Ho _ Hx) as D.
  destruct (rad_nz c _ _ _ _ Hs Ho) as (N1 & N2 & N3 & N4). set (x := sn2 psi q) in *.
  replace (v^2 * (w^2 * C * (((1 - 2 * x) / rden r1 r2 r3 x^2 - 4 * (r1 - r2) * (x * (1 - x)) / rden r1 r2 r3 x^3) * (1 - m * x) - m * (x * (1 - x)) / rden r1 r2 r3 x^2)))
    with ((v * w)^2 * (C * (((1 - 2 * x) / rden r1 r2 r3 x^2 - 4 * (r1 - r2) * (x * (1 - x)) / rden r1 r2 r3 x^3) * (1 - m * x) - m * (x * (1 - x)) / rden r1 r2 r3 x^2))) by ring.
  rewrite Hv. unfold rx, rden, sr2, kr2 in *. field. repeat split; assumption.
Qed.
End Radial.

Section Polar.
Context (A2 zm beta : R) (Hz : 0 <= zm < 1) (Hb : 0 < beta) (Hm : 0 <= kt2 A2 zm beta < 1).
Local Notation m := (kt2 A2 zm beta).
Context (w : R) (psi : R -> R) (Hpsi : forall q, is_derive psi q (w * sqrt (dl m (psi q)))).
Lemma th_derive2 q v : (v * w)^2 = beta ->
  exists d, is_derive (th' A2 zm beta w psi) q d /\
  v^2 * d = cos (th zm psi q) / sin (th zm psi q) ^3 * ((beta - A2 * cos (th zm psi q)^2 + A2 * (zm - cos (th zm psi q)^2)) * sin (th zm psi q)^2
     - (zm - cos (th zm psi q)^2) * (beta - A2 * cos (th zm psi q)^2)).
Proof.
  intros Hv. pose proof (sin_th_pos zm Hz psi q) as S.
  pose proof (th_ode _ _ _ Hz Hb Hm w psi q v Hv) as O.
  pose proof (dl_pos m (psi q) (proj2 Hm)) as Dp. pose proof (sqrt_dl_pos m (psi q) (proj2 Hm)) as Sp.
  pose proof (pow2_sqrt _ (Rlt_le _ _ Dp)) as Q.
  pose proof (th_derive _ _ _ Hz w psi Hpsi q) as T1.
  set (G := fun y => - (sqrt zm * cos y * (w * sqrt (1 - m * sin y ^2)))).
  assert (DG : is_derive (fun q => G (psi q)) q (sqrt zm * w^2 * sin (psi q) * (dl m (psi q) + m * cos (psi q)^2))).
  { replace (sqrt zm * w^2 * sin (psi q) * (dl m (psi q) + m * cos (psi q)^2)) with ((w * sqrt (dl m (psi q))) *
      (sqrt zm * w * (sin (psi q) * sqrt (dl m (psi q)) + m * sin (psi q) * cos (psi q)^2 / sqrt (dl m (psi q)))))
      by (clear - Q Sp; set (d := sqrt (dl m (psi q))) in *; clearbody d; rewrite <- Q; field; lra).
    apply (is_derive_comp G psi); [|apply Hpsi]. unfold G. unfold dl in *.
    set (sz := sqrt zm). clearbody sz. auto_derive.
    - replace (1 + - (m * (sin (psi q) * (sin (psi q) * 1)))) with (1 - m * sin (psi q) ^2) by ring. exact Dp.
    - replace (1 + - (m * (sin (psi q) * (sin (psi q) * 1)))) with (1 - m * sin (psi q) ^2) by ring. field. lra. }
  assert (DS : is_derive (fun q => sin (th zm psi q)) q (th' A2 zm beta w psi q * cos (th zm psi q))).
  { apply (is_derive_comp sin (th zm psi)); [apply is_derive_sin | exact T1]. }
  eexists. split.
  - apply (is_derive_ext (fun q => G (psi q) / sin (th zm psi q))). { intros t. reflexivity. }
    apply (is_derive_div (fun q => G (psi q)) (fun q => sin (th zm psi q))); [exact DG | exact DS | lra].
  - assert (EG : G (psi q) = th' A2 zm beta w psi q * sin (th zm psi q)) by (unfold th', G, dl; field; lra).
    rewrite EG.
    set (c := cos (th zm psi q)) in *. set (s := sin (th zm psi q)) in *. set (t1 := th' A2 zm beta w psi q) in *.
    transitivity ((v * w)^2 * (sqrt zm * sin (psi q)) * (dl m (psi q) + m * cos (psi q)^2) / s - (v * t1)^2 * c / s); [field; lra|].
    change (sqrt zm * sin (psi q)) with (cth zm psi q). rewrite <- (cos_th zm Hz). fold c.
    rewrite Hv, O.
    assert (Ec : c^2 = zm * sin (psi q)^2). { unfold c. rewrite (cos_th zm Hz). apply (cth_sq zm Hz). }
    replace (beta * c * (dl m (psi q) + m * cos (psi q)^2) / s) with (c * (beta - 2 * A2 * c^2 + A2 * zm) / s).
    + field. lra.
    + rewrite Ec, cos2_sin2. unfold dl, kt2. field. split; lra.
Qed.
End Polar.

(** ** plunges with two complex roots *)
From Verif Require Import P_Plunge.
Section CPlunge.
Context (r1 r2 u v : R) (Hr : r1 < r2) (Hv : 0 < v).
Local Notation A := (pA r2 u v).
Local Notation B := (pB r1 u v).
Local Notation m := (pk2 r1 r2 u v).
Context (w : R) (xi : R -> R) (Hxi : forall q, is_derive xi q (w * sqrt (dl m (xi q)))).
Definition pr'' (q : R) : R :=
  let c := cos (xi q) in let d := pden r1 r2 u v c in
  w^2 * (2 * A * B * (r2 - r1)) * (c * (1 - m * (1 - c^2)) / d^2 - m * c * (1 - c^2) / d^2 + 2 * (A - B) * (1 - c^2) * (1 - m * (1 - c^2)) / d^3).
Lemma pr_derive2 q : is_derive (pr' r1 r2 u v w xi) q (pr'' q).
Proof.
  pose proof (pden_pos r1 r2 u v Hv (cos (xi q)) (COS_bound _)) as D.
  pose proof (pk2_bounds r1 r2 u v (Rlt_le _ _ Hr) Hv) as Hm.
  pose proof (dl_pos m (xi q) (proj2 Hm)) as Dp. pose proof (sqrt_dl_pos m (xi q) (proj2 Hm)) as Sp.
  pose proof (pow2_sqrt _ (Rlt_le _ _ Dp)) as Q.
  set (G := fun y => w * sqrt (1 - m * sin y ^2) * sin y * (2 * A * B * (r2 - r1)) / (A * (1 + cos y) + B * (1 - cos y))^2).
  apply (is_derive_ext (fun q => G (xi q))). { intros t. reflexivity. }
  set (d := sqrt (dl m (xi q))) in *.
  replace (pr'' q) with ((w * d) * (w * (2 * A * B * (r2 - r1)) * ((cos (xi q) * d - m * sin (xi q)^2 * cos (xi q) / d) / pden r1 r2 u v (cos (xi q))^2
     + 2 * (A - B) * sin (xi q)^2 * d / pden r1 r2 u v (cos (xi q)) ^3))).
  - apply (is_derive_comp G xi); [|apply Hxi]. unfold G. unfold pden, d in *. unfold dl in *.
    set (AA := A) in *. set (BB := B) in *. clearbody AA BB. set (mm := m) in *. clearbody mm.
    auto_derive.
    + replace (1 + - (mm * (sin (xi q) * (sin (xi q) * 1)))) with (1 - mm * sin (xi q) ^2) by ring.
      refine (conj Dp (conj _ I)). intros K. apply Rmult_integral in K. destruct K as [K|K]; [|apply Rmult_integral in K; destruct K as [K|K]]; lra.
    + replace (1 + - (mm * (sin (xi q) * (sin (xi q) * 1)))) with (1 - mm * sin (xi q) ^2) by ring.
      field. repeat match goal with |- _ /\ _ => split end; lra.
  - unfold pr''. unfold dl in Q.
    assert (X : sin (xi q)^2 = 1 - cos (xi q)^2) by (pose proof (cos2_sin2 (xi q)); lra).
    rewrite X in *. set (x := cos (xi q)) in *. set (dd := pden r1 r2 u v x) in *. clearbody x dd d. rewrite <- Q. field. split; lra.
Qed.
Lemma pr_ode2 q c f : (f * w)^2 = A * B * c ->
  let r := pr r1 r2 u v xi q in
  f^2 * pr'' q = c / 2 * ((- (r - r1) + (r2 - r)) * ((r - u)^2 + v^2) + (r2 - r) * (r - r1) * (2 * (r - u))).
Proof.
  intros Hf r. unfold r, pr, pr''. pose proof (COS_bound (xi q)) as Bc. pose proof (pden_pos r1 r2 u v Hv _ Bc) as D.
  set (x := cos (xi q)) in *. clearbody x.
  pose proof (pA_pos r2 u v Hv) as PA. pose proof (pB_pos r1 u v Hv) as PB.
  pose proof (pA_sq r2 u v Hv) as SA. pose proof (pB_sq r1 u v Hv) as SB.
  unfold prx, pden, pk2 in *. set (AA := A) in *. set (BB := B) in *. clearbody AA BB.
  assert (Eu : u = (r1 + r2) / 2 - (AA^2 - BB^2) / (2 * (r2 - r1))).
  { apply (Rmult_eq_reg_r (2 * (r2 - r1))); [|lra]. transitivity ((r1 + r2) * (r2 - r1) - (AA^2 - BB^2)); [rewrite SA, SB; ring | field; lra]. }
  assert (Ev : v^2 = AA^2 - (r2 - u)^2) by lra.
  match goal with |- f^2 * (w^2 * ?a * ?b) = _ => replace (f^2 * (w^2 * a * b)) with ((f * w)^2 * (a * b)) by ring end.
  rewrite Hf, Ev, Eu. clear Ev Eu SA SB Hf r. field. repeat split; lra.
Qed.
End CPlunge.

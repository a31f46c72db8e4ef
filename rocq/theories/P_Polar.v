(** * Analysis of the polar solution, and of the amplitude function (pure reals) *)
From Coq Require Import Reals Lra Lia ZArith.
From Coquelicot Require Import Coquelicot.
From Verif Require Import SpecElliptic Elliptic P_Radial.
Open Scope R_scope.

(** the derivative of the amplitude along a linear phase *)
Lemma amplitude_derive m (am : R -> R) w k : m < 1 -> (forall u, ellF (am u) m = u) ->
  forall q, is_derive (fun q => am (w * q + k)) q (w * sqrt (dl m (am (w * q + k)))).
Proof.
  intros Hm Ham q. pose proof (sqrt_dl_pos m (am (w * q + k)) Hm) as D.
  apply (is_derive_comp am (fun q => w * q + k)).
  - replace (sqrt (dl m (am (w * q + k)))) with (/ hF m (am (w * q + k))).
    + apply (inverse_derive (fun y => ellF y m) (hF m) (cF m)
        (fun x => ellF_derive m x Hm) (cF_pos m) (fun x => hF_lower m x Hm)). assumption.

    + unfold hF. rewrite Rinv_inv. reflexivity.
  - auto_derive; [trivial | ring].
Qed.

Lemma cos_acos' x : -1 <= x <= 1 -> cos (acos x) = x. Proof. apply cos_acos. Qed.

Section Polar.
Context (A2 zm beta : R) (Hz : 0 <= zm < 1) (Hb : 0 < beta).
Definition kt2 : R := A2 * zm / beta.
Context (Hm : 0 <= kt2 < 1).
Context (w : R) (psi : R -> R) (Hpsi : forall q, is_derive psi q (w * sqrt (dl kt2 (psi q)))).
Definition cth (q : R) : R := sqrt zm * sin (psi q).
Lemma cth_sq q : cth q ^ 2 = zm * sin (psi q) ^ 2.
Proof. unfold cth. rewrite Rpow_mult_distr, pow2_sqrt by lra. reflexivity. Qed.
Lemma cth_sq_bound q : cth q ^ 2 <= zm.
Proof. rewrite cth_sq. pose proof (sin2_bound (psi q)). nra. Qed.
Lemma sqrt_zm : 0 <= sqrt zm < 1.
Proof. split; [apply sqrt_pos|]. rewrite <- sqrt_1. apply sqrt_lt_1; lra. Qed.
Lemma cth_bound q : - sqrt zm <= cth q <= sqrt zm.
Proof. unfold cth. pose proof (SIN_bound (psi q)). pose proof sqrt_zm. nra. Qed.
Definition th (q : R) : R := acos (cth q).
Lemma cos_th q : cos (th q) = cth q.
Proof. unfold th. pose proof (cth_bound q). pose proof sqrt_zm. apply cos_acos; lra. Qed.
Lemma sin_th_sq q : sin (th q) ^ 2 = 1 - cth q ^ 2.
Proof. rewrite <- cos_th. pose proof (cos2_sin2 (th q)). lra. Qed.
Lemma sin_th_pos q : 0 < sin (th q).
Proof.
  unfold th. pose proof (cth_bound q). pose proof sqrt_zm. rewrite sin_acos by lra.
  apply sqrt_lt_R0. unfold Rsqr. nra.
Qed.
Definition th' (q : R) : R := - (sqrt zm * cos (psi q) * (w * sqrt (dl kt2 (psi q)))) / sin (th q).
Lemma th_derive q : is_derive th q (th' q).
Proof.
  pose proof (cth_bound q). pose proof sqrt_zm. pose proof (sin_th_pos q) as S.
  unfold th. replace (th' q) with ((sqrt zm * (w * sqrt (dl kt2 (psi q)) * cos (psi q))) * (- / sqrt (1 - (cth q)²))).
  - apply (is_derive_comp acos cth).
    + apply is_derive_Reals. assert (K : -1 < cth q < 1) by lra.
      pose proof (derive_pt_acos (cth q) K) as D.
      replace (- / sqrt (1 - (cth q)²)) with (- 1 / sqrt (1 - (cth q)²)) by (unfold Rdiv; ring).
      eapply derive_pt_eq_1, D.
    + unfold cth. apply (is_derive_scal (fun q => sin (psi q))).
      apply (is_derive_comp sin psi); [apply is_derive_sin | apply Hpsi].
  - unfold th'. replace (sqrt (1 - (cth q)²)) with (sin (th q)).
    + field. lra.
    + unfold th. apply sin_acos. lra.
Qed.
Lemma th_ode q v : (v * w) ^ 2 = beta ->
  (v * th' q) ^ 2 = (zm - cos (th q) ^ 2) * (beta - A2 * cos (th q) ^ 2) / sin (th q) ^ 2.
Proof.
  intros Hv. pose proof (sin_th_pos q) as S. rewrite cos_th, cth_sq. unfold th'.
  pose proof (pow2_sqrt (dl kt2 (psi q)) (Rlt_le _ _ (dl_pos kt2 (psi q) (proj2 Hm)))) as Q.
  set (d := sqrt (dl kt2 (psi q))) in *.
  pose proof (pow2_sqrt zm (proj1 Hz)) as Z.
  transitivity ((v * w)^2 * (sqrt zm ^ 2 * cos (psi q) ^ 2 * d ^ 2) / sin (th q) ^ 2); [field; lra|].
  rewrite Hv, Z, Q, cos2_sin2. unfold dl, kt2. field. split; lra.
Qed.
Lemma ellPi_along_th n q : n < 1 -> is_derive (fun q => ellPi n (psi q) kt2) q (w / (1 - n * sin (psi q) ^ 2)).
Proof.
  intros Hn. pose proof (sqrt_dl_pos kt2 (psi q) (proj2 Hm)). pose proof (dl_pos n (psi q) Hn).
  replace (w / (1 - n * sin (psi q) ^ 2)) with ((w * sqrt (dl kt2 (psi q))) * hP n kt2 (psi q)).
  - apply (is_derive_comp (fun y => ellPi n y kt2) psi); [apply ellPi_derive; tauto | apply Hpsi].
  - unfold hP. change (1 - n * sin (psi q) ^ 2) with (dl n (psi q)). field. lra.
Qed.
Lemma ellE_along q : is_derive (fun q => ellE (psi q) kt2) q (w * (1 - kt2 * sin (psi q) ^ 2)).
Proof.
  pose proof (pow2_sqrt (dl kt2 (psi q)) (Rlt_le _ _ (dl_pos kt2 (psi q) (proj2 Hm)))) as Q.
  replace (w * (1 - kt2 * sin (psi q) ^ 2)) with ((w * sqrt (dl kt2 (psi q))) * hE kt2 (psi q)).
  - apply (is_derive_comp (fun y => ellE y kt2) psi); [apply ellE_derive; tauto | apply Hpsi].
  - unfold hE. change (1 - kt2 * sin (psi q) ^ 2) with (dl kt2 (psi q)). rewrite <- Q at 3. ring.
Qed.
End Polar.

(** the complete integral of the third kind at m = 0 *)
Lemma ellPi_m0 n : n < 1 -> ellPi n (PI / 2) 0 = PI / 2 / sqrt (1 - n).
Proof.
  intros Hn. set (v := sqrt (1 - n)). assert (V : 0 < v) by (apply sqrt_lt_R0; lra).
  assert (V2 : v^2 = 1 - n) by (apply pow2_sqrt; lra).
  set (G := fun t => (t + atan ((v - 1) * (sin t * cos t) / (cos t ^ 2 + v * sin t ^ 2))) / v).
  assert (D : forall t, 0 < cos t ^ 2 + v * sin t ^ 2).
  { intros t. rewrite cos2_sin2. pose proof (sin2_bound t).
    pose proof (convex_pos 1 v (sin t ^ 2) ltac:(lra) V H). lra. }
  rewrite ellPi_prim. rewrite <- (derive_unique (hP n 0) (fun x => hP_cont n 0 x Hn Rlt_0_1) G).
  - unfold G. rewrite sin_PI2, cos_PI2, sin_0, cos_0.
    replace ((v - 1) * (1 * 0) / (0^2 + v * 1^2)) with 0 by (field; lra).
    replace ((v - 1) * (0 * 1) / (1^2 + v * 0^2)) with 0 by (field; lra).
    rewrite atan_0. field. lra.
  - intros t. unfold G. specialize (D t). auto_derive.
    + simpl in *. repeat split; lra.
    + unfold hP. replace (dl 0 t) with 1 by (unfold dl; ring). rewrite sqrt_1.
      unfold dl. replace n with (1 - v^2) by lra.
      pose proof (cos2_sin2 t) as C2. set (s := sin t) in *. set (c := cos t) in *.
      assert (P1 : 0 < 1 - (1 - v^2) * s^2).
      { replace (1 - (1 - v^2) * s^2) with (c^2 + v^2 * s^2) by lra.
        pose proof (sin2_bound t) as B. fold s in B.
        pose proof (convex_pos 1 (v^2) (s^2) ltac:(lra) ltac:(apply pow_lt; lra) B). lra. }
      assert (P2 : 0 < (c^2 + v * s^2)^2 + (v - 1)^2 * (s * c)^2).
      { assert (0 < (c^2 + v * s^2)^2) by (apply pow_lt; assumption).
        pose proof (pow2_ge_0 ((v - 1) * (s * c))). nra. }
      assert (P3 : (c^2 + v * s^2)^2 + (v - 1)^2 * (s * c)^2 = 1 - (1 - v^2) * s^2).
      { rewrite Rpow_mult_distr, C2. ring. }
      clearbody v s c. 
      field_simplify_eq.
      * ring [C2].
      * simpl in *. repeat split; lra.
Qed.

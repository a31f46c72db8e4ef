(** * Lemmas about the constants of motion (C12-C16, C50) *)
From Coq Require Import Reals Lra ZArith String List Psatz.
From Coquelicot Require Import Coquelicot.
From Verif Require Import Num Outcome External Checked ExternalSpec Spec Model_Units Model_Constants
  P_Validation SepPoly Props_Separatrix Props_Validation P_Schmidt P_Bounds.
Import ListNotations.
Open Scope R_scope.

(** ** what a defined result of the two formulas says *)
Lemma pos_factor x y : 0 < y -> 0 < y * x -> 0 < x.
Proof. intros H1 H2. apply (Rmult_lt_reg_l y); [assumption | lra]. Qed.
Lemma csqrt_inv t v : csqrt (Some t) = Some v -> 0 <= t /\ v = sqrt t.
Proof. unfold csqrt. destruct (Rle_dec 0 t); [|discriminate]. intros H. now injection H as <-. Qed.
Lemma cdiv_inv s t v : cdiv (Some s) (Some t) = Some v -> t <> 0 /\ v = s / t.
Proof. unfold cdiv. destruct (Req_EM_T t 0); [discriminate|]. intros H. now injection H as <-. Qed.

Lemma schmidt_energy_inv f1 g1 h1 d1 f2 g2 h2 d2 x E :
  schmidt_energy (Some f1, Some g1, Some h1, Some d1) (Some f2, Some g2, Some h2, Some d2) (Some x)
    = Some E ->
  let kappa := d1 * h2 - h1 * d2 in
  let rho := f1 * h2 - h1 * f2 in
  let sigma := g1 * h2 - h1 * g2 in
  let epsilon := d1 * g2 - g1 * d2 in
  let eta := f1 * g2 - g1 * f2 in
  let N := rho^2 + 4 * eta * sigma in
  let D := sigma * (sigma * epsilon^2 + rho * epsilon * kappa - eta * kappa^2) in
  N <> 0 /\ 0 <= D /\ 0 <= E /\
  E^2 * N = kappa * rho + 2 * epsilon * sigma - Rsgn x * 2 * sqrt D.
Proof.
  intros H. cbv zeta. unfold schmidt_energy in H. cnum_in H.
  match type of H with context [csqrt (Some ?t)] => set (D := t) in H end.
  destruct (Rle_dec 0 D) as [HD|HD]; [|exfalso].
  2:{ unfold csqrt at 2 in H. destruct (Rle_dec 0 D); [contradiction|]. discriminate. }
  rewrite (csqrt_some D HD) in H.
  match type of H with context [cdiv (Some ?s) (Some ?t)] => set (N := t) in H; set (M := s) in H end.
  destruct (Req_EM_T N 0) as [HN|HN].
  { unfold cdiv in H. destruct (Req_EM_T N 0); [discriminate | contradiction]. }
  rewrite cdiv_some in H by assumption. apply csqrt_inv in H as [H1 ->].
  split; [exact HN|]. split; [exact HD|]. split; [apply sqrt_pos|].
  rewrite pow2_sqrt by assumption.
  transitivity M; [|reflexivity].
  change (M / N * N = M). field. exact HN.
Qed.
Lemma schmidt_L_inv f g h d x E L :
  schmidt_L (Some f, Some g, Some h, Some d) (Some x) (Some E) = Some L ->
  let rad := - d * h + E^2 * (g^2 + f * h) in
  h <> 0 /\ 0 <= rad /\ L = (- E * g + Rsgn x * sqrt rad) / h.
Proof.
  intros H. cbv zeta. unfold schmidt_L in H. cnum_in H.
  match type of H with context [csqrt (Some ?t)] => set (D := t) in H end.
  destruct (Rle_dec 0 D) as [HD|HD]; [|exfalso].
  2:{ unfold csqrt in H. destruct (Rle_dec 0 D); [contradiction|]. discriminate. }
  rewrite (csqrt_some D HD) in H. apply cdiv_inv in H as [H1 ->]. auto.
Qed.

Lemma coefficients_some r a x : x <> 0 -> -1 <= x <= 1 ->
  coefficients (Some r) (Some a) (Some x)
  = (Some (cf a (x^2) r), Some (cg a r), Some (ch a (x^2) r), Some (cd a (x^2) r)).
Proof.
  intros Hx Hx1. unfold coefficients. cnum.
  assert (0 <= 1 - x^2) by nra. rewrite csqrt_some by assumption. rewrite !pow2_sqrt by assumption.
  assert (x^2 <> 0) by (apply pow_nonzero; assumption).
  rewrite cdiv_some by lra. unfold cf, cg, ch, cd.
  replace (1 - (1 - x^2)) with (x^2) by ring. reflexivity.
Qed.
Lemma coefficients_derivative_some r a x : x <> 0 -> -1 <= x <= 1 ->
  coefficients_derivative (Some r) (Some a) (Some x)
  = (Some (cf' a (x^2) r), Some (cg' a), Some (ch' (x^2) r), Some (cd' a (x^2) r)).
Proof.
  intros Hx Hx1. unfold coefficients_derivative. cnum.
  assert (0 <= 1 - x^2) by nra. rewrite csqrt_some by assumption. rewrite !pow2_sqrt by assumption.
  assert (x^2 <> 0) by (apply pow_nonzero; assumption).
  rewrite cdiv_some by lra. unfold cf', cg', ch', cd'.
  replace (1 - (1 - x^2)) with (x^2) by ring.
  repeat match goal with |- (_, _) = (_, _) => f_equal | |- Some _ = Some _ => f_equal end; try reflexivity; ring.
Qed.

(** ** the potential at the polar turning point *)
Definition V (a w E L r : R) : R := cf a w r * E^2 - 2 * cg a r * E * L - ch a w r * L^2 - cd a w r.
Definition V' (a w E L r : R) : R := cf' a w r * E^2 - 2 * cg' a * E * L - ch' w r * L^2 - cd' a w r.
Lemma V_is_R a w E L r : w <> 0 ->
  radial_potential a E L ((1 - w) * (a^2 * (1 - E^2) + L^2 / w)) r = V a w E L r.
Proof. intros H. unfold radial_potential, V, Delta, cf, cg, ch, cd. field. exact H. Qed.
Lemma V'_is_derivative a w E L r : w <> 0 -> is_derive (V a w E L) r (V' a w E L r).
Proof.
  intros H. unfold V, V', cf, cg, ch, cd, cf', cg', ch', cd'. auto_derive; [exact I|]. field. exact H.
Qed.

(** both equations hold on the branch chosen by the code *)
Lemma solves a w s r1 r2 E L : 0 < a < 1 -> 0 < w <= 1 -> 1 < r2 < r1 -> 0 < Delta a r2 ->
  s = 1 \/ s = -1 -> (s = -1 -> 13/5 < r2 /\ 5 < r1) ->
  let f1 := cf a w r1 in let g1 := cg a r1 in let h1 := ch a w r1 in let d1 := cd a w r1 in
  let f2 := cf a w r2 in let g2 := cg a r2 in let h2 := ch a w r2 in let d2 := cd a w r2 in
  let kappa := d1 * h2 - h1 * d2 in
  let rho := f1 * h2 - h1 * f2 in
  let sigma := g1 * h2 - h1 * g2 in
  let epsilon := d1 * g2 - g1 * d2 in
  let eta := f1 * g2 - g1 * f2 in
  let N := rho^2 + 4 * eta * sigma in
  let D := sigma * (sigma * epsilon^2 + rho * epsilon * kappa - eta * kappa^2) in
  N <> 0 -> 0 <= E -> E^2 * N = kappa * rho + 2 * epsilon * sigma - s * 2 * sqrt D ->
  let rad := - d1 * h1 + E^2 * (g1^2 + f1 * h1) in
  h1 <> 0 -> 0 <= rad -> L = (- E * g1 + s * sqrt rad) / h1 ->
  0 < E /\ V a w E L r1 = 0 /\ V a w E L r2 = 0 /\ 0 < s * L /\
  0 < s * (epsilon * E + kappa * L).
Proof.
  intros Ha Hw Hr HD Hs Hret. cbv zeta.
  set (f1 := cf a w r1). set (g1 := cg a r1). set (h1 := ch a w r1). set (d1 := cd a w r1).
  set (f2 := cf a w r2). set (g2 := cg a r2). set (h2 := ch a w r2). set (d2 := cd a w r2).
  intros HN HE EQ Hh Hrad HL.
  pose proof (sigma_neg a w Ha Hw r1 r2 Hr) as Hsig.
  pose proof (C_pos a w Ha Hw r1 r2 Hr HD) as HC.
  pose proof (kappa_neg a w Ha Hw r1 r2 Hr HD) as HK.
  pose proof (disc_pos a w Ha Hw r1 r2 Hr HD) as Hdisc.
  pose proof (epsilon_pos a w Ha Hw r1 r2 Hr HD) as Heps.
  pose proof (mu_pos a w Ha Hw r1 r2 Hr HD) as Hmu.
  pose proof (retro a w Ha Hw r1 r2 Hr) as HR.
  pose proof (Dl_mono a r1 r2 Hr) as HDm.
  assert (Hd : 0 < d1) by (apply d_pos; unfold Delta in *; lra).
  fold f1 g1 h1 d1 f2 g2 h2 d2 in Hsig, HC, HK, Hdisc, Heps, Hmu, HR.
  assert (HDpos : 0 < (g1 * h2 - h1 * g2) * ((g1 * h2 - h1 * g2) * (d1 * g2 - g1 * d2)^2
     + (f1 * h2 - h1 * f2) * (d1 * g2 - g1 * d2) * (d1 * h2 - h1 * d2)
     - (f1 * g2 - g1 * f2) * (d1 * h2 - h1 * d2)^2)).
  { rewrite D_eq. apply Rmult_lt_0_compat; [apply pow2_gt_0; lra | exact Hdisc]. }
  assert (E0 : 0 < E).
  { destruct HE as [HE|HE]; [assumption|]. exfalso. subst E.
    assert (H : h1 < 0).
    { assert (P : 0 <= d1 * - h1) by lra. assert (0 <= - h1) by (apply (Rmult_le_reg_l d1); lra). lra. }
    specialize (HK H).
    set (S := sqrt _) in EQ. assert (S2 := pow2_sqrt _ (Rlt_le _ _ HDpos)). fold S in S2.
    assert (s^2 = 1) by (destruct Hs; subst; ring).
    assert (K : ((f1 * h2 - h1 * f2) ^ 2 + 4 * (f1 * g2 - g1 * f2) * (g1 * h2 - h1 * g2)) * (d1 * h2 - h1 * d2)^2 = 0).
    { apply Rminus_diag_uniq.
      replace (0 ^ 2 * ((f1 * h2 - h1 * f2) ^ 2 + 4 * (f1 * g2 - g1 * f2) * (g1 * h2 - h1 * g2))) with 0 in EQ by ring.
      assert (B : (d1 * h2 - h1 * d2) * (f1 * h2 - h1 * f2) + 2 * (d1 * g2 - g1 * d2) * (g1 * h2 - h1 * g2) = s * 2 * S) by lra.
      apply (f_equal (fun t => t^2)) in B. replace ((s * 2 * S)^2) with (s^2 * (4 * S^2)) in B by ring.
      rewrite H0, S2 in B. lra. }
    apply Rmult_integral in K as [K|K]; [contradiction|].
    assert (0 < (d1 * h2 - h1 * d2)^2) by (apply pow2_gt_0; lra). lra. }
  destruct (core f1 g1 h1 d1 f2 g2 h2 d2 E s Hsig Hd Hh HN Hs (Rlt_le _ _ HDpos) E0 EQ) as [_ [V1 [V2 [SB SJ]]]].
  - auto.
  - auto.
  - intros K. destruct (Hret K). apply HR; assumption.
  - rewrite <- HL in V1, V2, SB, SJ.
    split; [exact E0|]. split; [unfold V; fold f1 g1 h1 d1; lra|].
    split; [unfold V; fold f2 g2 h2 d2; lra|].
    set (sq := sqrt _) in SJ. assert (0 < sq) by (apply sqrt_lt_R0; exact HDpos).
    assert (JJ : 0 < s * ((d1 * g2 - g1 * d2) * E + (d1 * h2 - h1 * d2) * L)).
    { apply (pos_factor _ (- (g1 * h2 - h1 * g2))); [lra|].
      replace (- (g1 * h2 - h1 * g2) * (s * ((d1 * g2 - g1 * d2) * E + (d1 * h2 - h1 * d2) * L)))
        with (s * (E * s * sq)) by (rewrite SJ; ring).
      replace (s * (E * s * sq)) with (s^2 * (E * sq)) by ring.
      replace (s^2) with 1 by (destruct Hs; subst; ring). rewrite Rmult_1_l. apply Rmult_lt_0_compat; assumption. }
    split; [|exact JJ].
    destruct Hs as [-> | ->].
    + assert (Hj : 0 < (d1 * g2 - g1 * d2) * E + (d1 * h2 - h1 * d2) * L).
      { apply (pos_factor _ (- (g1 * h2 - h1 * g2))); [lra|].
        rewrite <- SJ. apply Rmult_lt_0_compat; [lra | assumption]. }
      assert (HLj : L * ((d1 * g2 - g1 * d2) * E + ((d1 * g2 - g1 * d2) * E + (d1 * h2 - h1 * d2) * L))
               = (d1 * f2 - d2 * f1) * E^2).
      { transitivity ((d1 * f2 - d2 * f1) * E^2 - (d1 * (f2 * E ^ 2 - 2 * g2 * E * L - h2 * L ^ 2)
           - d2 * (f1 * E ^ 2 - 2 * g1 * E * L - h1 * L ^ 2))); [ring|]. rewrite V1, V2. ring. }
      assert (0 < (d1 * f2 - d2 * f1) * E^2) by (apply Rmult_lt_0_compat; [lra | apply pow_lt; lra]).
      assert (0 < (d1 * g2 - g1 * d2) * E) by (apply Rmult_lt_0_compat; lra).
      rewrite Rmult_1_l. eapply pos_factor; [|rewrite Rmult_comm, HLj; assumption]. lra.
    + destruct (Hret eq_refl) as [K1 K2]. destruct (HR K1 K2) as [K3 _].
      assert (0 < g1 * E). { unfold g1, cg. repeat apply Rmult_lt_0_compat; lra. }
      assert (0 < h1 * (-1 * L)) by lra. apply (pos_factor _ h1); assumption.
Qed.
Lemma solves_circular a w s r E L : 0 < a < 1 -> 0 < w <= 1 -> 1 < r -> 0 < Delta a r ->
  s = 1 \/ s = -1 -> (s = -1 -> 5 < r) ->
  let f1 := cf a w r in let g1 := cg a r in let h1 := ch a w r in let d1 := cd a w r in
  let f2 := cf' a w r in let g2 := cg' a in let h2 := ch' w r in let d2 := cd' a w r in
  let kappa := d1 * h2 - h1 * d2 in
  let rho := f1 * h2 - h1 * f2 in
  let sigma := g1 * h2 - h1 * g2 in
  let epsilon := d1 * g2 - g1 * d2 in
  let eta := f1 * g2 - g1 * f2 in
  let N := rho^2 + 4 * eta * sigma in
  let D := sigma * (sigma * epsilon^2 + rho * epsilon * kappa - eta * kappa^2) in
  N <> 0 -> 0 <= E -> E^2 * N = kappa * rho + 2 * epsilon * sigma - s * 2 * sqrt D ->
  let rad := - d1 * h1 + E^2 * (g1^2 + f1 * h1) in
  h1 <> 0 -> 0 <= rad -> L = (- E * g1 + s * sqrt rad) / h1 ->
  0 < E /\ V a w E L r = 0 /\ V' a w E L r = 0 /\ 0 < s * L /\
  s * (epsilon * E + kappa * L) < 0.
Proof.
  intros Ha Hw Hr HD Hs Hret. cbv zeta.
  pose proof (c_sigma_neg a w Ha Hw r Hr) as Hsig.
  pose proof (c_C_pos a w Ha Hw r Hr HD) as HC.
  pose proof (c_kappa_neg a w Ha Hw r Hr HD) as HK.
  pose proof (c_disc_pos a w Ha Hw r Hr HD) as Hdisc.
  pose proof (c_epsilon_pos a w Ha Hw r Hr HD) as Heps.
  pose proof (c_mu_pos a w Ha Hw r Hr HD) as Hmu.
  pose proof (c_retro a w Ha Hw r Hr) as HR.
  assert (Hd : 0 < cd a w r) by (apply d_pos; unfold Delta in *; lra).
  unfold V, V'.
  set (f1 := cf a w r) in *. set (g1 := cg a r) in *. set (h1 := ch a w r) in *. set (d1 := cd a w r) in *.
  intros HN HE EQ Hh Hrad HL.
  assert (HN' : (f1 * (- ch' w r) - h1 * (- cf' a w r))^2 + 4 * (f1 * (- cg' a) - g1 * (- cf' a w r))
      * (g1 * (- ch' w r) - h1 * (- cg' a)) <> 0) by nz.
  assert (EQ' : forall S, S = sqrt ((g1 * ch' w r - h1 * cg' a) *
        ((g1 * ch' w r - h1 * cg' a) * (d1 * cg' a - g1 * cd' a w r) ^ 2 +
         (f1 * ch' w r - h1 * cf' a w r) * (d1 * cg' a - g1 * cd' a w r) * (d1 * ch' w r - h1 * cd' a w r) -
         (f1 * cg' a - g1 * cf' a w r) * (d1 * ch' w r - h1 * cd' a w r) ^ 2)) ->
     E^2 * ((f1 * (- ch' w r) - h1 * (- cf' a w r))^2 + 4 * (f1 * (- cg' a) - g1 * (- cf' a w r))
      * (g1 * (- ch' w r) - h1 * (- cg' a))) =
     (d1 * - ch' w r - h1 * - cd' a w r) * (f1 * - ch' w r - h1 * - cf' a w r)
     + 2 * (d1 * - cg' a - g1 * - cd' a w r) * (g1 * - ch' w r - h1 * - cg' a) - s * 2 * S).
  { intros S HS. rewrite <- HS in EQ. lra. }
  specialize (EQ' _ eq_refl).
  set (f2 := - cf' a w r) in *. set (g2 := - cg' a) in *. set (h2 := - ch' w r) in *. set (d2 := - cd' a w r) in *.
  replace ((g1 * ch' w r - h1 * cg' a) *
        ((g1 * ch' w r - h1 * cg' a) * (d1 * cg' a - g1 * cd' a w r) ^ 2 +
         (f1 * ch' w r - h1 * cf' a w r) * (d1 * cg' a - g1 * cd' a w r) * (d1 * ch' w r - h1 * cd' a w r) -
         (f1 * cg' a - g1 * cf' a w r) * (d1 * ch' w r - h1 * cd' a w r) ^ 2))
    with ((g1 * h2 - h1 * g2) * ((g1 * h2 - h1 * g2) * (d1 * g2 - g1 * d2)^2
     + (f1 * h2 - h1 * f2) * (d1 * g2 - g1 * d2) * (d1 * h2 - h1 * d2)
     - (f1 * g2 - g1 * f2) * (d1 * h2 - h1 * d2)^2)) in EQ' by (unfold f2, g2, h2, d2; ring).
  clear EQ HN. rename EQ' into EQ, HN' into HN.
  assert (HDpos : 0 < (g1 * h2 - h1 * g2) * ((g1 * h2 - h1 * g2) * (d1 * g2 - g1 * d2)^2
     + (f1 * h2 - h1 * f2) * (d1 * g2 - g1 * d2) * (d1 * h2 - h1 * d2)
     - (f1 * g2 - g1 * f2) * (d1 * h2 - h1 * d2)^2)).
  { rewrite D_eq. apply Rmult_lt_0_compat; [apply pow2_gt_0; lra | exact Hdisc]. }
  assert (E0 : 0 < E).
  { destruct HE as [HE|HE]; [assumption|]. exfalso. subst E.
    assert (H : h1 < 0).
    { assert (P : 0 <= d1 * - h1) by lra. assert (0 <= - h1) by (apply (Rmult_le_reg_l d1); lra). lra. }
    specialize (HK H).
    set (S := sqrt _) in EQ. assert (S2 := pow2_sqrt _ (Rlt_le _ _ HDpos)). fold S in S2.
    assert (s^2 = 1) by (destruct Hs; subst; ring).
    assert (K : ((f1 * h2 - h1 * f2) ^ 2 + 4 * (f1 * g2 - g1 * f2) * (g1 * h2 - h1 * g2)) * (d1 * h2 - h1 * d2)^2 = 0).
    { apply Rminus_diag_uniq.
      replace (0 ^ 2 * ((f1 * h2 - h1 * f2) ^ 2 + 4 * (f1 * g2 - g1 * f2) * (g1 * h2 - h1 * g2))) with 0 in EQ by ring.
      assert (B : (d1 * h2 - h1 * d2) * (f1 * h2 - h1 * f2) + 2 * (d1 * g2 - g1 * d2) * (g1 * h2 - h1 * g2) = s * 2 * S) by lra.
      apply (f_equal (fun t => t^2)) in B. replace ((s * 2 * S)^2) with (s^2 * (4 * S^2)) in B by ring.
      rewrite H0, S2 in B. lra. }
    apply Rmult_integral in K as [K|K]; [contradiction|].
    assert (0 < (d1 * h2 - h1 * d2)^2) by (apply pow2_gt_0; lra). lra. }
  destruct (core f1 g1 h1 d1 f2 g2 h2 d2 E s Hsig Hd Hh HN Hs (Rlt_le _ _ HDpos) E0 EQ) as [_ [V1 [V2 [SB SJ]]]].
  - auto.
  - auto.
  - intros K. apply HR. auto.
  - rewrite <- HL in V1, V2, SB, SJ.
    split; [exact E0|]. split; [lra|].
    split; [unfold f2, g2, h2, d2 in V2; lra|].
    set (sq := sqrt _) in SJ. assert (0 < sq) by (apply sqrt_lt_R0; exact HDpos).
    assert (JJ : 0 < s * ((d1 * g2 - g1 * d2) * E + (d1 * h2 - h1 * d2) * L)).
    { apply (pos_factor _ (- (g1 * h2 - h1 * g2))); [lra|].
      replace (- (g1 * h2 - h1 * g2) * (s * ((d1 * g2 - g1 * d2) * E + (d1 * h2 - h1 * d2) * L)))
        with (s * (E * s * sq)) by (rewrite SJ; ring).
      replace (s * (E * s * sq)) with (s^2 * (E * sq)) by ring.
      replace (s^2) with 1 by (destruct Hs; subst; ring). rewrite Rmult_1_l. apply Rmult_lt_0_compat; assumption. }
    split; [|unfold f2, g2, h2, d2 in JJ; lra].
    destruct Hs as [-> | ->].
    + assert (Hj : 0 < (d1 * g2 - g1 * d2) * E + (d1 * h2 - h1 * d2) * L).
      { apply (pos_factor _ (- (g1 * h2 - h1 * g2))); [lra|].
        rewrite <- SJ. apply Rmult_lt_0_compat; [lra | assumption]. }
      assert (HLj : L * ((d1 * g2 - g1 * d2) * E + ((d1 * g2 - g1 * d2) * E + (d1 * h2 - h1 * d2) * L))
               = (d1 * f2 - d2 * f1) * E^2).
      { transitivity ((d1 * f2 - d2 * f1) * E^2 - (d1 * (f2 * E ^ 2 - 2 * g2 * E * L - h2 * L ^ 2)
           - d2 * (f1 * E ^ 2 - 2 * g1 * E * L - h1 * L ^ 2))); [ring|]. rewrite V1, V2. ring. }
      assert (0 < (d1 * f2 - d2 * f1) * E^2) by (apply Rmult_lt_0_compat; [lra | apply pow_lt; lra]).
      assert (0 < (d1 * g2 - g1 * d2) * E) by (apply Rmult_lt_0_compat; lra).
      rewrite Rmult_1_l. eapply pos_factor; [|rewrite Rmult_comm, HLj; assumption]. lra.
    + specialize (Hret eq_refl). destruct (HR Hret) as [K3 _].
      assert (0 < g1 * E). { unfold g1, cg. repeat apply Rmult_lt_0_compat; lra. }
      assert (0 < h1 * (-1 * L)) by lra. apply (pos_factor _ h1); assumption.
Qed.

(** ** unfolding the code on accepted parameters (0 <= a) *)
Section C.
Context {X : External R} (HX : root_spec X).

Lemma accepted a p e x E :
  0 <= a -> energy (Some a) (Some p) (Some e) (Some x) = Ret E ->
  check_constants_params a p e x = Ret tt.
Proof.
  intros Ha H. unfold energy in H. rewrite std_nonneg in H by assumption.
  rewrite check_constants_some in H.
  destruct (check_constants_params a p e x) as [[]| |]; [reflexivity | discriminate | discriminate].
Qed.

(* the three functions after their prologue *)
Lemma energy_run a p e x : 0 <= a -> check_constants_params a p e x = Ret tt ->
  energy (Some a) (Some p) (Some e) (Some x) =
  Ret (if Reqb e 1 then Some 1 else if Reqb x 0 then polar_energy (Some a) (Some p) (Some e)
       else if Reqb e 0 then schmidt_energy (coefficients (Some p) (Some a) (Some x))
              (coefficients_derivative (Some p) (Some a) (Some x)) (Some x)
       else schmidt_energy (coefficients (cdiv (Some p) (Some (1 - e))) (Some a) (Some x))
              (coefficients (cdiv (Some p) (Some (1 + e))) (Some a) (Some x)) (Some x)).
Proof.
  intros Ha H. unfold energy. rewrite std_nonneg by assumption.
  rewrite check_constants_some, H. cbn [bind].
  change (neqb (Some e) (nZ 1)) with (Some (Reqb e 1)).
  change (neqb (Some x) (nZ 0)) with (Some (Reqb x 0)).
  change (neqb (Some e) (nZ 0)) with (Some (Reqb e 0)).
  destruct (Reqb e 1); cbn [ifo]; [reflexivity|].
  destruct (Reqb x 0); cbn [ifo]; [reflexivity|].
  destruct (Reqb e 0); cbn [ifo]; reflexivity.
Qed.
Lemma angular_momentum_run a p e x E : 0 <= a -> check_constants_params a p e x = Ret tt ->
  angular_momentum (Some a) (Some p) (Some e) (Some x) (Some E) =
  Ret (if Reqb x 0 then Some 0
       else if Reqb e 1 then schmidt_L (coefficients (cdiv (Some p) (Some (1 + e))) (Some a) (Some x)) (Some x) E
       else schmidt_L (coefficients (cdiv (Some p) (Some (1 - e))) (Some a) (Some x)) (Some x) E).
Proof.
  intros Ha H. unfold angular_momentum. rewrite std_nonneg by assumption.
  rewrite check_constants_some, H. cbn [bind default].
  change (neqb (Some e) (nZ 1)) with (Some (Reqb e 1)).
  change (neqb (Some x) (nZ 0)) with (Some (Reqb x 0)).
  destruct (Reqb x 0); cbn [ifo]; [reflexivity|].
  destruct (Reqb e 1); cbn [ifo]; reflexivity.
Qed.
Lemma carter_run a p e x E L : 0 <= a -> check_constants_params a p e x = Ret tt ->
  carter_constant (Some a) (Some p) (Some e) (Some x) (Some E) (Some L) =
  Ret (if Reqb x 0 then polar_carter (Some a) (Some p) (Some e)
       else (nsqrt (nZ 1 - (Some x)^2) ^ 2 * ((Some a)^2 * (nZ 1 - E^2) + L^2 / (nZ 1 - nsqrt (nZ 1 - (Some x)^2) ^ 2)))%num).
Proof.
  intros Ha H. unfold carter_constant. rewrite std_nonneg by assumption.
  rewrite check_constants_some, H. cbn [bind default].
  change (neqb (Some x) (nZ 0)) with (Some (Reqb x 0)).
  destruct (Reqb x 0); cbn [ifo]; reflexivity.
Qed.
Lemma carter_value a x E L : x <> 0 -> -1 <= x <= 1 ->
  (nsqrt (nZ 1 - (Some x)^2) ^ 2 * ((Some a)^2 * (nZ 1 - (Some E)^2) + (Some L)^2 / (nZ 1 - nsqrt (nZ 1 - (Some x)^2) ^ 2)))%num
  = Some ((1 - x^2) * (a^2 * (1 - E^2) + L^2 / x^2)).
Proof.
  intros H H1. cnum. rewrite csqrt_some by nra. rewrite pow2_sqrt by nra.
  assert (x^2 <> 0) by (apply pow_nonzero; assumption).
  rewrite cdiv_some by lra. do 3 f_equal. f_equal. f_equal. ring.
Qed.

(** negative spins: the constants are those of (|a|, sgn(a) x) *)
Lemma constants_std a p e x :
  constants_of_motion (Some a) (Some p) (Some e) (Some x)
  = constants_of_motion (Some (Rabs a)) (Some p) (Some e) (Some (x * spin_sign a)).
Proof.
  unfold constants_of_motion, energy, angular_momentum, carter_constant.
  rewrite !std_some, Rabs_Rabsolu, spin_sign_abs, Rmult_1_r. reflexivity.
Qed.

(** the defined results of constants_of_motion *)
Lemma constants_inv a p e x E L Q : 0 <= a ->
  constants_of_motion (Some a) (Some p) (Some e) (Some x) = Ret (Some E, Some L, Some Q) ->
  check_constants_params a p e x = Ret tt /\
  energy (Some a) (Some p) (Some e) (Some x) = Ret (Some E) /\
  angular_momentum (Some a) (Some p) (Some e) (Some x) (Some (Some E)) = Ret (Some L) /\
  carter_constant (Some a) (Some p) (Some e) (Some x) (Some (Some E)) (Some (Some L)) = Ret (Some Q).
Proof.
  intros Ha H. unfold constants_of_motion in H.
  destruct (energy (Some a) (Some p) (Some e) (Some x)) as [E'| |] eqn:HE; cbn [bind] in H; try discriminate.
  pose proof (accepted a p e x E' Ha HE) as HC.
  destruct (angular_momentum (Some a) (Some p) (Some e) (Some x) (Some E')) as [L'| |] eqn:HL;
    cbn [bind] in H; try discriminate.
  destruct (carter_constant (Some a) (Some p) (Some e) (Some x) (Some E') (Some L')) as [Q'| |] eqn:HQ;
    cbn [bind] in H; try discriminate.
  assert (E' = Some E /\ L' = Some L /\ Q' = Some Q) as [-> [-> ->]] by (now inversion H).
  auto.
Qed.

(** everything the constants satisfy, for standardised parameters *)
Definition correct_constants (a p e x E L Q : R) : Prop :=
  (* turning points *)
  (e < 1 -> radial_potential a E L Q (p / (1 - e)) = 0) /\
  radial_potential a E L Q (p / (1 + e)) = 0 /\
  (e = 0 -> is_derive (radial_potential a E L Q) p 0) /\
  (e = 1 -> E = 1) /\
  (* polar turning point and orientation *)
  polar_polynomial a E L Q (1 - x^2) = 0 /\
  (0 < x -> 0 < L) /\ (x < 0 -> L < 0) /\ (x = 0 -> L = 0) /\
  0 < E.

Lemma polar_R a E Q r : radial_potential a E 0 Q r
  = E^2 * ((r^2 + a^2)^2 - a^2 * Delta a r) - Delta a r * (r^2 + Q).
Proof. unfold radial_potential. ring. Qed.

Lemma polar_correct a p e E L Q : 0 <= a ->
  constants_of_motion (Some a) (Some p) (Some e) (Some 0) = Ret (Some E, Some L, Some Q) ->
  correct_constants a p e 0 E L Q.
Proof.
  intros Ha H. apply constants_inv in H as [HC [HE [HL HQ]]]; [|assumption].
  rewrite energy_run in HE by assumption. rewrite angular_momentum_run in HL by assumption.
  rewrite carter_run in HQ by assumption.
  destruct (accepted_bounds HX a p e 0 Ha HC) as [Ha1 [He [_ [Hr [HD [Hp _]]]]]].
  specialize (Hp ltac:(lra)).
  rewrite (Reqb_true 0 0) in HE, HL, HQ by reflexivity. injection HL as <-.
  set (den := a^4 * (-1 + e^2)^2 * (-1 + e^2 - p) + (3 + e^2 - p) * p^4
              - 2 * a^2 * p^2 * (-1 - e^4 + p + e^2 * (2 + p))).
  assert (HQ' : den <> 0 /\ Q = - (p^2 * (a^4 * (-1 + e^2)^2 + p^4 + 2 * a^2 * p * (-2 + p + e^2 * (2 + p))) / den)).
  { injection HQ as HQ. unfold polar_carter in HQ. cnum_in HQ.
    unfold cdiv in HQ. destruct (Req_EM_T _ 0) as [|Hd]; [discriminate|].
    injection HQ as <-. split; [exact Hd | reflexivity]. }
  destruct HQ' as [Hd HQ'].
  unfold correct_constants.
  assert (Hden : den < 0).
  { unfold den. assert (0 <= e^2 <= 1) by nra. assert (0 <= a^4 * (-1 + e^2)^2) by (apply Rmult_le_pos; [apply pow_le; lra | apply pow2_ge_0]).
    assert (a^4 * (-1 + e^2)^2 * (-1 + e^2 - p) <= 0) by nra.
    assert (0 < p^4) by (apply pow_lt; lra). assert ((3 + e^2 - p) * p^4 < 0) by nra.
    assert (0 <= 2 * a^2 * p^2) by (repeat apply Rmult_le_pos; try lra; apply pow2_ge_0).
    assert (0 <= -1 - e^4 + p + e^2 * (2 + p)).
    { replace (-1 - e^4 + p + e^2 * (2 + p)) with (p - (1 - e^2)^2 + e^2 * p) by ring. nra. }
    nra. }
  assert (PZ : polar_polynomial a E 0 Q (1 - 0^2) = 0) by (unfold polar_polynomial; ring).
  destruct (Reqb_spec e 1) as [->|He1].
  - injection HE as <-.
    assert (den <> 0 /\ p <> 0) as [_ Hp0] by lra.
    refine (conj _ (conj _ (conj _ (conj _ (conj PZ (conj _ (conj _ (conj _ _)))))))); try lra; try (intros; exfalso; lra).
    + rewrite polar_R, HQ'. unfold Delta.
      assert (D1 : den = - (p^3 * (p * (p - 4) + 4 * a^2))) by (unfold den; ring).
      rewrite D1 in *. field. repeat split; try lra. nra.
  - assert (HE' : 0 <= E /\ E^2 = - (p * (a^4 * (-1 + e^2)^2 + (-4 * e^2 + (-2 + p)^2) * p^2
                 + 2 * a^2 * p * (-2 + p + e^2 * (2 + p))) / den)).
    { injection HE as HE. unfold polar_energy in HE. cnum_in HE.
      unfold cdiv in HE. destruct (Req_EM_T _ 0) as [|Hd']; [discriminate|].
      apply csqrt_inv in HE as [Hn ->]. split; [apply sqrt_pos|]. rewrite pow2_sqrt by assumption. reflexivity. }
    destruct HE' as [HE0 HE'].
    assert (1 - e <> 0) by lra.
    assert (F1 : radial_potential a E 0 Q (p / (1 - e)) = 0).
    { rewrite polar_R, HE', HQ'. unfold Delta, den in *. field. repeat split; solve [lra | exact Hd]. }
    assert (F2 : radial_potential a E 0 Q (p / (1 + e)) = 0).
    { rewrite polar_R, HE', HQ'. unfold Delta, den in *. field. repeat split; solve [lra | exact Hd]. }
    refine (conj (fun _ => F1) (conj F2 (conj _ (conj _ (conj PZ (conj _ (conj _ (conj _ _)))))))); try lra.
    + intros ->. assert (D : is_derive (radial_potential a E 0 Q) p
         (E^2 * (2 * (p^2 + a^2) * (2 * p) - a^2 * (2 * p - 2)) - (2 * p - 2) * (p^2 + Q) - (p^2 - 2 * p + a^2) * (2 * p))).
      { apply (is_derive_ext (fun r => E^2 * ((r^2 + a^2)^2 - a^2 * Delta a r) - Delta a r * (r^2 + Q)));
          [intros; symmetry; apply polar_R|]. unfold Delta. auto_derive; [exact I | ring]. }
      replace 0 with (E^2 * (2 * (p^2 + a^2) * (2 * p) - a^2 * (2 * p - 2)) - (2 * p - 2) * (p^2 + Q) - (p^2 - 2 * p + a^2) * (2 * p)) at 2; [exact D|].
      rewrite HE', HQ'. unfold den in *. field. lra.
    + (* E > 0 *)
      assert (0 < E^2).
      { rewrite HE'. replace (- (p * (a^4 * (-1 + e^2)^2 + (-4 * e^2 + (-2 + p)^2) * p^2
                 + 2 * a^2 * p * (-2 + p + e^2 * (2 + p))) / den))
          with (p * (a^4 * (-1 + e^2)^2 + (-4 * e^2 + (-2 + p)^2) * p^2
                 + 2 * a^2 * p * (-2 + p + e^2 * (2 + p))) / (- den)) by (field; assumption).
        apply Rdiv_lt_0_compat; [|lra]. apply Rmult_lt_0_compat; [lra|].
        assert (0 <= e^2 <= 1) by nra.
        assert (0 <= a^4 * (-1 + e^2)^2) by (apply Rmult_le_pos; [apply pow_le; lra | apply pow2_ge_0]).
        assert (0 < -4 * e^2 + (-2 + p)^2) by nra.
        assert (0 < (-4 * e^2 + (-2 + p)^2) * p^2) by (apply Rmult_lt_0_compat; [lra | apply pow_lt; lra]).
        assert (0 <= 2 * a^2 * p * (-2 + p + e^2 * (2 + p))).
        { apply Rmult_le_pos; [apply Rmult_le_pos; [|lra]; apply Rmult_le_pos; [lra | apply pow2_ge_0] | nra]. }
        lra. }
      nra.
Qed.

(** ** Schwarzschild *)
Lemma schmidt_energy_val f1 g1 h1 d1 f2 g2 h2 d2 x y :
  let kappa := d1 * h2 - h1 * d2 in
  let rho := f1 * h2 - h1 * f2 in
  let sigma := g1 * h2 - h1 * g2 in
  let epsilon := d1 * g2 - g1 * d2 in
  let eta := f1 * g2 - g1 * f2 in
  let N := rho^2 + 4 * eta * sigma in
  let D := sigma * (sigma * epsilon^2 + rho * epsilon * kappa - eta * kappa^2) in
  N <> 0 -> 0 <= D ->
  y * N = kappa * rho + 2 * epsilon * sigma - Rsgn x * 2 * sqrt D -> 0 <= y ->
  schmidt_energy (Some f1, Some g1, Some h1, Some d1) (Some f2, Some g2, Some h2, Some d2) (Some x)
    = Some (sqrt y).
Proof.
  cbv zeta. intros HN HD Hy Hy0. unfold schmidt_energy. cnum.
  rewrite (csqrt_some _ HD). rewrite cdiv_some by assumption.
  match goal with |- csqrt (Some ?t) = _ => assert (E : t = y) end.
  { rewrite <- Hy. field. exact HN. }
  rewrite E. now apply csqrt_some.
Qed.
Lemma schmidt_L_val f g h d x E rad :
  h <> 0 -> rad = - d * h + E^2 * (g^2 + f * h) -> 0 <= rad ->
  schmidt_L (Some f, Some g, Some h, Some d) (Some x) (Some E)
  = Some ((- E * g + Rsgn x * sqrt rad) / h).
Proof.
  intros Hh -> Hr. unfold schmidt_L. cnum. rewrite (csqrt_some _ Hr). now rewrite cdiv_some by assumption.
Qed.

Lemma accepts_schwarzschild p e x : 6 + 2 * e < p -> 0 <= e <= 1 -> -1 <= x <= 1 ->
  check_constants_params 0 p e x = Ret tt.
Proof.
  intros Hp He Hx. destruct (check_constants_cases 0 p e x ltac:(lra)) as [_ [_ H]].
  rewrite (H (6 + 2 * e)); [|lra|].
  - destruct (Rlt_dec (6 + 2 * e) p); [reflexivity | lra].
  - rewrite separatrix_R, valid_params_true by (unfold in_range; lra).
    rewrite Reqb_false, Reqb_true by lra. reflexivity.
Qed.
Lemma Rsgn_mult_abs x : Rsgn x * Rabs x = x.
Proof.
  destruct (Rtotal_order x 0) as [H|[-> |H]].
  - rewrite Rsgn_neg, Rabs_left by assumption. ring.
  - rewrite Rabs_R0. ring.
  - rewrite Rsgn_pos, Rabs_pos_eq by lra. ring.
Qed.

(* schmidt_L at a = 0 *)
Lemma schw_L w r x E q p : 0 < w -> w = x^2 -> 2 < r -> 0 < q -> 0 < p ->
  r^3 * E^2 - r^2 * (r - 2) = (r - 2) * (p / q)^2 ->
  schmidt_L (Some (cf 0 w r), Some (cg 0 r), Some (ch 0 w r), Some (cd 0 w r)) (Some x) (Some E)
  = Some (x * p / q).
Proof.
  intros Hw Hwx Hr Hq Hp H.
  assert (Hh : ch 0 w r = r * (r - 2) / w) by (unfold ch; field; lra).
  assert (Hh0 : 0 < ch 0 w r).
  { rewrite Hh. apply Rdiv_lt_0_compat; [apply Rmult_lt_0_compat; lra | lra]. }
  rewrite (schmidt_L_val _ _ _ _ _ _ ((ch 0 w r * (Rabs x * (p / q)))^2)).
  - rewrite sqrt_pow2.
    2:{ apply Rmult_le_pos; [lra|]. apply Rmult_le_pos; [apply Rabs_pos|]. apply Rlt_le, Rdiv_lt_0_compat; lra. }
    f_equal. unfold cg.
    replace (Rsgn x * (ch 0 w r * (Rabs x * (p / q)))) with (ch 0 w r * (p / q) * (Rsgn x * Rabs x)) by ring.
    rewrite Rsgn_mult_abs. field. lra.
  - lra.
  - replace ((ch 0 w r * (Rabs x * (p / q)))^2) with (ch 0 w r ^ 2 * (Rabs x ^ 2 * (p / q)^2)) by ring.
    replace (Rabs x ^ 2) with w by (rewrite pow2_abs; exact Hwx).
    rewrite Hh. unfold cd, cg, cf.
    transitivity (r^2 * (r - 2) / w * ((r - 2) * (p / q)^2)); [field; lra|].
    rewrite <- H. field. lra.
  - apply pow2_ge_0.
Qed.

Theorem schwarzschild_constants p e x : 6 + 2 * e < p -> 0 <= e <= 1 -> -1 <= x <= 1 ->
  constants_of_motion (Some 0) (Some p) (Some e) (Some x)
  = Ret (Some (sqrt (((p - 2)^2 - 4 * e^2) / (p * (p - 3 - e^2)))),
         Some (x * p / sqrt (p - 3 - e^2)),
         Some ((1 - x^2) * (p^2 / (p - 3 - e^2)))).
Proof.
  intros Hp He Hx. pose proof (accepts_schwarzschild p e x Hp He Hx) as HC.
  assert (Hq : 0 < p - 3 - e^2) by nra.
  set (y := ((p - 2)^2 - 4 * e^2) / (p * (p - 3 - e^2))).
  assert (Hy : 0 <= y).
  { unfold y. apply Rlt_le, Rdiv_lt_0_compat; [nra | apply Rmult_lt_0_compat; lra]. }
  set (q := sqrt (p - 3 - e^2)). assert (Hq0 : 0 < q) by (apply sqrt_lt_R0; lra).
  assert (Hq2 : q^2 = p - 3 - e^2) by (apply pow2_sqrt; lra).
  assert (S1 : sqrt 1 = 1) by apply sqrt_1.
  (* energy *)
  assert (HE : energy (Some 0) (Some p) (Some e) (Some x) = Ret (Some (sqrt y))).
  { rewrite energy_run by (assumption || lra). f_equal.
    destruct (Reqb_spec e 1) as [->|He1].
    { f_equal. unfold y. rewrite <- sqrt_1 at 1. f_equal. field. lra. }
    destruct (Reqb_spec x 0) as [->|Hx0].
    { unfold polar_energy. cnum. rewrite cdiv_some.
      2:{ replace (0 ^ 4 * (-1 + e ^ 2) ^ 2 * (-1 + e ^ 2 - p) + (3 + e ^ 2 - p) * p ^ 4 -
             2 * 0 ^ 2 * p ^ 2 * (-1 - e ^ 4 + p + e ^ 2 * (2 + p))) with (- (p^4 * (p - 3 - e^2))) by ring.
          apply Rlt_not_eq. assert (0 < p^4 * (p - 3 - e^2)) by (apply Rmult_lt_0_compat; [apply pow_lt; lra | lra]). lra. }
      match goal with |- csqrt (Some ?t) = _ => replace t with y end.
      - now apply csqrt_some.
      - unfold y. field. repeat split; try lra. }
    rewrite !coefficients_some, !coefficients_derivative_some by assumption.
    assert (Hw : 0 < x^2 <= 1) by (split; [apply pow2_gt_0; assumption | nra]).
    destruct (Reqb_spec e 0) as [->|He0].
    - apply schmidt_energy_val; try exact Hy; unfold cf, cg, ch, cd, cf', cg', ch', cd'.
      + match goal with |- ?t <> 0 => replace t with ((p^4 * (2 * (p - 3)) / x^2)^2) by (field; lra) end.
        apply pow_nonzero, Rgt_not_eq. apply Rdiv_lt_0_compat; [|lra].
        apply Rmult_lt_0_compat; [apply pow_lt; lra | lra].
      + right. ring.
      + match goal with |- context [sqrt ?t] => replace t with 0 by ring end. rewrite sqrt_0.
        unfold y. field. repeat split; lra.
    - assert (H1 : 1 - e <> 0) by lra. assert (H2 : 1 + e <> 0) by lra.
      rewrite !cdiv_some by assumption. rewrite !coefficients_some by assumption.
      apply schmidt_energy_val; try exact Hy; unfold cf, cg, ch, cd.
      + match goal with |- ?t <> 0 => replace t with ((p^5 * (4 * e * (p - 3 - e^2)) / ((1 - e^2)^4 * x^2))^2)
          by (field; repeat split; nra || lra) end.
        apply pow_nonzero, Rgt_not_eq. apply Rdiv_lt_0_compat.
        * apply Rmult_lt_0_compat; [apply pow_lt; lra|]. apply Rmult_lt_0_compat; lra.
        * apply Rmult_lt_0_compat; [apply pow_lt; nra | lra].
      + right. ring.
      + match goal with |- context [sqrt ?t] => replace t with 0 by ring end. rewrite sqrt_0.
        unfold y. field. repeat split; nra || lra. }
  assert (HL : angular_momentum (Some 0) (Some p) (Some e) (Some x) (Some (Some (sqrt y))) = Ret (Some (x * p / q))).
  { rewrite angular_momentum_run by (assumption || lra). f_equal.
    destruct (Reqb_spec x 0) as [->|Hx0]. { f_equal. field. lra. }
    assert (Hw : 0 < x^2 <= 1) by (split; [apply pow2_gt_0; assumption | nra]).
    assert (H2 : 1 + e <> 0) by lra.
    destruct (Reqb_spec e 1) as [->|He1].
    - rewrite !cdiv_some by assumption. rewrite !coefficients_some by assumption.
      apply schw_L; try lra; try reflexivity.
      rewrite pow2_sqrt by assumption. replace ((p / q)^2) with (p^2 / q^2) by (field; lra).
      rewrite Hq2. unfold y. field. lra.
    - assert (H1 : 1 - e <> 0) by lra. rewrite !cdiv_some by assumption. rewrite !coefficients_some by assumption.
      apply schw_L; try lra; try reflexivity.
      + apply Rlt_div_r; lra.
      + rewrite pow2_sqrt by assumption. replace ((p / q)^2) with (p^2 / q^2) by (field; lra).
        rewrite Hq2. unfold y. field. repeat split; lra. }
  assert (HQ : carter_constant (Some 0) (Some p) (Some e) (Some x) (Some (Some (sqrt y))) (Some (Some (x * p / q)))
     = Ret (Some ((1 - x^2) * (p^2 / (p - 3 - e^2))))).
  { rewrite carter_run by (assumption || lra). f_equal.
    destruct (Reqb_spec x 0) as [->|Hx0].
    { unfold polar_carter. cnum.
      assert (D0 : 0 ^ 4 * (-1 + e ^ 2) ^ 2 * (-1 + e ^ 2 - p) + (3 + e ^ 2 - p) * p ^ 4 -
             2 * 0 ^ 2 * p ^ 2 * (-1 - e ^ 4 + p + e ^ 2 * (2 + p)) = - (p^4 * (p - 3 - e^2))) by ring.
      assert (0 < p^4 * (p - 3 - e^2)) by (apply Rmult_lt_0_compat; [apply pow_lt; lra | lra]).
      rewrite cdiv_some by lra. f_equal. field. repeat split; lra. }
    rewrite carter_value by assumption. f_equal. rewrite <- Hq2. field. split; lra. }
  unfold constants_of_motion. rewrite HE. cbn [bind]. rewrite HL. cbn [bind]. rewrite HQ. reflexivity.
Qed.
End C.

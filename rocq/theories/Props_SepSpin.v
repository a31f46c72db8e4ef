(** * C109: faster rotation lets every polar or prograde orbit come closer; C110: critical inclination, eccentricity and spin *)
From Coq Require Import Reals Lra Lia ZArith String List.
From Coquelicot Require Import Coquelicot.
From Verif Require Import Num Outcome External Checked ExternalSpec Spec Model_Constants.
From Verif Require Import P_Validation SepPoly Props_Separatrix P_Bounds P_Constants P_Stability P_Stability3 P_Stability5 P_Continuity Props_Continuity.
From Verif Require Import Props_Stability Props_SepContinuity P_SepIncl Props_SepIncl P_SepEcc Props_SepEcc Props_SepBounds.
Open Scope R_scope.

Section S.
Context {X : External R} (HR : root_spec X).

(** ** C109 *)
Theorem C109_separatrix_decreases_with_spin a a' e x s s' : 0 <= a -> a < a' -> a' < 1 -> 0 <= e < 1 -> 0 <= x <= 1 ->
  separatrix (Some a) (Some e) (Some x) = Ret (Some s) -> separatrix (Some a') (Some e) (Some x) = Ret (Some s') -> s' < s.
Proof.
  intros Ha Haa Ha' He Hx H H'.
  destruct (sep_facts HR a e x s ltac:(lra) He ltac:(lra) H) as (Q1 & D1 & B1).
  destruct (sep_facts HR a' e x s' ltac:(lra) He ltac:(lra) H') as (Q2 & D2 & B2).
  set (q := s / (1 + e)) in *. set (q' := s' / (1 + e)) in *.
  set (k := a^2 * (1 - x^2)) in *. set (k' := a'^2 * (1 - x^2)) in *.
  assert (X2 : 0 <= 1 - x^2) by nra. assert (A2 : a^2 < a'^2) by nra. assert (A0 : 0 <= a^2) by apply pow2_ge_0.
  assert (K : 0 <= k) by (apply Rmult_le_pos; lra).
  apply Rnot_le_lt. intros N.
  assert (QQ : q <= q'). { unfold q, q'. apply Rmult_le_compat_r; [|exact N]. apply Rlt_le, Rinv_0_lt_compat; lra. }
  assert (M1 : bc (cc e) k q' <= a * x).
  { rewrite <- B1. destruct QQ as [QQ|QQ]; [apply Rlt_le, bc_decreases; [exact K | lra | exact D1] | rewrite QQ; lra]. }
  destruct (Req_dec x 1) as [-> |NX].
  - assert (KE : k' = k) by (unfold k, k'; ring). rewrite KE in B2. lra.
  - assert (KK : k < k') by (unfold k, k'; apply Rmult_lt_compat_r; [nra | lra]).
    pose proof (bc_decreases_k (cc e) k k' q' Q2 (conj K KK) D2). assert (a * x <= a' * x) by (apply Rmult_le_compat_r; lra). lra.
Qed.

Theorem C109_stability_grows_with_spin a a' p e x : 0 <= a -> a <= a' -> a' < 1 -> 0 <= e < 1 -> 0 <= x <= 1 ->
  is_stable (Some a) (Some p) (Some e) (Some x) = Ret true -> is_stable (Some a') (Some p) (Some e) (Some x) = Ret true.
Proof.
  intros Ha Haa Ha' He Hx H. destruct Haa as [Haa | <-]; [|exact H].
  destruct (C22_is_stable_above_separatrix HR a e x ltac:(lra) ltac:(lra) ltac:(lra)) as (s & Hs & K).
  destruct (C22_is_stable_above_separatrix HR a' e x ltac:(lra) ltac:(lra) ltac:(lra)) as (s' & Hs' & K').
  rewrite K in H. rewrite K'. destruct (Rlt_dec s p) as [L|L]; [|discriminate].
  pose proof (C109_separatrix_decreases_with_spin a a' e x s s' Ha Haa Ha' He Hx Hs Hs').
  destruct (Rlt_dec s' p) as [L'|L']; [reflexivity | lra].
Qed.
Example C109_case : exists s s', separatrix (Some 0) (Some (1/2)) (Some 0) = Ret (Some s) /\ separatrix (Some (9/10)) (Some (1/2)) (Some 0) = Ret (Some s') /\ s' < s /\ s = 7.
Proof.
  destruct (C19_separatrix_total HR (9/10) (1/2) 0 ltac:(lra) ltac:(lra) ltac:(lra)) as (s' & H' & _).
  pose proof (proj1 (C18_schwarzschild_separatrix (1/2) 0 0 ltac:(lra) ltac:(lra))) as H.
  exists (6 + 2 * (1/2)), s'. refine (conj H (conj H' (conj _ _))); [|lra].
  apply (C109_separatrix_decreases_with_spin 0 (9/10) (1/2) 0); try assumption; lra.
Qed.

(** ** C110: critical values *)
Lemma crossing (f : R -> R) u v y : u < v ->
  (forall zn z, (forall n : nat, u <= zn n <= v) -> u <= z <= v -> is_lim_seq zn z -> is_lim_seq (fun n => f (zn n)) (f z)) ->
  (forall z z', u <= z -> z < z' -> z' <= v -> f z < f z') -> f u < y < f v -> exists z, u < z < v /\ f z = y.
Proof.
  intros UV SC MON (Yu & Yv). set (E := fun z => u <= z <= v /\ f z <= y).
  destruct (completeness E) as (m & M1 & M2); [exists v; intros z ((_ & Z) & _); exact Z | exists u; split; lra|].
  assert (UM : u <= m) by (apply M1; split; lra). assert (MV : m <= v) by (apply M2; intros z ((_ & Z) & _); exact Z).
  assert (INV : forall n, 0 < / (INR n + 1)) by (intros n; apply Rinv_0_lt_compat; pose proof (pos_INR n); lra).
  assert (LI : is_lim_seq (fun n => / (INR n + 1)) 0).
  { replace (Finite 0) with (Rbar_inv p_infty) by reflexivity. apply is_lim_seq_inv; [|discriminate].
    apply (is_lim_seq_plus _ _ p_infty 1); [apply is_lim_seq_INR | apply is_lim_seq_const | reflexivity]. }
  assert (LO : f m <= y).
  { set (zn := fun n => Rmax u (m - / (INR n + 1))).
    assert (ZR : forall n, u <= zn n <= v). { intros n. unfold zn. specialize (INV n). split; [apply Rmax_l | apply Rmax_lub; lra]. }
    assert (ZL : is_lim_seq zn m).
    { apply (is_lim_seq_le_le (fun n => m - / (INR n + 1)) _ (fun _ => m)).
      - intros n. unfold zn. specialize (INV n). split; [apply Rmax_r | apply Rmax_lub; lra].
      - replace (Finite m) with (Rbar_plus m (Rbar_opp 0)) by (cbn; f_equal; ring). apply is_lim_seq_minus'; [apply is_lim_seq_const | ]. exact LI || (replace (Rbar_opp 0) with (Finite 0) in * by (cbn; f_equal; ring); exact LI).
      - apply is_lim_seq_const. }
    pose proof (SC zn m ZR (conj UM MV) ZL) as FL.
    apply (is_lim_seq_le (fun n => f (zn n)) (fun _ => y) (f m) y); [|exact FL|apply is_lim_seq_const]. intros n.
    destruct (Rle_dec (f (zn n)) y) as [L|L]; [exact L | exfalso]. apply Rnot_le_lt in L.
    assert (NU : u < zn n). { destruct (ZR n) as ([O|O] & _); [exact O | rewrite <- O in L; lra]. }
    assert (ZE : zn n = m - / (INR n + 1)). { unfold zn in NU |- *. destruct (Rle_dec u (m - / (INR n + 1))) as [R|R]; [rewrite (Rmax_right _ _ R) in *; lra | rewrite (Rmax_left u _) in NU by lra; lra]. }
    assert (m <= zn n); [|specialize (INV n); lra]. apply M2. intros z ((Z1 & Z2) & Z3). apply Rnot_lt_le. intros Q.
    pose proof (MON (zn n) z ltac:(lra) Q Z2). lra. }
  assert (MLT : m < v). { destruct MV as [MV|MV]; [exact MV | exfalso; rewrite MV in LO; lra]. }
  assert (HI : y <= f m).
  { set (zn := fun n => Rmin v (m + / (INR n + 1))).
    assert (ZR : forall n, u <= zn n <= v). { intros n. unfold zn. specialize (INV n). split; [apply Rmin_glb; lra | apply Rmin_l]. }
    assert (ZG : forall n, m < zn n). { intros n. unfold zn. specialize (INV n). apply Rmin_glb_lt; lra. }
    assert (ZL : is_lim_seq zn m).
    { apply (is_lim_seq_le_le (fun _ => m) _ (fun n => m + / (INR n + 1))).
      - intros n. specialize (ZG n). split; [lra | apply Rmin_r].
      - apply is_lim_seq_const.
      - replace (Finite m) with (Finite (m + 0)) by (f_equal; ring). apply is_lim_seq_plus'; [apply is_lim_seq_const | exact LI]. }
    pose proof (SC zn m ZR (conj UM MV) ZL) as FL.
    apply (is_lim_seq_le (fun _ => y) (fun n => f (zn n)) y (f m)); [|apply is_lim_seq_const|exact FL]. intros n.
    apply Rlt_le, Rnot_le_lt. intros L. specialize (ZG n). assert (zn n <= m); [|lra]. apply M1. split; [apply ZR | exact L]. }
  exists m. assert (f m = y) by lra. split; [|assumption]. split; [|exact MLT]. destruct UM as [UM|UM]; [exact UM | exfalso; rewrite <- UM in H; lra].
Qed.

Definition sepf (a e x : R) : R := match separatrix (Some a) (Some e) (Some x) with Ret (Some s) => s | _ => 0 end.
Lemma sepf_eq a e x : 0 <= a < 1 -> 0 <= e < 1 -> -1 <= x <= 1 -> separatrix (Some a) (Some e) (Some x) = Ret (Some (sepf a e x)).
Proof.
  intros Ha He Hx. destruct (C19_separatrix_total HR a e x ltac:(lra) ltac:(lra) ltac:(lra)) as (s & H & _). unfold sepf. rewrite H. reflexivity.
Qed.
Lemma stable_iff a p e x : 0 <= a < 1 -> 0 <= e < 1 -> -1 <= x <= 1 ->
  is_stable (Some a) (Some p) (Some e) (Some x) = Ret true <-> sepf a e x < p.
Proof.
  intros Ha He Hx. destruct (C22_is_stable_above_separatrix HR a e x ltac:(lra) ltac:(lra) ltac:(lra)) as (s & Hs & K). rewrite K. unfold sepf. rewrite Hs.
  destruct (Rlt_dec s p) as [L|L]; split; intros Q; try assumption; try reflexivity; try discriminate; contradiction.
Qed.
Lemma sepf_lim (an en xn : nat -> R) a e x : (forall n, 0 <= an n < 1 /\ 0 <= en n < 1 /\ -1 <= xn n <= 1) -> 0 <= a < 1 -> 0 <= e < 1 -> -1 <= x <= 1 ->
  is_lim_seq an a -> is_lim_seq en e -> is_lim_seq xn x -> is_lim_seq (fun n => sepf (an n) (en n) (xn n)) (sepf a e x).
Proof.
  intros R Ha He Hx La Le Lx. apply (C85_separatrix_continuous HR an en xn _ a e x); try assumption.
  - intros n. destruct (R n) as (R1 & R2 & R3). apply sepf_eq; assumption.
  - apply sepf_eq; assumption.
Qed.

(** between the equatorial separatrices there is one critical inclination: exactly the orbits more prograde than it exist *)
Theorem C110_critical_inclination a e p sp sr : 0 < a < 1 -> 0 <= e < 1 ->
  separatrix (Some a) (Some e) (Some 1) = Ret (Some sp) -> separatrix (Some a) (Some e) (Some (-1)) = Ret (Some sr) -> sp < p < sr ->
  exists xc, -1 < xc < 1 /\ separatrix (Some a) (Some e) (Some xc) = Ret (Some p) /\
    forall x, -1 <= x <= 1 -> (is_stable (Some a) (Some p) (Some e) (Some x) = Ret true <-> xc < x).
Proof.
  intros Ha He Hsp Hsr Hp.
  destruct (crossing (fun x => - sepf a e x) (-1) 1 (- p) ltac:(lra)) as (xc & XC & E).
  - intros zn z Zn Z L. apply (is_lim_seq_opp _ (sepf a e z)). apply (sepf_lim (fun _ => a) (fun _ => e) zn); try assumption; try lra; try apply is_lim_seq_const.
    intros n. specialize (Zn n). lra.
  - intros z z' Z ZZ Z'. apply Ropp_lt_contravar. apply (C106_separatrix_decreases_with_inclination HR a e z z'); try assumption; apply sepf_eq; lra.
  - unfold sepf. rewrite Hsp, Hsr. lra.
  - assert (EP : sepf a e xc = p) by lra. exists xc. split; [exact XC|]. split; [rewrite <- EP; apply sepf_eq; lra|].
    intros x Hx. rewrite stable_iff by lra. rewrite <- EP. split; intros Q.
    + apply Rnot_le_lt. intros N. destruct N as [N| ->]; [|lra].
      pose proof (C106_separatrix_decreases_with_inclination HR a e x xc (sepf a e x) (sepf a e xc) Ha He ltac:(lra) N ltac:(lra) ltac:(apply sepf_eq; lra) ltac:(apply sepf_eq; lra)). lra.
    + apply (C106_separatrix_decreases_with_inclination HR a e xc x); try assumption; try lra; apply sepf_eq; lra.
Qed.

(** in particular the separatrix takes its Schwarzschild value at exactly one, retrograde, inclination *)
Theorem C110_schwarzschild_inclination a e sr : 0 < a < 1 -> 0 <= e < 1 -> separatrix (Some a) (Some e) (Some (-1)) = Ret (Some sr) ->
  exists xc, -1 < xc < 0 /\ separatrix (Some a) (Some e) (Some xc) = Ret (Some (6 + 2 * e)) /\
    forall x, -1 <= x <= 1 -> (is_stable (Some a) (Some (6 + 2 * e)) (Some e) (Some x) = Ret true <-> xc < x).
Proof.
  intros Ha He Hsr.
  assert (L1 : 6 + 2 * e < sr).
  { apply (proj2 (C85_equatorial_monotone HR 0 a e (6 + 2 * e) sr ltac:(lra) ltac:(lra) He)); [|exact Hsr].
    apply (proj1 (C18_schwarzschild_separatrix e (-1) 0 ltac:(lra) ltac:(lra))). }
  pose proof (sepf_eq a e 1 ltac:(lra) He ltac:(lra)) as Hsp.
  pose proof (C108_prograde_below_schwarzschild HR a e 1 _ Ha He ltac:(lra) Hsp) as L2.
  destruct (C110_critical_inclination a e (6 + 2 * e) _ sr Ha He Hsp Hsr (conj L2 L1)) as (xc & XC & E & ST).
  exists xc. split; [|split; assumption]. split; [lra|]. apply Rnot_le_lt. intros N.
  pose proof (C108_prograde_below_schwarzschild HR a e xc _ Ha He ltac:(lra) E). lra.
Qed.

(** between two eccentricities there is one critical eccentricity: exactly the rounder orbits exist *)
Theorem C110_critical_eccentricity a x p e1 s0 s1 : 0 <= a < 1 -> -1 <= x <= 1 -> 0 < e1 < 1 ->
  separatrix (Some a) (Some 0) (Some x) = Ret (Some s0) -> separatrix (Some a) (Some e1) (Some x) = Ret (Some s1) -> s0 < p < s1 ->
  exists ec, 0 < ec < e1 /\ separatrix (Some a) (Some ec) (Some x) = Ret (Some p) /\
    forall e, 0 <= e < 1 -> (is_stable (Some a) (Some p) (Some e) (Some x) = Ret true <-> e < ec).
Proof.
  intros Ha Hx He1 H0 H1 Hp.
  destruct (crossing (fun e => sepf a e x) 0 e1 p ltac:(lra)) as (ec & EC & E).
  - intros zn z Zn Z L. apply (sepf_lim (fun _ => a) zn (fun _ => x)); try assumption; try lra; try apply is_lim_seq_const.
    intros n. specialize (Zn n). lra.
  - intros z z' Z ZZ Z'. apply (C107_separatrix_increases_with_eccentricity HR a z z' x); try assumption; try lra; apply sepf_eq; lra.
  - unfold sepf. rewrite H0, H1. lra.
  - exists ec. split; [exact EC|]. split; [rewrite <- E; apply sepf_eq; lra|].
    intros e He. rewrite stable_iff by lra. rewrite <- E. split; intros Q.
    + apply Rnot_le_lt. intros N. destruct N as [N| <-]; [|lra].
      pose proof (C107_separatrix_increases_with_eccentricity HR a ec e x (sepf a ec x) (sepf a e x) Ha ltac:(lra) N ltac:(lra) Hx ltac:(apply sepf_eq; lra) ltac:(apply sepf_eq; lra)). lra.
    + apply (C107_separatrix_increases_with_eccentricity HR a e ec x); try assumption; try lra; apply sepf_eq; lra.
Qed.

(** between two spins, for polar and prograde orbits, there is one critical spin: exactly the faster holes allow the orbit *)
Theorem C110_critical_spin x p e a1 s1 : 0 <= x <= 1 -> 0 <= e < 1 -> 0 < a1 < 1 ->
  separatrix (Some a1) (Some e) (Some x) = Ret (Some s1) -> s1 < p < 6 + 2 * e ->
  exists ac, 0 < ac < a1 /\ separatrix (Some ac) (Some e) (Some x) = Ret (Some p) /\
    forall a, 0 <= a < 1 -> (is_stable (Some a) (Some p) (Some e) (Some x) = Ret true <-> ac < a).
Proof.
  intros Hx He Ha1 H1 Hp.
  destruct (crossing (fun a => - sepf a e x) 0 a1 (- p) ltac:(lra)) as (ac & AC & E).
  - intros zn z Zn Z L. apply (is_lim_seq_opp _ (sepf z e x)). apply (sepf_lim zn (fun _ => e) (fun _ => x)); try assumption; try lra; try apply is_lim_seq_const.
    intros n. specialize (Zn n). lra.
  - intros z z' Z ZZ Z'. apply Ropp_lt_contravar. apply (C109_separatrix_decreases_with_spin z z' e x); try assumption; try lra; apply sepf_eq; lra.
  - unfold sepf. rewrite H1, (proj1 (C18_schwarzschild_separatrix e x 0 ltac:(lra) ltac:(lra))). lra.
  - assert (EP : sepf ac e x = p) by lra. exists ac. split; [exact AC|]. split; [rewrite <- EP; apply sepf_eq; lra|].
    intros a Ha. rewrite stable_iff by lra. rewrite <- EP. split; intros Q.
    + apply Rnot_le_lt. intros N. destruct N as [N| ->]; [|lra].
      pose proof (C109_separatrix_decreases_with_spin a ac e x (sepf a e x) (sepf ac e x) ltac:(lra) N ltac:(lra) He Hx ltac:(apply sepf_eq; lra) ltac:(apply sepf_eq; lra)). lra.
    + apply (C109_separatrix_decreases_with_spin ac a e x); try assumption; try lra; apply sepf_eq; lra.
Qed.

(** concrete case: a = 9/10, circular orbits at p = 6 *)
Example C110_case : exists xc, -1 < xc < 0 /\ is_stable (Some (9/10)) (Some 6) (Some 0) (Some 0) = Ret true /\
  is_stable (Some (9/10)) (Some 6) (Some 0) (Some xc) <> Ret true.
Proof.
  destruct (C110_schwarzschild_inclination (9/10) 0 _ ltac:(lra) ltac:(lra) (sepf_eq (9/10) 0 (-1) ltac:(lra) ltac:(lra) ltac:(lra))) as (xc & XC & _ & ST).
  replace (6 + 2 * 0) with 6 in ST by ring. exists xc. refine (conj XC (conj _ _)); [apply ST; lra|].
  intros N. apply ST in N; lra.
Qed.
End S.

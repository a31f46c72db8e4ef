(** * From the first-order equations to the geodesic equation of the metric (pure reals, and [metric]) *)
From Coq Require Import Reals Lra Lia ZArith List.
From Coquelicot Require Import Coquelicot.
From Verif Require Import Num Outcome External Checked Model_Spacetime Spec SpecGeodesic.
Import ListNotations.
Open Scope R_scope.

(** the array returned by KerrSpacetime(a).metric at the point x, as real numbers *)
Definition entry (m : list (list (option R))) (i j : nat) : R :=
  match nth j (nth i m []) None with Some v => v | None => 0 end.
Definition metric_at (a : R) (x : nat -> R) (i j : nat) : R :=
  entry (metric (Some a) (Some (x 0%nat)) (Some (x 1%nat)) (Some (x 2%nat)) (Some (x 3%nat))) i j.

(** its entries where it is defined *)
Definition gK (a r c s2 : R) (i j : nat) : R :=
  let S := r^2 + a^2 * c^2 in
  match i, j with
  | 0%nat, 0%nat => - (1 - 2 * r / S)
  | 0%nat, 3%nat | 3%nat, 0%nat => - 2 * a * r * s2 / S
  | 1%nat, 1%nat => S / (r^2 - 2 * r + a^2)
  | 2%nat, 2%nat => S
  | 3%nat, 3%nat => s2 * (r^2 + a^2 + 2 * a^2 * r * s2 / S)
  | _, _ => 0
  end.
Lemma metric_at_val a x i j : Sigma a (x 1%nat) (x 2%nat) <> 0 -> Delta a (x 1%nat) <> 0 -> (i < 4)%nat -> (j < 4)%nat ->
  metric_at a x i j = gK a (x 1%nat) (cos (x 2%nat)) (sin (x 2%nat) ^2) i j.
Proof.
  intros HS HD Hi Hj. unfold metric_at, metric. cnum. unfold Sigma, Delta in *.
  unfold cdiv. destruct (Req_EM_T (x 1%nat ^ 2 + a ^ 2 * cos (x 2%nat) ^ 2) 0); [contradiction|].
  destruct (Req_EM_T (x 1%nat ^ 2 - 2 * x 1%nat + a ^ 2) 0); [contradiction|].
  do 4 (destruct i as [|i]; [do 4 (destruct j as [|j]; [unfold entry, gK; simpl; try reflexivity; field; assumption|]); lia|]). lia.
Qed.

(** partial derivatives of the entries *)
Definition gKr (a r c s2 : R) (i j : nat) : R :=
  let S := r^2 + a^2 * c^2 in let D := r^2 - 2 * r + a^2 in
  match i, j with
  | 0%nat, 0%nat => 2 * (S - 2 * r^2) / S^2
  | 0%nat, 3%nat | 3%nat, 0%nat => - 2 * a * s2 * (S - 2 * r^2) / S^2
  | 1%nat, 1%nat => (2 * r * D - S * (2 * r - 2)) / D^2
  | 2%nat, 2%nat => 2 * r
  | 3%nat, 3%nat => s2 * (2 * r + 2 * a^2 * s2 * (S - 2 * r^2) / S^2)
  | _, _ => 0
  end.
Definition gKth (a r c s : R) (i j : nat) : R :=
  let S := r^2 + a^2 * c^2 in let D := r^2 - 2 * r + a^2 in
  match i, j with
  | 0%nat, 0%nat => 4 * r * a^2 * s * c / S^2
  | 0%nat, 3%nat | 3%nat, 0%nat => - 4 * a * r * s * c * (r^2 + a^2) / S^2
  | 1%nat, 1%nat => - 2 * a^2 * s * c / D
  | 2%nat, 2%nat => - 2 * a^2 * s * c
  | 3%nat, 3%nat => 2 * s * c * (r^2 + a^2 + 2 * a^2 * r * s^2 / S) + s^2 * (4 * a^2 * r * s * c * (r^2 + a^2) / S^2)
  | _, _ => 0
  end.
Ltac nz H := let K := fresh in intros K; apply H; rewrite <- K; ring.
Lemma gKr_derive a r c s2 i j : r^2 + a^2 * c^2 <> 0 -> r^2 - 2 * r + a^2 <> 0 -> (i < 4)%nat -> (j < 4)%nat ->
  is_derive (fun y => gK a y c s2 i j) r (gKr a r c s2 i j).
Proof.
  intros HS HD Hi Hj.
  assert (HS' : r * (r * 1) + a^2 * c^2 <> 0) by (simpl in *; exact HS).
  assert (HD' : r * (r * 1) + - (2 * r) + a * (a * 1) <> 0) by (simpl in *; exact HD).
  assert (Z : is_derive (fun _ : R => 0) r 0) by exact (is_derive_const (K := R_AbsRing) (V := R_NormedModule) 0 r).
  destruct i as [|[|[|[|i]]]]; try lia; (destruct j as [|[|[|[|j]]]]; try lia; unfold gK, gKr; try exact Z).
  - auto_derive; [nz HS | field; nz HS].
  - auto_derive; [nz HS | field; nz HS].
  - auto_derive; [nz HD | field; nz HD].
  - auto_derive; [exact I | ring].
  - auto_derive; [nz HS | field; nz HS].
  - auto_derive; [nz HS | field; nz HS].
Qed.
Lemma gKth_derive a r th i j : r^2 + a^2 * cos th ^2 <> 0 -> r^2 - 2 * r + a^2 <> 0 -> (i < 4)%nat -> (j < 4)%nat ->
  is_derive (fun y => gK a r (cos y) (sin y ^2) i j) th (gKth a r (cos th) (sin th) i j).
Proof.
  intros HS HD Hi Hj.
  assert (P : sin th ^2 = 1 - cos th ^2) by (pose proof (sin2_cos2 th) as Z; unfold Rsqr in Z; lra).
  assert (HS' : r * (r * 1) + a * (a * 1) * (cos th * (cos th * 1)) <> 0) by (simpl in HS; exact HS).
  assert (HD' : r * (r * 1) + - (2 * r) + a * (a * 1) <> 0) by (simpl in *; exact HD).
  assert (Z : is_derive (fun _ : R => 0) th 0) by exact (is_derive_const (K := R_AbsRing) (V := R_NormedModule) 0 th).
  destruct i as [|[|[|[|i]]]]; try lia; (destruct j as [|[|[|[|j]]]]; try lia; unfold gK, gKth; try exact Z).
  - auto_derive; [nz HS | field; nz HS].
  - auto_derive; [nz HS |]. set (s := sin th) in *; set (c := cos th) in *; clearbody s c; clear HS'.
    field_simplify_eq; [ring [P] | nz HS].
  - auto_derive; [exact I | field; nz HD].
  - auto_derive; [exact I | ring].
  - auto_derive; [nz HS |]. set (s := sin th) in *; set (c := cos th) in *; clearbody s c; clear HS'.
    field_simplify_eq; [ring [P] | nz HS].
  - auto_derive; [nz HS |]. set (s := sin th) in *; set (c := cos th) in *; clearbody s c; clear HS'.
    field_simplify_eq; [ring [P] | nz HS].
Qed.

(** ** the algebra *)
Section Alg.
Context (a E L Q r c s : R) (P : s^2 = 1 - c^2) (HS : r^2 + a^2 * c^2 <> 0) (HD : r^2 - 2 * r + a^2 <> 0) (Hs : s <> 0).
Local Notation S := (r^2 + a^2 * c^2).
Local Notation D := (r^2 - 2 * r + a^2).
Local Notation PP := (E * (r^2 + a^2) - a * L).
Local Notation T := ((r^2 + a^2) / D * PP + a * (L - a * E * s^2)).
Local Notation F := (a / D * PP + (L / s^2 - a * E)).
Local Notation RR := (PP^2 - D * (r^2 + (L - a * E)^2 + Q)).
Local Notation VV := (Q - c^2 * (a^2 * (1 - E^2) + L^2 / s^2)).
Lemma s2_nz : s^2 <> 0. Proof. now apply pow_nonzero. Qed.
Lemma c2_nz : 1 - c^2 <> 0. Proof. rewrite <- P. apply s2_nz. Qed.
Ltac fin := repeat match goal with |- _ /\ _ => split end; first [assumption | nz HS | nz HD | nz c2_nz | idtac].
Ltac alg := rewrite ?P; pose proof c2_nz; unfold gK, gKr, gKth; field; fin.
Lemma id_t : gK a r c (s^2) 0 0 * (T / S) + gK a r c (s^2) 0 3 * (F / S) = - E.
Proof. alg. Qed.
Lemma id_phi : gK a r c (s^2) 3 0 * (T / S) + gK a r c (s^2) 3 3 * (F / S) = L.
Proof. alg. Qed.
Lemma id_norm : gK a r c (s^2) 0 0 * (T / S) * (T / S) + 2 * (gK a r c (s^2) 0 3 * (T / S) * (F / S))
  + gK a r c (s^2) 3 3 * (F / S) * (F / S) + gK a r c (s^2) 1 1 * (RR / S^2) + gK a r c (s^2) 2 2 * (VV / S^2) = -1.
Proof. alg. Qed.
Lemma id_r : ((2 * E * r * PP - (r - 1) * (r^2 + (L - a * E)^2 + Q) - r * D) * D - RR * (2 * r - 2)) / D^2 =
  S * (1 / 2 * (gKr a r c (s^2) 0 0 * (T / S) * (T / S) + 2 * (gKr a r c (s^2) 0 3 * (T / S) * (F / S))
  + gKr a r c (s^2) 3 3 * (F / S) * (F / S) + gKr a r c (s^2) 1 1 * (RR / S^2) + gKr a r c (s^2) 2 2 * (VV / S^2))).
Proof. alg. Qed.
Lemma id_th : a^2 * (1 - E^2) * s * c + L^2 * c / s^3 =
  S * (1 / 2 * (gKth a r c s 0 0 * (T / S) * (T / S) + 2 * (gKth a r c s 0 3 * (T / S) * (F / S))
  + gKth a r c s 3 3 * (F / S) * (F / S) + gKth a r c s 1 1 * (RR / S^2) + gKth a r c s 2 2 * (VV / S^2))).
Proof.
  replace (L^2 * c / s^3) with (L^2 * c * s / (s^2)^2) by (field; exact Hs).
  replace (a^2 * (1 - E^2) * s * c) with (s * c * (a^2 * (1 - E^2))) by ring.
  unfold gKth. rewrite P. pose proof c2_nz. field; fin.
Qed.
End Alg.

(** ** first-order equations + derivatives of the velocities => geodesic *)
Definition coords (t r th ph : R -> R) (mu : nat) : R -> R :=
  match mu with 0%nat => t | 1%nat => r | 2%nat => th | _ => ph end.
(** R'/2 and Theta'/2 *)
Definition radial_force (a E L Q r : R) : R :=
  2 * E * r * (E * (r^2 + a^2) - a * L) - (r - 1) * (r^2 + (L - a * E)^2 + Q) - r * Delta a r.
Definition polar_force (a E L th : R) : R := a^2 * (1 - E^2) * sin th * cos th + L^2 * cos th / sin th ^3.

Ltac Req := match goal with |- ?x = ?y => change (@eq R x y) end.
Lemma nz_locally (f : R -> R) (x : R) : ex_derive f x -> f x <> 0 -> locally x (fun y => f y <> 0).
Proof.
  intros D N. pose proof (ex_derive_continuous (V := R_NormedModule) f x D) as C.
  apply (C (fun v => v <> 0)). now apply (open_neq 0).
Qed.
Lemma geodesic_from_first_order a E L Q (t r th ph vr vth : R -> R) (D : R -> Prop) :
  (forall l, D l -> locally l D) ->
  (forall l, D l -> 0 < Sigma a (r l) (th l) /\ Delta a (r l) <> 0 /\ sin (th l) <> 0) ->
  (forall l, D l -> is_derive t l (dt_dlambda a E L (r l) (th l)) /\ is_derive ph l (dphi_dlambda a E L (r l) (th l)) /\
     is_derive r l (vr l) /\ is_derive th l (vth l)) ->
  (forall l, D l -> vr l ^2 = radial_potential a E L Q (r l) /\ vth l ^2 = polar_potential a E L Q (th l)) ->
  (forall l, D l -> is_derive vr l (radial_force a E L Q (r l)) /\ is_derive vth l (polar_force a E L (th l))) ->
  timelike_geodesic (metric_at a) D (coords t r th ph) (fun l => Sigma a (r l) (th l)).
Proof.
  intros Op Nz D1 Sq D2.
  set (u := fun mu l => coords (fun l => dt_dlambda a E L (r l) (th l)) vr vth (fun l => dphi_dlambda a E L (r l) (th l)) mu l / Sigma a (r l) (th l)).
  exists u. intros l Hl.
  assert (VAL : forall i j s, D s -> (i < 4)%nat -> (j < 4)%nat ->
     metric_at a (fun k => coords t r th ph k s) i j = gK a (r s) (cos (th s)) (sin (th s)^2) i j).
  { intros i j s Hs Hi Hj. destruct (Nz s Hs) as (N1 & N2 & _). apply (metric_at_val a (fun k => coords t r th ph k s)); try assumption. cbn. lra. }
  destruct (Nz l Hl) as (S0 & HD & Hs). destruct (D1 l Hl) as (Dt & Dph & Dr & Dth). destruct (Sq l Hl) as (Qr & Qth). destruct (D2 l Hl) as (Dvr & Dvth).
  assert (P : forall x, sin x ^2 = 1 - cos x ^2) by (intros x; pose proof (sin2_cos2 x) as Z; unfold Rsqr in Z; lra).
  assert (PART : forall mu i j, (mu < 4)%nat -> (i < 4)%nat -> (j < 4)%nat ->
     is_derive (fun y => metric_at a (set_coord (fun k => coords t r th ph k l) mu y) i j) (coords t r th ph mu l)
       (match mu with 1%nat => gKr a (r l) (cos (th l)) (sin (th l)^2) i j | 2%nat => gKth a (r l) (cos (th l)) (sin (th l)) i j | _ => 0 end)).
  { intros mu i j Hmu Hi Hj. destruct mu as [|[|[|[|mu]]]]; try lia.
    - eapply is_derive_ext; [|apply (is_derive_const (K := R_AbsRing) (V := R_NormedModule) (gK a (r l) (cos (th l)) (sin (th l)^2) i j))].
      intros y. symmetry. apply (metric_at_val a (set_coord (fun k => coords t r th ph k l) 0 y)); cbn; try assumption; lra.
    - eapply is_derive_ext_loc; [|apply (gKr_derive a (r l) (cos (th l)) (sin (th l)^2) i j); try assumption; unfold Sigma in S0; lra].
      assert (C1 : locally (r l) (fun y => Sigma a y (th l) <> 0)).
      { apply (nz_locally (fun y => Sigma a y (th l))); [unfold Sigma; auto_derive; trivial | cbn; lra]. }
      assert (C2 : locally (r l) (fun y => Delta a y <> 0)).
      { apply (nz_locally (fun y => Delta a y)); [unfold Delta; auto_derive; trivial | exact HD]. }
      generalize (filter_and _ _ C1 C2). apply filter_imp. intros y [Y1 Y2]. symmetry. now apply (metric_at_val a (set_coord (fun k => coords t r th ph k l) 1 y)).
    - eapply is_derive_ext_loc; [|apply (gKth_derive a (r l) (th l) i j); try assumption; unfold Sigma in S0; lra].
      assert (C1 : locally (th l) (fun y => Sigma a (r l) y <> 0)).
      { apply (nz_locally (fun y => Sigma a (r l) y)); [unfold Sigma; auto_derive; trivial | cbn; lra]. }
      generalize C1. apply filter_imp. intros y Y1. symmetry. now apply (metric_at_val a (set_coord (fun k => coords t r th ph k l) 2 y)).
    - eapply is_derive_ext; [|apply (is_derive_const (K := R_AbsRing) (V := R_NormedModule) (gK a (r l) (cos (th l)) (sin (th l)^2) i j))].
      intros y. symmetry. apply (metric_at_val a (set_coord (fun k => coords t r th ph k l) 3 y)); cbn; try assumption; lra. }
  assert (Z3 : forall s, D s -> r s ^2 + a^2 * cos (th s) ^2 <> 0 /\ r s ^2 - 2 * r s + a^2 <> 0).
  { intros s Hs'. destruct (Nz s Hs') as (N1 & N2 & _). unfold Sigma, Delta in *. split; lra. }
  destruct (Z3 l Hl) as [ZS ZD].
  refine (conj S0 (conj _ (conj _ _))).
  - intros mu Hmu. unfold u. replace (Sigma a (r l) (th l) * (coords (fun l0 => dt_dlambda a E L (r l0) (th l0)) vr vth (fun l0 => dphi_dlambda a E L (r l0) (th l0)) mu l / Sigma a (r l) (th l)))
      with (coords (fun l0 => dt_dlambda a E L (r l0) (th l0)) vr vth (fun l0 => dphi_dlambda a E L (r l0) (th l0)) mu l) by (field; lra).
    destruct mu as [|[|[|[|mu]]]]; try lia; assumption.
  - pose proof (id_norm a E L Q (r l) (cos (th l)) (sin (th l)) (P _) ZS ZD Hs) as N.
    unfold sum4. rewrite !VAL by (assumption || lia). etransitivity; [|exact N]. unfold u, coords.
    replace (gK a (r l) (cos (th l)) (sin (th l)^2) 1 1 * (vr l / Sigma a (r l) (th l)) * (vr l / Sigma a (r l) (th l)))
      with (gK a (r l) (cos (th l)) (sin (th l)^2) 1 1 * (vr l ^2 / Sigma a (r l) (th l) ^2)) by (field; lra).
    replace (gK a (r l) (cos (th l)) (sin (th l)^2) 2 2 * (vth l / Sigma a (r l) (th l)) * (vth l / Sigma a (r l) (th l)))
      with (gK a (r l) (cos (th l)) (sin (th l)^2) 2 2 * (vth l ^2 / Sigma a (r l) (th l) ^2)) by (field; lra).
    rewrite Qr, Qth. unfold radial_potential, polar_potential, dt_dlambda, dphi_dlambda, Delta, Sigma.
    set (RR := (E * (r l ^ 2 + a ^ 2) - a * L) ^ 2 - _). set (VV := Q - _). set (T := _ + a * (L - _)). set (F := _ + (L / _ - _)). clearbody RR VV T F.
    unfold gK. ring.
  - intros mu Hmu. split.
    { intros i j Hi Hj. eexists. now apply PART. }
    assert (PV : forall i j, (i < 4)%nat -> (j < 4)%nat -> partial (metric_at a) mu i j (fun k => coords t r th ph k l) =
       (match mu with 1%nat => gKr a (r l) (cos (th l)) (sin (th l)^2) i j | 2%nat => gKth a (r l) (cos (th l)) (sin (th l)) i j | _ => 0 end)).
    { intros i j Hi Hj. unfold partial. apply is_derive_unique. now apply PART. }
    unfold sum4. rewrite !PV by lia.
    destruct mu as [|[|[|[|mu]]]]; try lia.
    + replace (Sigma a (r l) (th l) * _) with 0 by ring.
      eapply is_derive_ext_loc; [|apply (is_derive_const (K := R_AbsRing) (V := R_NormedModule) (- E))].
      generalize (Op l Hl). apply filter_imp. intros s Hs'. destruct (Z3 s Hs') as [ZS' ZD']. destruct (Nz s Hs') as (_ & _ & Hsn).
      rewrite !VAL by (assumption || lia). Req. etransitivity; [symmetry; exact (id_t a E L (r s) (cos (th s)) (sin (th s)) (P _) ZS' ZD' Hsn)|].
      unfold u, coords, dt_dlambda, dphi_dlambda, Delta, Sigma, gK. ring.
    + assert (SUM : 1 / 2 * (gKr a (r l) (cos (th l)) (sin (th l)^2) 0 0 * u 0%nat l * u 0%nat l + 2 * (gKr a (r l) (cos (th l)) (sin (th l)^2) 0 3 * u 0%nat l * u 3%nat l)
          + gKr a (r l) (cos (th l)) (sin (th l)^2) 3 3 * u 3%nat l * u 3%nat l + gKr a (r l) (cos (th l)) (sin (th l)^2) 1 1 * (vr l ^2 / Sigma a (r l) (th l) ^2)
          + gKr a (r l) (cos (th l)) (sin (th l)^2) 2 2 * (vth l ^2 / Sigma a (r l) (th l) ^2)) * Sigma a (r l) (th l)
          = (radial_force a E L Q (r l) * Delta a (r l) - vr l * (2 * r l - 2) * vr l) / Delta a (r l) ^2).
      { replace (vr l * (2 * r l - 2) * vr l) with (vr l ^2 * (2 * r l - 2)) by ring. rewrite Qr, Qth.
        pose proof (id_r a E L Q (r l) (cos (th l)) (sin (th l)) (P _) ZS ZD Hs) as N. rewrite Rmult_comm. symmetry. exact N. }
      apply (is_derive_ext_loc (fun s => vr s / Delta a (r s))).
      { generalize (Op l Hl). apply filter_imp. intros s Hs'. rewrite !VAL by (assumption || lia). destruct (Z3 s Hs') as [ZS' ZD']. Req. unfold u, coords, gK, Sigma, Delta. field. split; [nz ZS' | nz ZD']. }
      match goal with |- is_derive _ _ ?v => replace v with ((radial_force a E L Q (r l) * Delta a (r l) - vr l * (2 * r l - 2) * vr l) / Delta a (r l) ^2) end.
      * replace (vr l * (2 * r l - 2) * vr l) with (vr l * (vr l * (2 * r l - 2))) by ring.
        apply (is_derive_div vr (fun s => Delta a (r s))); [exact Dvr | | exact HD].
        apply (is_derive_comp (Delta a) r); [unfold Delta; auto_derive; [trivial | ring] | exact Dr].
      * rewrite <- SUM. unfold gKr, u, coords. field. repeat match goal with |- _ /\ _ => split end; first [lra | nz ZS | nz ZD].
    + assert (SUM : 1 / 2 * (gKth a (r l) (cos (th l)) (sin (th l)) 0 0 * u 0%nat l * u 0%nat l + 2 * (gKth a (r l) (cos (th l)) (sin (th l)) 0 3 * u 0%nat l * u 3%nat l)
          + gKth a (r l) (cos (th l)) (sin (th l)) 3 3 * u 3%nat l * u 3%nat l + gKth a (r l) (cos (th l)) (sin (th l)) 1 1 * (vr l ^2 / Sigma a (r l) (th l) ^2)
          + gKth a (r l) (cos (th l)) (sin (th l)) 2 2 * (vth l ^2 / Sigma a (r l) (th l) ^2)) * Sigma a (r l) (th l)
          = polar_force a E L (th l)).
      { rewrite Qr, Qth.
        pose proof (id_th a E L Q (r l) (cos (th l)) (sin (th l)) (P _) ZS ZD Hs) as N. rewrite Rmult_comm. symmetry. exact N. }
      apply (is_derive_ext_loc vth).
      { generalize (Op l Hl). apply filter_imp. intros s Hs'. rewrite !VAL by (assumption || lia). destruct (Z3 s Hs') as [ZS' ZD']. Req. unfold u, coords, gK, Sigma. field. nz ZS'. }
      match goal with |- is_derive _ _ ?v => replace v with (polar_force a E L (th l)) end; [exact Dvth|].
      rewrite <- SUM. unfold gKth, u, coords. field. repeat match goal with |- _ /\ _ => split end; first [lra | nz ZS | nz ZD].
    + replace (Sigma a (r l) (th l) * _) with 0 by ring.
      eapply is_derive_ext_loc; [|apply (is_derive_const (K := R_AbsRing) (V := R_NormedModule) L)].
      generalize (Op l Hl). apply filter_imp. intros s Hs'. destruct (Z3 s Hs') as [ZS' ZD']. destruct (Nz s Hs') as (_ & _ & Hsn).
      rewrite !VAL by (assumption || lia). Req. etransitivity; [symmetry; exact (id_phi a E L (r s) (cos (th s)) (sin (th s)) (P _) ZS' ZD' Hsn)|].
      unfold u, coords, dt_dlambda, dphi_dlambda, Delta, Sigma, gK. ring.
Qed.

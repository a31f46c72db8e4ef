(** * Properties C44-C49 *)
From Coq Require Import Reals Lra Lia ZArith String List Psatz.
From Coquelicot Require Import Coquelicot.
From Verif Require Import Num Outcome External Checked ExternalSpec Spec Model_Units Model_Constants
  Model_Frequencies Model_Spacetime Model_InitialConditions Model_Stable Model_Plunge Model_Orbit
  P_Validation SepPoly Props_Separatrix Props_Validation P_Poly P_Roots.
Import ListNotations.
Open Scope R_scope.

(** ** C44: trajectory_deltas *)
Section C44.
Context {X : External R}.

(** stable orbits: trajectory() is q0 + mean motion + the deltas measured from
    their value at the initial phases *)
Theorem C44_stable_deltas_partial :
  forall (o : orbit (T := R)) p e x qt qr qth qph ur ut up g T1 T2 T3 T4,
  o_apex o = Some (p, e, x) ->
  constants_of_motion (o_a o) p e x = Ret (o_E o, o_L o, o_Q o) ->
  mino_frequencies (o_a o) p e x = Ret (ur, ut, up, g) ->
  Orbit_trajectory o (Some (qt, qr, qth, qph)) "natural" "natural" = Ret (T1, T2, T3, T4) ->
  exists dt_r dt_th dphi_r dphi_th,
  Orbit_trajectory_deltas o (Some (qt, qr, qth, qph)) = Ret (dt_r, dt_th, dphi_r, dphi_th) /\
  forall l,
  T1 l = Ret (qt + g * l + (dt_r (ur * l) - dt_r 0) + (dt_th (ut * l) - dt_th 0)) /\
  T4 l = Ret (qph + up * l + (dphi_r (ur * l) - dphi_r 0) + (dphi_th (ut * l) - dphi_th 0)).
Proof.
  intros o p e x qt qr qth qph ur ut up g T1 T2 T3 T4 Ho HC HF. unfold Orbit_trajectory, Orbit_trajectory_deltas.
  rewrite Ho. unfold stable_trajectory. cbn [check_units].
  replace (check_units (T := R) (o_M o) "natural" "natural") with (Ret tt : outcome unit) by reflexivity.
  cbn [bind]. rewrite HF. cbn [bind]. rewrite HC. cbn [bind].
  unfold stable_radial_roots, stable_polar_roots. cbn [default bind].
  match goal with |- context [radial_solutions ?a ?c ?rr] =>
    destruct (radial_solutions a c rr) as [[rp t_r] phi_r] end.
  match goal with |- context [ifo ?c ?t ?e] => destruct (ifo c t e) as [zz| |] end;
    cbn [bind]; try discriminate.
  unfold polar_solutions. cbn [unpack2 bind].
  generalize (polar_t (o_a o) (o_E o) (o_L o) (fst zz, snd zz)) as t_th,
    (polar_phi (o_a o) (o_E o) (o_L o) (fst zz, snd zz)) as phi_th,
    (polar_theta (o_a o) (fst zz, snd zz)) as thp.
  intros thp phi_th t_th H. injection H as <- <- <- <-.
  do 4 eexists. split; [reflexivity|]. intros l.
  change (time_conversion (T := R) "natural") with (Ret (fun (d : R) (_ : option R) => d)).
  cbn [bind]. rnum.
  rewrite !Rplus_0_l. split; f_equal; ring.
Qed.
Theorem C44_complex_plunge_deltas_partial :
  forall (o : orbit (T := R)) qt qr qth qph ur ut r1 r2 r3 r4 T1 T2 T3 T4,
  o_apex o = None ->
  plunging_radial_roots (o_a o) (o_E o) (o_L o) (o_Q o) = Ret (ComplexRoots r1 r2 r3 r4) ->
  plunging_mino_frequencies (o_a o) (o_E o) (o_L o) (o_Q o) = Ret (ur, ut) ->
  Orbit_trajectory o (Some (qt, qr, qth, qph)) "natural" "natural" = Ret (T1, T2, T3, T4) ->
  exists dt_r dt_th dphi_r dphi_th,
  Orbit_trajectory_deltas o (Some (qt, qr, qth, qph)) = Ret (dt_r, dt_th, dphi_r, dphi_th) /\
  forall l,
  T1 l = Ret (qt + (dt_r (ur * l) - dt_r 0) + (dt_th (ut * l) - dt_th 0)) /\
  T4 l = Ret (qph + (dphi_r (ur * l) - dphi_r 0) + (dphi_th (ut * l) - dphi_th 0)).
Proof.
  intros o qt qr qth qph ur ut r1 r2 r3 r4 T1 T2 T3 T4 Ho HR HF.
  unfold Orbit_trajectory, Orbit_trajectory_deltas, plunging_trajectory. rewrite Ho, HR. cbn [bind].
  unfold complex_plunge_trajectory.
  replace (check_units (T := R) (o_M o) "natural" "natural") with (Ret tt : outcome unit) by reflexivity.
  unfold plunging_radial_solutions_complex, plunging_polar_solutions. rewrite HR, HF. cbn [bind].
  generalize (plunge_t_theta (o_a o) (o_E o) (o_L o) (o_Q o) ut) as t_th,
    (plunge_phi_theta (o_a o) (o_E o) (o_L o) (o_Q o) ut) as phi_th,
    (plunge_theta (o_a o) (o_E o) (o_L o) (o_Q o) ut) as thp.
  match goal with |- context [plunge_t_r ?a ?E ?L ?u ?v ?A ?B ?w] =>
    generalize (plunge_t_r a E L u v A B w) as t_r, (plunge_phi_r a E L u v A B w) as phi_r,
      (plunge_r u v A B) as rp end.
  intros rp phi_r t_r thp phi_th t_th H. injection H as <- <- <- <-.
  do 4 eexists. split; [reflexivity|]. intros l.
  change (time_conversion (T := R) "natural") with (Ret (fun (d : R) (_ : option R) => d)).
  cbn [bind]. rnum. rewrite !Rplus_0_l, !Rplus_assoc. split; f_equal; ring.
Qed.

(** real-root plunges: the call always fails *)
Lemma real_plunge_deltas_fail (T : Type) (N : Num T) (Y : External T) (o : orbit (T := T)) ph r1 r2 r3 r4 :
  o_apex o = None ->
  plunging_radial_roots (o_a o) (o_E o) (o_L o) (o_Q o) = Ret (RealRoots r1 r2 r3 r4) ->
  is_ValueError (Orbit_trajectory_deltas o ph).
Proof.
  intros Ho HR. unfold Orbit_trajectory_deltas. rewrite Ho, HR. cbn [bind].
  destruct (match ph with Some q => q | None => o_phases o end) as [[[qt qr] qth] qph].
  unfold radial_solutions, polar_solutions. cbn [unpack2 bind]. now eexists.
Qed.
End C44.

(** the property is false of the code: a plunging orbit that can be constructed and
    whose trajectory() works, but whose trajectory_deltas() raises ValueError
    (a = 3/4, E = 3/5, L = a E, Q = 0; radial roots 0, 0, 5/16, 45/16) *)
Theorem C44_refuted :
  forall X : External R, polyroots_spec X ->
  let orb := PlungingOrbit_init (Some (3/4)) (Some (3/5)) (Some (9/20)) (Some 0)
               (Some 0, Some 0, Some 0, Some 0) None None in
  exists o, orb = Ret o /\
    (exists tr, Orbit_trajectory o None "natural" "natural" = Ret tr) /\
    is_ValueError (Orbit_trajectory_deltas o None).
Proof.
  intros X HP. cbv zeta.
  assert (HR : plunging_radial_roots (Some (3/4)) (Some (3/5)) (Some (9/20)) (Some 0)
     = Ret (RealRoots (Some (45/16)) (Some (5/16)) (Some 0) (Some 0))).
  { unfold plunging_radial_roots. rewrite radial_poly_some, checked_polyroots_some.
    assert (E : polyroots (radial_poly (3/4) (3/5) (9/20) 0)
                = map (fun x => (x, 0)) [0; 0; 5/16; 45/16]).
    { unfold radial_poly. rnum.
      apply (poly4_real HP (-(16/25))); try lra; field. }
    rewrite E, split_roots_some, split_all_real. cbn [map]. cbv zeta. cnum.
    rewrite csqrt_some by lra.
    assert (0 <= sqrt (1 - (3/4) ^ 2) < 1).
    { split; [apply sqrt_pos|]. apply Rlt_le_trans with (sqrt 1); [apply sqrt_lt_1; lra | rewrite sqrt_1; lra]. }
    rewrite Rltb_false by lra. reflexivity. }
  assert (HZ : exists zz, polar_roots_of (Some (3/4)) (Some (3/5)) (Some (9/20)) (Some 0) = Ret zz).
  { unfold polar_roots_of. rewrite polar_poly_some, checked_polyroots_some.
    assert (E : polyroots (polar_poly (3/4) (3/5) (9/20) 0)
                = map (fun x => (x, 0)) [0; 25/16]).
    { unfold polar_poly. rnum.
      apply (poly2_real HP ((3/4) ^ 2 * (1 - (3/5) ^ 2))); try lra; field. }
    unfold real_of_roots. rewrite E, split_roots_some, split_all_real. cbn [map bind]. cnum.
    rewrite Reqb_false by lra. cbn [ifo unpack2]. now eexists. }
  destruct HZ as [zz HZ].
  assert (HT : exists f, mino_frequencies_from_constants (Some (3/4)) (Some (3/5), Some (9/20), Some 0)
     (Some (45/16), Some (5/16), Some 0, Some 0) zz = Ret f).
  { assert (Ha : @neqb (option R) CNum (Some (3/4)) (nZ 0) = Some false).
    { cnum. now rewrite Reqb_false by lra. }
    assert (He : forall u v, u = 45/16 -> v = 5/16 ->
      neqb ((Some u - Some v) / (Some u + Some v))%num (nZ 1) = Some false).
    { intros u v -> ->. cnum. rewrite cdiv_some by lra. now rewrite Reqb_false by lra. }
    unfold mino_frequencies_from_constants, theta_frequency_from_constants,
      phi_frequency_from_constants, gamma_from_constants.
    rewrite Ha. cbv zeta. cbn [ifo bind default]. rewrite (He _ _ eq_refl eq_refl). cbn [ifo bind default]. now eexists. }
  destruct HT as [[[[ur ut] up] g] HT].
  assert (HF : plunging_mino_frequencies (Some (3/4)) (Some (3/5)) (Some (9/20)) (Some 0) = Ret (ur, ut)).
  { unfold plunging_mino_frequencies. rewrite HR. cbn [bind]. rewrite HZ. cbn [bind]. rewrite HT. reflexivity. }
  set (o := mkOrbit (Some (3/4)) None None (Some (3/5)) (Some (9/20)) (Some 0) false None ur ut None None
              (Some 0, Some 0, Some 0, Some 0)).
  assert (HTr : exists tr, Orbit_trajectory o None "natural" "natural" = Ret tr).
  { unfold Orbit_trajectory, o. cbn [o_apex o_phases o_a o_E o_L o_Q o_M].
    unfold plunging_trajectory. rewrite HR. cbn [bind]. unfold real_plunge_trajectory.
    replace (check_units (T := option R) None "natural" "natural") with (Ret tt : outcome unit) by reflexivity.
    rewrite HR. cbn [bind]. rewrite HZ. cbn [bind]. rewrite HT. cbn [bind].
    unfold radial_solutions, polar_solutions. cbn [unpack2 bind]. now eexists. }
  exists o. split; [|split; [exact HTr|]].
  - unfold PlungingOrbit_init.
    assert (Ha : @neqb (option R) CNum (Some (3/4)) (nZ 0) = Some false).
    { cnum. now rewrite Reqb_false by lra. }
    rewrite Ha. cbn [ifo]. rewrite HF. cbn [bind]. fold o.
    destruct HTr as [[[[T1 T2] T3] T4] HTr].
    assert (HTr' : Orbit_trajectory o (Some (o_phases o)) "natural" "natural" = Ret (T1, T2, T3, T4))
      by exact HTr.
    unfold Orbit_four_velocity. rewrite HTr'. cbn [bind]. rewrite HTr. reflexivity.
  - apply (real_plunge_deltas_fail _ _ _ o None (Some (45/16)) (Some (5/16)) (Some 0) (Some 0)); auto.
Qed.
Print Assumptions C44_stable_deltas_partial.
Print Assumptions C44_complex_plunge_deltas_partial.
Print Assumptions C44_refuted.

(** ** C45: is_visible *)
Definition dotR (u v : R * R * R) : R :=
  let '(u1, u2, u3) := u in let '(v1, v2, v3) := v in u1 * v1 + u2 * v2 + u3 * v3.
Definition lengthR (u : R * R * R) : R := sqrt (dotR u u).
(** unit vector towards the camera *)
Definition camera (elevation azimuth : R) : R * R * R :=
  let el := elevation * PI / 180 in let az := azimuth * PI / 180 in
  (cos el * cos az, cos el * sin az, sin el).
(** component of u orthogonal to the unit vector n *)
Definition orthogonal_part (n u : R * R * R) : R * R * R :=
  let c := dotR u n in
  let '(u1, u2, u3) := u in let '(n1, n2, n3) := n in (u1 - c * n1, u2 - c * n2, u3 - c * n3).
(** in front of the viewing plane or outside the horizon disc *)
Definition unobstructed (a el az : R) (p : R * R * R) : Prop :=
  0 <= dotR p (camera el az) \/
  1 + sqrt (1 - a ^ 2) < lengthR (orthogonal_part (camera el az) p).

Lemma frobenius_ge (points : list (R * R * R)) p : In p points -> lengthR p <= frobenius points.
Proof.
  intros H. unfold lengthR, frobenius. rnum. apply sqrt_le_1_alt.
  assert (P : forall q : R * R * R, 0 <= dotR q q) by (intros [[q1 q2] q3]; unfold dotR; nra).
  assert (P' : forall l : list (R * R * R), 0 <= fold_right (fun p acc => dotR p p + acc) 0 l).
  { induction l as [|q l IH]; cbn [fold_right]; [lra|]. pose proof (P q). lra. }
  change (dotR p p <= fold_right (fun p acc => dotR p p + acc) 0 points).
  induction points as [|q l IH]; [destruct H|]. cbn [fold_right].
  destruct H as [-> |H]; [pose proof (P' l); lra|]. pose proof (P q). specialize (IH H). lra.
Qed.
Lemma Rltb_iff x y : Rltb x y = true <-> x < y.
Proof. destruct (Rltb_spec x y); split; intros; auto; discriminate || contradiction. Qed.
Lemma Rleb_iff x y : Rleb x y = true <-> x <= y.
Proof. destruct (Rleb_spec x y); split; intros; auto; discriminate || contradiction. Qed.
Lemma is_visible_nth a points el az i p :
  nth_error points i = Some p ->
  exists b, nth_error (is_visible a points el az) i = Some (Some b) /\
  (b = true <-> unobstructed a el az p /\ 1 + sqrt (1 - a ^ 2) < frobenius points).
Proof.
  intros H. unfold is_visible. cbv zeta.
  rewrite nth_error_map, H. cbn [option_map].
  change (@nsqrt R RNum) with sqrt.
  set (q := project (view_plane_normal el az) p).
  change (nleb (nZ 0) (dot3 p (view_plane_normal el az))) with (Some (Rleb 0 (dotR p (camera el az)))).
  change (nltb (nZ 1 + sqrt (nZ 1 - a ^ 2))%num (sqrt (dot3 q q)))
    with (Some (Rltb (1 + sqrt (1 - a ^ 2)) (lengthR (orthogonal_part (camera el az) p)))).
  change (nltb (nZ 1 + sqrt (nZ 1 - a ^ 2))%num (frobenius points))
    with (Some (Rltb (1 + sqrt (1 - a ^ 2)) (frobenius points))).
  cbn [oor oand]. eexists. split; [reflexivity|]. unfold unobstructed.
  rewrite Bool.andb_true_iff, Bool.orb_true_iff.
  rewrite !Rltb_iff, Rleb_iff. reflexivity.
Qed.

(** points outside the horizon are classified as documented, whatever the others *)
Theorem C45_outside_points_partial :
  forall a points el az i p, nth_error points i = Some p ->
  1 + sqrt (1 - a ^ 2) < lengthR p ->
  exists b, nth_error (is_visible a points el az) i = Some (Some b) /\
  (b = true <-> unobstructed a el az p).
Proof.
  intros a points el az i p H Hp. destruct (is_visible_nth a points el az i p H) as [b [E K]].
  exists b. split; [exact E|]. rewrite K.
  pose proof (frobenius_ge points p (nth_error_In _ _ H)). intuition lra.
Qed.
(** a single point is always classified as documented *)
Theorem C45_single_point_partial :
  forall a p el az,
  exists b, is_visible a [p] el az = [Some b] /\
  (b = true <-> unobstructed a el az p /\ 1 + sqrt (1 - a ^ 2) < lengthR p).
Proof.
  intros a p el az. destruct (is_visible_nth a [p] el az 0 p eq_refl) as [b [E K]].
  exists b. split.
  { unfold is_visible in *. cbv zeta in *. cbn [map nth_error] in *. apply (f_equal (fun o => match o with Some v => [v] | None => [] end)) in E. exact E. }
  rewrite K. replace (frobenius [p]) with (lengthR p); [reflexivity|].
  unfold frobenius, lengthR. rnum. cbn [fold_right]. f_equal.
  destruct p as [[p1 p2] p3]. unfold dot3, dotR. rnum. ring.
Qed.
(** the property is false of the code: the singularity r = 0 is reported hidden when
    asked about alone and visible when asked about together with a distant point *)
Theorem C45_refuted :
  is_visible 0 [(0, 0, 0)] 0 0 = [Some false] /\
  nth_error (is_visible 0 [(0, 0, 0); (10, 0, 0)] 0 0) 0 = Some (Some true).
Proof.
  assert (S1 : sqrt (1 - 0 ^ 2) = 1) by (replace (1 - 0 ^ 2) with 1 by ring; apply sqrt_1).
  assert (L0 : lengthR (0, 0, 0) = 0).
  { unfold lengthR, dotR. replace (0 * 0 + 0 * 0 + 0 * 0) with 0 by ring. apply sqrt_0. }
  split.
  - destruct (C45_single_point_partial 0 (0, 0, 0) 0 0) as [b [E K]].
    etransitivity; [exact E|]. destruct b; [|reflexivity]. exfalso.
    destruct (proj1 K eq_refl) as [_ K2]. rewrite S1, L0 in K2. lra.
  - destruct (is_visible_nth 0 [(0, 0, 0); (10, 0, 0)] 0 0 0 (0, 0, 0) eq_refl) as [b [E K]].
    etransitivity; [exact E|]. do 2 f_equal. apply K. split.
    + left. unfold dotR, camera. lra.
    + rewrite S1. unfold frobenius. rnum. cbn [fold_right]. unfold dot3. rnum.
      replace (0 * 0 + 0 * 0 + 0 * 0 + (10 * 10 + 0 * 0 + 0 * 0 + 0)) with (10 * 10) by ring.
      rewrite sqrt_square; lra.
Qed.
Print Assumptions C45_outside_points_partial.
Print Assumptions C45_refuted.

(** ** C46: fast_separatrix *)
Section C46.
Context {X : External R}.
Lemma nth_linspace lo hi n k : (2 <= n)%nat -> (k < n)%nat ->
  nth_error (linspace lo hi n) k = Some (lo + INR k * ((hi - lo) / INR (n - 1))).
Proof.
  intros Hn Hk. destruct n as [|[|n]]; try lia. unfold linspace.
  rewrite nth_error_map. rewrite (nth_error_nth' _ 0%nat) by (rewrite seq_length; lia).
  rewrite seq_nth by lia. cbn [option_map]. rewrite Nat.add_0_l. rnum. now rewrite <- !INR_IZR_INZ.
Qed.
(** row i, column j of the interpolation table is the separatrix at e_i = i/(n_e-1),
    x_j = -1 + 2j/(n_x-1) *)
Theorem C46_table_matches_nodes :
  forall a ne nx i j, (2 <= ne)%nat -> (2 <= nx)%nat -> (i < ne)%nat -> (j < nx)%nat ->
  fast_separatrix_table a ne nx i j
  = separatrix a (INR i / INR (ne - 1)) (-1 + 2 * INR j / INR (nx - 1)).
Proof.
  intros a ne nx i j H1 H2 H3 H4.
  unfold fast_separatrix_table, fast_separatrix_entry, meshgrid_E, meshgrid_X.
  rewrite !nth_linspace by assumption.
  assert (INR (ne - 1) <> 0) by (apply not_0_INR; lia).
  assert (INR (nx - 1) <> 0) by (apply not_0_INR; lia).
  rnum. f_equal; field; assumption.
Qed.
(** every node is inside the domain of separatrix, so for 0 <= a < 1 the whole table is
    filled *)
Theorem C46_table_total :
  root_spec X -> forall a ne nx i j, 0 <= a < 1 ->
  (2 <= ne)%nat -> (2 <= nx)%nat -> (i < ne)%nat -> (j < nx)%nat ->
  exists p, fast_separatrix_table a ne nx i j = Ret p /\
    S_full p a (INR i / INR (ne - 1)) (-1 + 2 * INR j / INR (nx - 1)) = 0.
Proof.
  intros HX a ne nx i j Ha H1 H2 H3 H4. rewrite C46_table_matches_nodes by assumption.
  assert (0 < INR (ne - 1)) by (apply lt_0_INR; lia).
  assert (0 < INR (nx - 1)) by (apply lt_0_INR; lia).
  assert (0 <= INR i <= INR (ne - 1)) by (split; [apply pos_INR | apply le_INR; lia]).
  assert (0 <= INR j <= INR (nx - 1)) by (split; [apply pos_INR | apply le_INR; lia]).
  assert (B1 : 0 <= INR i / INR (ne - 1) <= 1).
  { split; [apply Rle_div_r; lra | apply Rle_div_l; lra]. }
  assert (B2 : 0 <= INR j / INR (nx - 1) <= 1).
  { split; [apply Rle_div_r; lra | apply Rle_div_l; lra]. }
  destruct (separatrix_total HX a (INR i / INR (ne - 1)) (-1 + 2 * INR j / INR (nx - 1)))
    as [p [E [_ [F _]]]]; try assumption.
  { unfold Rdiv in *. lra. }
  now exists p.
Qed.
End C46.
Print Assumptions C46_table_matches_nodes.
Print Assumptions C46_table_total.

(** ** C47: animate *)
Section C47.
Local Open Scope Z_scope.
(** [n] sampled points, [s] points per frame, tail of [k] points *)
Theorem C47_frames_in_range :
  forall n s k nf i, 0 <= n -> 0 < s -> 0 <= k ->
  num_frames n s = Ret nf -> 0 <= i < nf ->
  let j := frame_index s i in
  let j0 := frame_tail_start k j in
  np_index n j = Ret j /\ 0 <= j < n /\ 0 <= j0 <= j /\ j - j0 <= k.
Proof.
  intros n s k nf i Hn Hs Hk H Hi. unfold num_frames in H.
  destruct (Z.eqb_spec s 0); [lia|]. injection H as <-.
  unfold frame_index, frame_tail_start, np_index.
  rewrite Z.quot_div_nonneg in Hi by lia.
  assert (s * i < n).
  { assert (i + 1 <= n / s) by lia. assert (s * (n / s) <= n) by (apply Z.mul_div_le; lia). nia. }
  assert (0 <= s * i) by nia.
  destruct (Z.leb_spec 0 (s * i)); [|lia]. destruct (Z.ltb_spec (s * i) n); [|lia].
  cbn. repeat split; lia.
Qed.
(** a speed below 1/8 (int(8*speed) = 0) fails instead of producing an animation *)
Theorem C47_zero_speed : forall n, num_frames n 0 = Raise ZeroDivisionError.
Proof. reflexivity. Qed.
(** the alpha values passed for the tail have the length of the tail, except on the
    frames where the tail is empty, for which the whole decay array is passed *)
Theorem C47_tail_alpha_length :
  forall k j, 0 <= k -> 0 <= j ->
  let tail := j - frame_tail_start k j in
  (0 < tail -> np_suffix_len k tail = tail) /\ (tail = 0 -> np_suffix_len k tail = k).
Proof.
  intros k j Hk Hj. unfold frame_tail_start, np_suffix_len. cbv zeta. split; intros H.
  - destruct (Z.eqb_spec (j - Z.max 0 (j - k)) 0); lia.
  - rewrite H. reflexivity.
Qed.
Example C47_example :
  num_frames 2400 8 = Ret 300 /\ np_index 2400 (frame_index 8 299) = Ret 2392.
Proof. split; reflexivity. Qed.
End C47.
Print Assumptions C47_frames_in_range.

(** ** C48: negative spins *)
Section C48.
Context {X : External R}.
(** StableOrbit(-a,p,e,-x) is StableOrbit(a,p,e,x): same attributes, same exceptions *)
Theorem C48_stable_orbit_spin_reversal_partial :
  forall a p e x ph M mu, a <> 0 ->
  StableOrbit_init (Some (- a)) (Some p) (Some e) (Some (- x)) ph M mu
  = StableOrbit_init (Some a) (Some p) (Some e) (Some x) ph M mu.
Proof.
  intros a p e x ph M mu Ha. unfold StableOrbit_init. now rewrite std_reverse.
Qed.
(** but separatrix and is_stable reject the negative spins that energy accepts *)
Theorem C48_refuted : root_spec X ->
  forall a p e x, -1 < a < 0 -> 0 <= e <= 1 -> -1 <= x <= 1 -> 12 <= p ->
  separatrix (Some a) (Some e) (Some x) = Raise (ValueError msg_range) /\
  is_stable (Some a) (Some p) (Some e) (Some x) = Raise (ValueError msg_range) /\
  exists E, energy (Some a) (Some p) (Some e) (Some x) = Ret E.
Proof.
  intros HX a p e x Ha He Hx Hp.
  assert (S : separatrix (Some a) (Some e) (Some x) = Raise (ValueError msg_range)).
  { rewrite C19_separatrix_rejects by lra. destruct (Req_EM_T a 1); [lra | reflexivity]. }
  split; [exact S|]. split; [unfold is_stable; now rewrite S|].
  destruct (proj1 (C08_constants_validation HX) a p e x) as [_ [_ H]].
  assert (Hr := range_std a e x).
  destruct H as [s [Es [_ H]]]; [apply Rabs_lt_between; lra | lra | apply Rabs_le_between; lra|].
  apply H. destruct (C19_separatrix_total HX (Rabs a) e (x * spin_sign a)) as [s' [Es' [B _]]].
  - apply Hr; [apply Rabs_lt_between; lra | lra | apply Rabs_le_between; lra].
  - lra.
  - apply Hr; [apply Rabs_lt_between; lra | lra | apply Rabs_le_between; lra].
  - rewrite Es in Es'. injection Es' as ->. lra.
Qed.
End C48.
Print Assumptions C48_stable_orbit_spin_reversal_partial.
Print Assumptions C48_refuted.

(** ** C49: initial phases of Schwarzschild orbits *)

(** In Schwarzschild spacetime the recovered polar phase is undefined (nan) for every
    bound orbit whose initial point is not at a polar turning point, unless the caller
    supplies the radial roots: the roots recomputed inside are in ascending order but are
    read in descending order, giving p = 0 and e = -1. *)
Theorem C49_polar_phase_undefined :
  forall X : External R, polyroots_spec X ->
  forall E L Q r1 r2 r3 t0 r0 theta0 phi0 dt dr dtheta dphi,
  (* a bound orbit with radial turning points r1 >= r2 and inner root r3 *)
  E ^ 2 < 1 -> 0 <= Q -> 0 < L ^ 2 + Q -> 0 < r3 <= r2 -> r2 <= r1 ->
  (forall r, radial_potential 0 E L Q r = (1 - E ^ 2) * (r1 - r) * (r - r2) * (r - r3) * r) ->
  (* not within tol of the turning points theta_min, pi - theta_min *)
  let theta_min := acos (sqrt (Q / (L ^ 2 + Q))) in
  1 / 10000 <= Rabs (theta0 - theta_min) -> 1 / 10000 <= Rabs (theta0 - (PI - theta_min)) ->
  exists q_r,
  stable_orbit_initial_phases (Some 0) (Some t0, Some r0, Some theta0, Some phi0)
    (Some dt, Some dr, Some dtheta, Some dphi) (Some (Some E, Some L, Some Q)) None None None default_tol
  = Ret (Some t0, q_r, None, Some phi0).
Proof.
  intros X HP E L Q r1 r2 r3 t0 r0 theta0 phi0 dt dr dtheta dphi HE HQ HL H3 H2 HR theta_min Hth1 Hth2.
  assert (C : forall r, radial_potential 0 E L Q r
    = (E ^ 2 - 1) * r ^ 4 + 2 * r ^ 3 - (L ^ 2 + Q) * r ^ 2 + 2 * (L ^ 2 + Q) * r).
  { intros r. unfold radial_potential, Delta. ring. }
  assert (P1 := HR 1). assert (P2 := HR (-1)). assert (P3 := HR 2).
  rewrite C in P1, P2, P3.
  assert (K3 : (1 - E ^ 2) * (r1 + r2 + r3) = 2) by lra.
  assert (K2 : (1 - E ^ 2) * (r1 * r2 + r1 * r3 + r2 * r3) = L ^ 2 + Q) by lra.
  assert (K1 : (1 - E ^ 2) * (r1 * r2 * r3) = 2 * (L ^ 2 + Q)) by lra.
  assert (RP : polyroots (radial_poly 0 E L Q) = map (fun x => (x, 0)) [0; r3; r2; r1]).
  { unfold radial_poly. rnum. apply (poly4_real HP (E ^ 2 - 1)); lra. }
  set (z := Q / (L ^ 2 + Q)).
  assert (Hz : 0 <= z <= 1).
  { unfold z. split; [apply Rle_div_r; lra|]. apply Rle_div_l; [lra|]. nra. }
  assert (ZP : polyroots (polar_poly 0 E L Q) = map (fun x => (x, 0)) [z]).
  { unfold polar_poly. rnum. apply (poly1_real HP (- (L ^ 2 + Q))); try lra; try ring.
    unfold z. field. lra. }
  unfold stable_orbit_initial_phases. cbn [default bind].
  assert (A0 : @neqb (option R) CNum (Some 0) (nZ 0) = Some true) by (cnum; rewrite Reqb_true by reflexivity; reflexivity).
  unfold polar_roots_of, real_of_roots.
  rewrite radial_poly_some, polar_poly_some, !checked_polyroots_some, RP, ZP.
  rewrite !split_roots_some, !split_all_real. cbn [map bind unpack4]. rewrite A0. cbn [ifo bind].
  match goal with |- exists q, bind ?m _ = _ =>
    assert (QR : exists q, m = Ret q) end.
  { unfold default_tol. cnum. destruct (Rltb (Rabs (r0 - r2)) (1 / 10000)); cbn [ifo]; [now eexists|].
    destruct (Rltb (Rabs (r0 - r1)) (1 / 10000)); cbn [ifo]; [now eexists|].
    cbn [bind default]. unfold radial_phase. cnum.
    destruct (Rltb 0 dr); cbn [ifo]; now eexists. }
  destruct QR as [q_r ->]. cbn [bind]. exists q_r.
  assert (TM : nacos (nsqrt (Some z)) = Some theta_min).
  { cnum. rewrite csqrt_some by lra. unfold cunit.
    assert (0 <= sqrt z <= 1).
    { split; [apply sqrt_pos|]. rewrite <- sqrt_1. apply sqrt_le_1_alt. lra. }
    destruct (Rle_dec (-1) (sqrt z)); [|lra]. destruct (Rle_dec (sqrt z) 1); [reflexivity | lra]. }
  rewrite TM.
  assert (B1 : nltb (nabs (Some theta0 - Some theta_min)%num) default_tol = Some false).
  { unfold default_tol. cnum. now rewrite Rltb_false by lra. }
  assert (B2 : nltb (nabs (Some theta0 - (npi - Some theta_min))%num) default_tol = Some false).
  { unfold default_tol. cnum. now rewrite Rltb_false by lra. }
  rewrite B1, B2. cbn [ifo].
  assert (UT : theta_frequency_from_constants (Some 0) (Some E, Some L, Some Q)
            (Some 0, Some r3, Some r2, Some r1) (Some z, Some z) = Ret None).
  { unfold theta_frequency_from_constants. rewrite A0. cbn [ifo]. cbv zeta. cnum.
    rewrite !cdiv_some by lra.
    replace (2 * 0 * r3 / (0 + r3)) with 0 by (field; lra).
    replace ((0 - r3) / (0 + r3)) with (-1) by (field; lra).
    unfold csqrt. match goal with |- context [Rle_dec 0 ?t] => destruct (Rle_dec 0 t) end; [lra|]. reflexivity. }
  cbn [default]. rewrite UT. cbn [bind].
  unfold polar_phase.
  match goal with |- context [(?l * None)%num] => replace (l * None)%num with (@None R) by (destruct l; reflexivity) end.
  cnum. rewrite ?(cdiv_some _ 2) by lra. destruct (Rleb_spec 0 dtheta); cbn [ifo bind]; [reflexivity|].
  rewrite (Reqb_false dtheta 0) by lra. cbn [oand andb ifo]. rewrite Rltb_true by lra. reflexivity.
Qed.

(** a concrete bound orbit: p = 12, e = 1/2, x = 1/2, at the equator *)
Theorem C49_refuted :
  forall X : External R, polyroots_spec X ->
  forall r0 dr dtheta,
  exists q_r,
  stable_orbit_initial_phases (Some 0) (Some 0, Some r0, Some (PI / 2), Some 0)
    (Some 1, Some dr, Some dtheta, Some 0)
    (Some (Some (sqrt (33/35)), Some (sqrt (144/35)), Some (432/35))) None None None default_tol
  = Ret (Some 0, q_r, None, Some 0).
Proof.
  intros X HP r0 dr dtheta.
  assert (E2 : sqrt (33/35) ^ 2 = 33/35) by (apply pow2_sqrt; lra).
  assert (L2 : sqrt (144/35) ^ 2 = 144/35) by (apply pow2_sqrt; lra).
  assert (TH : acos (sqrt (432/35 / (144/35 + 432/35))) = PI / 6).
  { replace (432/35 / (144/35 + 432/35)) with ((sqrt 3 / 2) * (sqrt 3 / 2)).
    - rewrite sqrt_square by (pose proof (sqrt_pos 3); lra). rewrite <- cos_PI6. apply acos_cos.
      pose proof PI_RGT_0. lra.
    - pose proof (sqrt_sqrt 3 ltac:(lra)). nra. }
  assert (PB := PI2_3_2).
  apply (C49_polar_phase_undefined X HP _ _ _ 24 8 3); rewrite ?E2, ?L2; try lra.
  - intros r. unfold radial_potential, Delta.
    replace ((sqrt (33 / 35) * (r ^ 2 + 0 ^ 2) - 0 * sqrt (144 / 35)) ^ 2)
      with (sqrt (33/35) ^ 2 * r ^ 4) by ring.
    replace ((sqrt (144 / 35) - 0 * sqrt (33 / 35)) ^ 2) with (sqrt (144/35) ^ 2) by ring.
    rewrite E2, L2. field.
  - rewrite TH. rewrite Rabs_pos_eq; lra.
  - rewrite TH. rewrite Rabs_left; lra.
Qed.
Print Assumptions C49_polar_phase_undefined.
Print Assumptions C49_refuted.

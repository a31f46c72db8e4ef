(** * C71: what Orbit.plot draws *)
From Coq Require Import Reals Lra Lia ZArith String List.
From Coquelicot Require Import Coquelicot.
From Verif Require Import Num Outcome External Checked ExternalSpec.
From Verif Require Import Model_Constants Model_Frequencies Model_Spacetime Model_Stable Model_Orbit Model_Plot.
From Verif Require Import Spec SpecElliptic Props_Constants Props_Orbit2 Props_Trajectory.
Import ListNotations.
Open Scope R_scope.

(** ** Specification *)
(** the k-th of n equally spaced Mino times from l0 to l1 *)
Definition sample_time (l0 l1 : R) (n k : nat) : R := l0 + INR k * ((l1 - l0) / INR (n - 1)).
(** Cartesian position of the point with Boyer-Lindquist r, theta, phi *)
Definition cart (r th ph : R) : R * R * R := (r * sin th * cos ph, r * sin th * sin ph, r * cos th).
(** vertex [v] is drawn at [p] if [c] holds, and masked (z = nan) otherwise *)
Definition drawn_iff (c : Prop) (p : R * R * R) (v : vertex (T := option R)) : Prop :=
  let '(x, y, z) := p in
  (c -> v = (Some x, Some y, Some (Some z))) /\ (~ c -> v = (Some x, Some y, None)).
Definition horizon (a : R) : R := 1 + sqrt (1 - a^2).
Definition within (v : R) (lim : option R * option R) : Prop :=
  exists lo hi, lim = (Some lo, Some hi) /\ lo <= v <= hi.
(** the rendered sphere has the horizon's radius *)
Definition on_horizon (a : R) (p : option R * option R * option R) : Prop :=
  exists x y z, p = (Some x, Some y, Some z) /\ lengthR (x, y, z) = horizon a.
Definition age_factor (tau : option R) (age : R) : R :=
  match tau with Some tau => exp (- (age / tau)) | None => 1 end.

Definition some3 (p : R * R * R) : option R * option R * option R :=
  let '(x, y, z) := p in (Some x, Some y, Some z).

(** ** Lists *)
Section Lists.
Context {A B : Type}.
Lemma consecutive_nth (l : list A) k :
  nth_error (consecutive l) k =
  match nth_error l k, nth_error l (S k) with Some p, Some q => Some (p, q) | _, _ => None end.
Proof.
  revert k. induction l as [|p l IH]; intros k; [destruct k; reflexivity|].
  destruct l as [|q l]. { destruct k as [|k]; [reflexivity|]. cbn. destruct k; reflexivity. }
  destruct k as [|k]; [reflexivity|]. cbn [consecutive nth_error] in *. rewrite IH. reflexivity.
Qed.
Lemma consecutive_length (l : list A) : length (consecutive l) = (length l - 1)%nat.
Proof.
  induction l as [|p l IH]; [reflexivity|]. destruct l as [|q l]; [reflexivity|].
  cbn [consecutive length] in *. rewrite IH. lia.
Qed.
Lemma nth_error_rev (l : list A) k : (k < length l)%nat ->
  nth_error (rev l) k = nth_error l (length l - 1 - k).
Proof.
  intros H. destruct l as [|d l0] eqn:E; [cbn in H; lia|]. rewrite <- E in *.
  rewrite (nth_error_nth' _ d) by (rewrite rev_length; lia). rewrite (nth_error_nth' _ d) by lia.
  rewrite rev_nth by lia. do 2 f_equal. lia.
Qed.
Lemma last_nth (l : list A) d : l <> [] -> nth_error l (length l - 1) = Some (last l d).
Proof.
  induction l as [|p l IH]; [congruence|]. intros _. destruct l as [|q l]; [reflexivity|].
  assert (K : q :: l <> []) by congruence. specialize (IH K).
  cbn [length last] in *. replace (S (S (length l)) - 1)%nat with (S (S (length l) - 1)) by lia. exact IH.
Qed.
End Lists.

(** ** The sampled trajectory *)
Lemma linspace_checked l0 l1 n :
  linspace (Some l0) (Some l1) n = map (fun k => Some (sample_time l0 l1 n k)) (seq 0 n).
Proof.
  destruct n as [|[|n]]; [reflexivity| |].
  - cbn [linspace seq map]. unfold sample_time. cbn [INR]. do 2 f_equal. ring.
  - unfold linspace. apply map_ext. intros k. unfold sample_time. cnum.
    assert (K : IZR (Z.of_nat (S (S n) - 1)) <> 0) by (apply not_0_IZR; lia).
    rewrite cdiv_some by exact K. now rewrite <- !INR_IZR_INZ.
Qed.
Lemma trunc_eq x n : INR n <= x < INR n + 1 -> Rtrunc x = Z.of_nat n.
Proof.
  intros H. pose proof (pos_INR n). unfold Rtrunc. destruct (Rle_dec 0 x); [|lra].
  rewrite INR_IZR_INZ in H. destruct (base_Int_part x) as [B1 B2].
  assert (IZR (Int_part x) < IZR (Z.of_nat n) + 1) as K1 by lra. assert (IZR (Z.of_nat n) < IZR (Int_part x) + 1) as K2 by lra.
  rewrite <- plus_IZR in K1, K2. apply lt_IZR in K1. apply lt_IZR in K2. lia.
Qed.
Lemma time_grid_run l0 l1 d n : INR n <= (l1 - l0) * d < INR n + 1 ->
  time_grid (Some l0) (Some l1) (Some d) = Ret (map (fun k => Some (sample_time l0 l1 n k)) (seq 0 n)).
Proof.
  intros H. unfold time_grid. cnum. cbn [ntrunc CTrunc bind]. rewrite (trunc_eq _ n H).
  destruct (Z.ltb_spec (Z.of_nat n) 0) as [K|K]; [lia|]. rewrite Nat2Z.id, linspace_checked. reflexivity.
Qed.
Lemma eval_array_run {I} (f : option R -> outcome (option R)) (g h : I -> R) (l : list I) :
  (forall i, In i l -> f (Some (g i)) = Ret (Some (h i))) ->
  eval_array f (map (fun i => Some (g i)) l) = Ret (map (fun i => Some (h i)) l).
Proof.
  induction l as [|i l IH]; intros H; [reflexivity|]. cbn [map eval_array].
  rewrite (H i (or_introl eq_refl)). cbn [bind]. rewrite IH by (intros j Hj; apply H; now right). reflexivity.
Qed.
Lemma cartesian_list_map {I} (r th ph : I -> R) (l : list I) :
  cartesian_list (map (fun i => Some (r i)) l) (map (fun i => Some (th i)) l) (map (fun i => Some (ph i)) l)
  = map (fun i => some3 (cart (r i) (th i) (ph i))) l.
Proof. induction l as [|i l IH]; [reflexivity|]. cbn [map cartesian_list]. rewrite IH. reflexivity. Qed.

(** ** is_visible on defined points *)
Lemma dotR_ge0 p : 0 <= dotR p p.
Proof. destruct p as [[x y] z]. unfold dotR. nra. Qed.
Lemma frobenius_checked pts : frobenius (map some3 pts) = Some (frobenius pts).
Proof.
  assert (K : fold_right (fun p acc => (dot3 p p + acc)%num) (Some 0) (map some3 pts)
            = Some (fold_right (fun p acc => dotR p p + acc) 0 pts) /\
            0 <= fold_right (fun p acc => dotR p p + acc) 0 pts).
  { induction pts as [|p l [IH IH']]; [split; [reflexivity | cbn; lra]|].
    cbn [map fold_right]. rewrite IH. pose proof (dotR_ge0 p). split; [|lra].
    destruct p as [[x y] z]. reflexivity. }
  destruct K as [K K']. unfold frobenius. cnum. cnum_in K. rewrite K. rewrite csqrt_some by exact K'. reflexivity.
Qed.
Lemma visible_checked a pts el az : -1 <= a <= 1 ->
  is_visible (Some a) (map some3 pts) (Some el) (Some az) = is_visible a pts el az.
Proof.
  intros Ha. unfold is_visible. cbv zeta. rewrite map_map. apply map_ext. intros p.
  rewrite frobenius_checked. destruct p as [[x y] z].
  assert (K : 0 <= 1 - a^2) by nra.
  unfold view_plane_normal. cnum. rewrite !cdiv_some by lra.
  assert (S : csqrt (Some (1 - a^2)) = Some (sqrt (1 - a^2))) by (apply csqrt_some; exact K).
  rewrite S. cbn [some3 project dot3]. cnum. match goal with |- context [csqrt (Some (?u * ?u + ?v * ?v + ?w * ?w))] =>
    rewrite (csqrt_some (u * u + v * v + w * w)) by (exact (dotR_ge0 (u, v, w))) end. reflexivity.
Qed.
Lemma mask_map pts (vis : list (option bool)) k p b :
  nth_error pts k = Some p -> nth_error vis k = Some (Some b) ->
  exists v, nth_error (mask (map some3 pts) vis) k = Some v /\ drawn_iff (b = true) p v.
Proof.
  revert vis k. induction pts as [|q l IH]; intros vis k H1 H2; [destruct k; discriminate|].
  destruct vis as [|w vis]; [destruct k; discriminate|].
  destruct k as [|k].
  - cbn in H1, H2. injection H1 as ->. injection H2 as ->. destruct p as [[x y] z].
    cbn [map some3 mask nth_error]. eexists. split; [reflexivity|]. unfold drawn_iff.
    destruct b; split; intros; congruence.
  - cbn [nth_error] in H1, H2. destruct (IH vis k H1 H2) as (v & E & K). exists v. split; [|exact K].
    cbn [map]. destruct q as [[x y] z]. cbn [some3 mask nth_error]. exact E.
Qed.
Lemma mask_length (pts : list (R * R * R)) (vis : list (option bool)) : length vis = length pts ->
  length (mask (map some3 pts) vis) = length pts.
Proof.
  revert vis. induction pts as [|[[x y] z] l IH]; intros [|w vis] H; cbn in *; try reflexivity; try lia.
  f_equal. apply IH. lia.
Qed.

(** ** Extents *)
Lemma nmin_fold l m : exists v, fold_left nmin2 (map Some l) (Some m) = Some v /\ v <= m /\ forall x, In x l -> v <= x.
Proof.
  revert m. induction l as [|y l IH]; intros m; [exists m; repeat split; [lra | intros x []]|].
  cbn [map fold_left]. unfold nmin2 at 2. cnum. cbn [nif]. destruct (Rltb_spec y m).
  - destruct (IH y) as (v & E & H1 & H2). exists v. refine (conj E (conj _ _)); [lra|]. intros x [<-|K]; auto.
  - destruct (IH m) as (v & E & H1 & H2). exists v. refine (conj E (conj _ _)); [lra|]. intros x [<-|K]; [lra | auto].
Qed.
Lemma nmax_fold l m : exists v, fold_left nmax2 (map Some l) (Some m) = Some v /\ m <= v /\ forall x, In x l -> x <= v.
Proof.
  revert m. induction l as [|y l IH]; intros m; [exists m; repeat split; [lra | intros x []]|].
  cbn [map fold_left]. unfold nmax2 at 2. cnum. cbn [nif]. destruct (Rltb_spec m y).
  - destruct (IH y) as (v & E & H1 & H2). exists v. refine (conj E (conj _ _)); [lra|]. intros x [<-|K]; auto.
  - destruct (IH m) as (v & E & H1 & H2). exists v. refine (conj E (conj _ _)); [lra|]. intros x [<-|K]; [lra | auto].
Qed.
Lemma extent_run l : l <> [] -> exists lo hi, extent (map Some l) = Ret (Some lo, Some hi) /\ forall x, In x l -> lo <= x <= hi.
Proof.
  destruct l as [|y l]; [congruence|]. intros _. cbn [map extent]. unfold nmin, nmax.
  destruct (nmin_fold l y) as (lo & -> & H1 & H2). destruct (nmax_fold l y) as (hi & -> & H3 & H4).
  exists lo, hi. split; [reflexivity|]. intros x [<-|K]; [lra|]. split; [apply H2 | apply H4]; exact K.
Qed.

(** ** The sphere *)
Definition sphereR (a : R) : list (R * R * R) :=
  flat_map (fun u => map (fun v => (horizon a * (cos u * sin v), horizon a * (sin u * sin v), horizon a * (1 * cos v)))
                         (map (sample_time 0 PI 25) (seq 0 25)))
           (map (sample_time 0 (2 * PI) 50) (seq 0 50)).
Lemma sphere_run a : -1 <= a <= 1 -> sphere (Some a) = map some3 (sphereR a).
Proof.
  intros Ha. unfold sphere, sphereR. cbv zeta.
  assert (K : 0 <= 1 - a^2) by nra.
  assert (S : (#1 + nsqrt (#1 - (Some a)^2))%num = Some (horizon a)).
  { cnum. rewrite csqrt_some by exact K. reflexivity. }
  rewrite S.
  change (@linspace (option R) CNum (nZ 0) npi 25) with (linspace (Some 0) (Some PI) 25).
  change (@linspace (option R) CNum (nZ 0) (nZ 2 * npi)%num 50) with (linspace (Some 0) (Some (2 * PI)) 50).
  rewrite !linspace_checked.
  generalize (seq 0 50). generalize (seq 0 25). intros l1 l2.
  induction l2 as [|k l2 IH]; [reflexivity|]. cbn [map flat_map]. rewrite map_app, <- IH. f_equal.
  rewrite !map_map. apply map_ext. intros j. reflexivity.
Qed.
Lemma sphereR_radius a p : In p (sphereR a) -> lengthR p = horizon a.
Proof.
  unfold sphereR. rewrite in_flat_map. intros (u & _ & H). apply in_map_iff in H as (v & <- & _).
  unfold lengthR, dotR.
  replace (horizon a * (cos u * sin v) * (horizon a * (cos u * sin v)) +
    horizon a * (sin u * sin v) * (horizon a * (sin u * sin v)) + horizon a * (1 * cos v) * (horizon a * (1 * cos v)))
    with (horizon a ^2).
  - apply sqrt_pow2. unfold horizon. pose proof (sqrt_pos (1 - a^2)). lra.
  - pose proof (sin2_cos2 u) as U. pose proof (sin2_cos2 v) as V. unfold Rsqr in U, V.
    transitivity (horizon a ^ 2 * ((sin u * sin u + cos u * cos u) * (sin v * sin v) + cos v * cos v)); [|ring].
    rewrite U. replace (1 * (sin v * sin v) + cos v * cos v) with (sin v * sin v + cos v * cos v) by ring.
    rewrite V. ring.
Qed.

(** ** Decay *)
Definition tau_ok (tau : option R) : Prop := match tau with Some tau => tau <> 0 | None => True end.
Lemma decay_run c lw tau l0 l1 n : (1 <= n)%nat -> tau_ok tau ->
  exists w, decay (Some c) (Some lw) (option_map Some tau) (map (fun k => Some (sample_time l0 l1 n k)) (seq 0 n)) = Ret w /\
  length w = n /\
  forall k, (k < n)%nat -> nth_error w k = Some (Some (c + lw * age_factor tau (sample_time l0 l1 n (n - 1) - sample_time l0 l1 n k))).
Proof.
  intros Hn HT. set (time := map (fun k => Some (sample_time l0 l1 n k)) (seq 0 n)).
  assert (HD : exists ts, time = Some l0 :: ts).
  { destruct n as [|n]; [lia|]. unfold time. cbn [seq map]. exists (map (fun k => Some (sample_time l0 l1 (S n) k)) (seq 1 n)).
    f_equal. unfold sample_time. cbn [INR]. f_equal. ring. }
  destruct HD as (ts & HD). unfold decay. rewrite HD. rewrite <- HD. eexists. split; [reflexivity|]. split.
  - rewrite rev_length, map_length. unfold time. rewrite map_length, seq_length. reflexivity.
  - intros k Hk.
    assert (LT : length time = n) by (unfold time; rewrite map_length, seq_length; reflexivity).
    rewrite nth_error_rev by (rewrite map_length; lia). rewrite map_length, LT, nth_error_map.
    assert (NT : nth_error time (n - 1 - k) = Some (Some (sample_time l0 l1 n (n - 1 - k)))).
    { unfold time. rewrite nth_error_map. rewrite (nth_error_nth' _ 0%nat) by (rewrite seq_length; lia).
      rewrite seq_nth by lia. reflexivity. }
    rewrite NT. cbn [option_map]. f_equal. unfold decay_at.
    assert (SH : sample_time l0 l1 n (n - 1 - k) - l0 = sample_time l0 l1 n (n - 1) - sample_time l0 l1 n k).
    { unfold sample_time. rewrite (minus_INR (n - 1) k) by lia. ring. }
    destruct tau as [tau|]; cbn [option_map age_factor]; cnum.
    + rewrite cdiv_some by exact HT. rewrite SH. f_equal. f_equal. f_equal. f_equal. unfold Rdiv. ring.
    + rewrite exp_0. f_equal.
Qed.

(** ** C71 *)
Section C71.
Context {X : External R}.
Context (o : orbit (T := option R)) (ip : option (option R * option R * option R * option R)).
(** the phases actually used: those passed, or the orbit's own *)
Definition used_phases := match ip with Some q => q | None => o_phases o end.
Context (a l0 l1 el az lw d : R) (tau : option R) (grid axes : bool) (n : nat).
Context (T1 T2 T3 T4 : @traj (option R)) (r th ph : R -> R).
Notation lam := (sample_time l0 l1 n).
Notation P k := (cart (r (lam k)) (th (lam k)) (ph (lam k))).
Context (Ho : o_a o = Some a) (Ha : -1 <= a <= 1).
Context (HT : Orbit_trajectory o (Some used_phases) "natural" "natural" = Ret (T1, T2, T3, T4)).
Context (HV : forall k, (k < n)%nat -> T2 (Some (lam k)) = Ret (Some (r (lam k))) /\
  T3 (Some (lam k)) = Ret (Some (th (lam k))) /\ T4 (Some (lam k)) = Ret (Some (ph (lam k)))).
Context (Hn : (1 <= n)%nat) (Hd : INR n <= (l1 - l0) * d < INR n + 1) (Htau : tau_ok tau).

Definition pointsR : list (R * R * R) := map (fun k => P k) (seq 0 n).
Lemma pointsR_nth k : (k < n)%nat -> nth_error pointsR k = Some (P k).
Proof.
  intros Hk. unfold pointsR. rewrite nth_error_map, (nth_error_nth' _ 0%nat) by (rewrite seq_length; lia).
  rewrite seq_nth by lia. reflexivity.
Qed.
Lemma pointsR_length : length pointsR = n.
Proof. unfold pointsR. now rewrite map_length, seq_length. Qed.
Lemma sample_run : sample o (Some used_phases) (map (fun k => Some (lam k)) (seq 0 n)) = Ret (map some3 pointsR).
Proof.
  unfold sample. rewrite HT. cbn [bind].
  rewrite (eval_array_run T2 lam (fun k => r (lam k))) by (intros k Hk; apply in_seq in Hk; apply HV; lia). cbn [bind].
  rewrite (eval_array_run T3 lam (fun k => th (lam k))) by (intros k Hk; apply in_seq in Hk; apply HV; lia). cbn [bind].
  rewrite (eval_array_run T4 lam (fun k => ph (lam k))) by (intros k Hk; apply in_seq in Hk; apply HV; lia). cbn [bind].
  rewrite cartesian_list_map. unfold pointsR. rewrite map_map. reflexivity.
Qed.
Lemma limits_run (f : option R * option R * option R -> option R) (g : R * R * R -> R) :
  (forall p, f (some3 p) = Some (g p)) ->
  exists lo hi, extent (map f (map some3 pointsR ++ sphere (Some a))) = Ret (Some lo, Some hi) /\
  (forall k, (k < n)%nat -> lo <= g (P k) <= hi) /\ forall p, In p (sphereR a) -> lo <= g p <= hi.
Proof.
  intros Hf. rewrite sphere_run by exact Ha. rewrite <- map_app, map_map.
  rewrite (map_ext _ (fun p => Some (g p))) by exact Hf. rewrite <- (map_map g Some).
  assert (NE : map g (pointsR ++ sphereR a) <> []).
  { intros E. apply (f_equal (@length R)) in E. rewrite map_length, app_length, pointsR_length in E. cbn in E. lia. }
  destruct (extent_run _ NE) as (lo & hi & -> & K). exists lo, hi. refine (conj eq_refl (conj _ _)).
  - intros k Hk. apply K, in_map, in_or_app. left. apply (nth_error_In _ k), pointsR_nth, Hk.
  - intros p Hp. apply K, in_map, in_or_app. right. exact Hp.
Qed.

(** the figure: a chain of n-1 segments through the orbit's positions at n equally spaced
    Mino times, the marker at the last of them, line widths decaying with age, the horizon
    sphere, and axis limits containing all of it *)
Theorem C71_plot_draws_trajectory :
  exists fig, plot o (Some l0) (Some l1) (Some el) (Some az) ip grid axes (Some lw) (option_map Some tau) (Some d) = Ret fig /\
  length (f_segments fig) = (n - 1)%nat /\
  (forall k, (S k < n)%nat -> exists v w, nth_error (f_segments fig) k = Some (v, w) /\
     drawn_iff (unobstructed a el az (P k) /\ horizon a < frobenius pointsR) (P k) v /\
     drawn_iff (unobstructed a el az (P (S k)) /\ horizon a < frobenius pointsR) (P (S k)) w) /\
  length (f_widths fig) = n /\
  (forall k, (k < n)%nat -> nth_error (f_widths fig) k = Some (Some (1 / 10 + lw * age_factor tau (lam (n - 1) - lam k)))) /\
  f_body fig = some3 (P (n - 1)) /\
  (forall p, In p (f_sphere fig) -> on_horizon a p) /\
  (forall k, (k < n)%nat -> let '(x, y, z) := P k in
     within x (f_xlim fig) /\ within y (f_ylim fig) /\ within z (f_zlim fig)) /\
  (forall x y z, In (Some x, Some y, Some z) (f_sphere fig) ->
     within x (f_xlim fig) /\ within y (f_ylim fig) /\ within z (f_zlim fig)) /\
  f_view fig = (Some el, Some az) /\ f_grid fig = grid /\ f_axes fig = axes.
Proof.
  unfold plot. fold used_phases. rewrite (time_grid_run l0 l1 d n Hd). cbn [bind]. rewrite sample_run. cbn [bind].
  rewrite Ho, visible_checked by exact Ha.
  change (nQ 1 10) with (Some (1 / 10)).
  destruct (decay_run (1 / 10) lw tau l0 l1 n Hn Htau) as (w & HW & LW & NW). rewrite HW. cbn [bind].
  destruct (map some3 pointsR) as [|p0 ps] eqn:EP.
  { apply (f_equal (@length _)) in EP. rewrite map_length, pointsR_length in EP. cbn in EP. lia. }
  cbv zeta. rewrite <- EP.
  destruct (limits_run px (fun p => let '(x, _, _) := p in x)) as (xl & xh & EX & KX & SX); [intros [[x y] z]; reflexivity|].
  destruct (limits_run py (fun p => let '(_, y, _) := p in y)) as (yl & yh & EY & KY & SY); [intros [[x y] z]; reflexivity|].
  destruct (limits_run pz (fun p => let '(_, _, z) := p in z)) as (zl & zh & EZ & KZ & SZ); [intros [[x y] z]; reflexivity|].
  rewrite EX. cbn [bind]. rewrite EY. cbn [bind]. rewrite EZ. cbn [bind].
  set (vis := is_visible a pointsR el az).
  assert (LV : length vis = length pointsR) by (unfold vis, is_visible; cbv zeta; apply map_length).
  assert (VX : forall k, (k < n)%nat -> exists v, nth_error (mask (map some3 pointsR) vis) k = Some v /\
     drawn_iff (unobstructed a el az (P k) /\ horizon a < frobenius pointsR) (P k) v).
  { intros k Hk. destruct (is_visible_nth a pointsR el az k (P k) (pointsR_nth k Hk)) as (b & E & K).
    destruct (mask_map pointsR vis k (P k) b (pointsR_nth k Hk) E) as (v & E' & D). exists v. split; [exact E'|].
    unfold drawn_iff in *. destruct (P k) as [[x y] z]. destruct D as [D1 D2]. fold (horizon a) in K.
    split; intros C; [apply D1, K, C | apply D2]. intros B. apply C, K, B. }
  eexists. split; [reflexivity|]. cbn [f_segments f_widths f_body f_sphere f_xlim f_ylim f_zlim f_view f_grid f_axes].
  refine (conj _ (conj _ (conj LW (conj NW (conj _ (conj _ (conj _ (conj _ (conj eq_refl (conj eq_refl eq_refl)))))))))).
  - rewrite consecutive_length, (mask_length _ _ LV), pointsR_length. reflexivity.
  - intros k Hk. destruct (VX k ltac:(lia)) as (v & E1 & D1). destruct (VX (S k) Hk) as (v' & E2 & D2).
    exists v, v'. rewrite consecutive_nth, E1, E2. auto.
  - assert (K : map some3 pointsR <> []) by (rewrite EP; congruence).
    pose proof (last_nth _ p0 K) as Q. rewrite map_length, pointsR_length, nth_error_map, pointsR_nth in Q by lia.
    cbn [option_map] in Q. congruence.
  - intros p Hp. rewrite sphere_run in Hp by exact Ha. apply in_map_iff in Hp as ([[x y] z] & <- & Hp).
    exists x, y, z. split; [reflexivity|]. apply sphereR_radius, Hp.
  - intros k Hk. specialize (KX k Hk). specialize (KY k Hk). specialize (KZ k Hk). destruct (P k) as [[x y] z].
    refine (conj _ (conj _ _)); eexists; eexists; (split; [reflexivity | assumption]).
  - intros x y z Hp. rewrite sphere_run in Hp by exact Ha. apply in_map_iff in Hp as ([[x' y'] z'] & E & Hp).
    cbn [some3] in E. assert (x' = x /\ y' = y /\ z' = z) as (-> & -> & ->) by (repeat split; congruence).
    specialize (SX _ Hp). specialize (SY _ Hp). specialize (SZ _ Hp). cbn in SX, SY, SZ.
    refine (conj _ (conj _ _)); eexists; eexists; (split; [reflexivity | assumption]).
Qed.
End C71.
Print Assumptions C71_plot_draws_trajectory.

(** *** Endpoints, widths and failures *)
Lemma exp_mono x y : x <= y -> exp x <= exp y.
Proof. intros [H|H]; [left; now apply exp_increasing | right; now rewrite H]. Qed.
Theorem C71_endpoints l0 l1 n : (2 <= n)%nat ->
  sample_time l0 l1 n 0 = l0 /\ sample_time l0 l1 n (n - 1) = l1 /\
  forall k, sample_time l0 l1 n (S k) - sample_time l0 l1 n k = (l1 - l0) / INR (n - 1).
Proof.
  intros Hn. assert (INR (n - 1) <> 0) by (apply not_0_INR; lia). unfold sample_time.
  refine (conj _ (conj _ _)).
  - cbn [INR]. ring.
  - field. assumption.
  - intros k. rewrite S_INR. ring.
Qed.
(** line widths lie between 0.1 and 0.1 + lw, never decrease towards the body, and reach
    0.1 + lw there *)
Theorem C71_widths lw tau l0 l1 n : 0 <= lw -> match tau with Some tau => 0 < tau | None => True end -> l0 <= l1 ->
  let w k := 1 / 10 + lw * age_factor tau (sample_time l0 l1 n (n - 1) - sample_time l0 l1 n k) in
  (forall k, (k < n)%nat -> 1 / 10 <= w k <= 1 / 10 + lw) /\
  (forall j k, (j <= k < n)%nat -> w j <= w k) /\ w (n - 1)%nat = 1 / 10 + lw.
Proof.
  intros Hl HT H01 w.
  assert (ST : 0 <= (l1 - l0) / INR (n - 1)).
  { destruct (Nat.le_gt_cases n 1) as [N|N].
    { replace (n - 1)%nat with 0%nat by lia. cbn [INR]. unfold Rdiv. rewrite Rinv_0. lra. }
    apply Rmult_le_pos; [lra|]. left. apply Rinv_0_lt_compat. apply lt_0_INR. lia. }
  assert (MO : forall j k, (j <= k)%nat -> sample_time l0 l1 n j <= sample_time l0 l1 n k).
  { intros j k Hjk. unfold sample_time. apply Rplus_le_compat_l, Rmult_le_compat_r; [exact ST | now apply le_INR]. }
  assert (AG : forall s u, 0 <= s <= u -> 0 < age_factor tau u /\ age_factor tau u <= age_factor tau s <= 1).
  { intros s u Hs. unfold age_factor. destruct tau as [tau|]; [|lra]. split; [apply exp_pos|].
    assert (s / tau <= u / tau) by (apply Rmult_le_compat_r; [left; now apply Rinv_0_lt_compat | lra]).
    assert (0 <= s / tau) by (apply Rmult_le_pos; [lra | left; now apply Rinv_0_lt_compat]).
    rewrite <- exp_0. split; apply exp_mono; lra. }
  refine (conj _ (conj _ _)).
  - intros k Hk. unfold w. pose proof (MO k (n - 1)%nat ltac:(lia)).
    destruct (AG (sample_time l0 l1 n (n - 1) - sample_time l0 l1 n k) (sample_time l0 l1 n (n - 1) - sample_time l0 l1 n k)) as (A & _ & B); [lra|].
    split; nra.
  - intros j k Hk. unfold w. pose proof (MO j k ltac:(lia)). pose proof (MO k (n - 1)%nat ltac:(lia)).
    destruct (AG (sample_time l0 l1 n (n - 1) - sample_time l0 l1 n k) (sample_time l0 l1 n (n - 1) - sample_time l0 l1 n j)) as (A & B & _); [lra|].
    apply Rplus_le_compat_l, Rmult_le_compat_l; lra.
  - unfold w. replace (sample_time l0 l1 n (n - 1) - sample_time l0 l1 n (n - 1)) with 0 by ring.
    unfold age_factor. destruct tau as [tau|]; [|ring]. replace (- (0 / tau)) with 0 by (unfold Rdiv; ring). rewrite exp_0. ring.
Qed.
Section C71e.
Context {X : External R}.
(** reversed or too short intervals raise *)
Theorem C71_reversed_interval (o : orbit (T := option R)) ip l0 l1 el az lw d tau grid axes : (l1 - l0) * d <= -1 ->
  plot o (Some l0) (Some l1) el az ip grid axes lw tau (Some d) = Raise (ValueError msg_linspace).
Proof.
  intros H. unfold plot, time_grid. cnum. cbn [ntrunc CTrunc bind]. unfold Rtrunc.
  destruct (Rle_dec 0 ((l1 - l0) * d)); [lra|]. 
  destruct (base_Int_part (- ((l1 - l0) * d))) as [B1 B2].
  assert (K : 0 < IZR (Int_part (- ((l1 - l0) * d)))) by lra. apply lt_IZR in K.
  destruct (Z.ltb_spec (- Int_part (- ((l1 - l0) * d))) 0); [|lia]. reflexivity.
Qed.
Theorem C71_short_interval (o : orbit (T := option R)) ip l0 l1 el az lw d tau grid axes T1 T2 T3 T4 : -1 < (l1 - l0) * d < 1 ->
  Orbit_trajectory o (Some (used_phases o ip)) "natural" "natural" = Ret (T1, T2, T3, T4) ->
  plot o (Some l0) (Some l1) el az ip grid axes lw tau (Some d) = Raise IndexError.
Proof.
  intros H HT.
  assert (K : Rtrunc ((l1 - l0) * d) = 0%Z).
  { unfold Rtrunc. destruct (Rle_dec 0 ((l1 - l0) * d)).
    - destruct (base_Int_part ((l1 - l0) * d)) as [B1 B2].
      assert (-1 < IZR (Int_part ((l1 - l0) * d)) < 1) as [K1 K2] by lra. apply lt_IZR in K1, K2. lia.
    - destruct (base_Int_part (- ((l1 - l0) * d))) as [B1 B2].
      assert (-1 < IZR (Int_part (- ((l1 - l0) * d))) < 1) as [K1 K2] by lra. apply lt_IZR in K1, K2. lia. }
  assert (G : time_grid (Some l0) (Some l1) (Some d) = Ret []).
  { unfold time_grid. cnum. cbn [ntrunc CTrunc bind]. rewrite K. reflexivity. }
  unfold plot. fold (used_phases o ip). rewrite G. cbn [bind]. unfold sample. rewrite HT. reflexivity.
Qed.
End C71e.

(** * C72: what Orbit.animate puts in each frame *)
From Coq Require Import Reals Lra Lia ZArith String List.
From Coquelicot Require Import Coquelicot.
From Verif Require Import Num Outcome External Checked ExternalSpec.
From Verif Require Import Model_Constants Model_Frequencies Model_Spacetime Model_Stable Model_Orbit Model_Plot.
From Verif Require Import Spec SpecElliptic Props_Constants Props_Orbit2 Props_Trajectory Props_Plot.
Import ListNotations.
Open Scope R_scope.

(** ** Lists *)
Section Lists.
Context {A : Type}.
Lemma firstn_nth (l : list A) m i : (i < m)%nat -> nth_error (firstn m l) i = nth_error l i.
Proof. revert l i. induction m as [|m IH]; intros l i H; [lia|]. destruct l; [reflexivity|]. destruct i; [reflexivity|]. cbn. apply IH. lia. Qed.
Lemma skipn_nth (l : list A) m i : nth_error (skipn m l) i = nth_error l (m + i).
Proof. revert l. induction m as [|m IH]; intros l; [reflexivity|]. destruct l; [destruct i; reflexivity|]. cbn. apply IH. Qed.
Lemma slice_nth (l : list A) (j0 j i : nat) : (j0 + i < j)%nat -> nth_error (slice l (Z.of_nat j0) (Z.of_nat j)) i = nth_error l (j0 + i).
Proof. intros H. unfold slice. rewrite firstn_nth by lia. rewrite Nat2Z.id. apply skipn_nth. Qed.
Lemma slice_length (l : list A) (j0 j : nat) : (j0 <= j <= length l)%nat -> length (slice l (Z.of_nat j0) (Z.of_nat j)) = (j - j0)%nat.
Proof. intros H. unfold slice. rewrite firstn_length, skipn_length, Nat2Z.id. lia. Qed.
Lemma slice_map {B} (f : A -> B) l j0 j : slice (map f l) j0 j = map f (slice l j0 j).
Proof. unfold slice. now rewrite skipn_map, firstn_map. Qed.
Lemma get_run (l : list A) (j : nat) v : nth_error l j = Some v -> get l (Z.of_nat j) = Ret v.
Proof.
  intros H. assert (K : (j < length l)%nat) by (apply nth_error_Some; congruence).
  unfold get, np_index. destruct (Z.leb_spec 0 (Z.of_nat j)); [|lia].
  destruct (Z.ltb_spec (Z.of_nat j) (Z.of_nat (length l))); [|lia]. cbn [andb bind]. rewrite Nat2Z.id, H. reflexivity.
Qed.
Lemma suffix_nth (l : list A) (m i : nat) : (0 < m <= length l)%nat ->
  nth_error (suffix l (Z.of_nat m)) i = nth_error l (length l - m + i) /\ length (suffix l (Z.of_nat m)) = m.
Proof.
  intros H. unfold suffix. destruct (Z.ltb_spec 0 (Z.of_nat m)); [|lia].
  replace (Z.to_nat (Z.max 0 (Z.of_nat (length l) - Z.of_nat m))) with (length l - m)%nat by lia.
  rewrite skipn_nth, skipn_length. split; [reflexivity | lia].
Qed.
End Lists.

Lemma draw_frames_run {T} (draw : Z -> outcome (frame (T := T))) (F : nat -> frame) s n :
  (forall i, (i < n)%nat -> draw (Z.of_nat (s + i)) = Ret (F (s + i)%nat)) ->
  draw_frames draw (Z.of_nat s) n = Ret (map F (seq s n)).
Proof.
  revert s. induction n as [|n IH]; intros s H; [reflexivity|]. cbn [draw_frames seq map].
  pose proof (H 0%nat ltac:(lia)) as H0. rewrite Nat.add_0_r in H0. rewrite H0. cbn [bind].
  replace (Z.of_nat s + 1)%Z with (Z.of_nat (S s)) by lia. rewrite IH; [reflexivity|].
  intros i Hi. specialize (H (S i) ltac:(lia)). replace (S s + i)%nat with (s + S i)%nat by lia. exact H.
Qed.
Lemma draw_frames_fail {T} (draw : Z -> outcome (frame (T := T))) s n k : (k < n)%nat ->
  (forall i, (i < n)%nat -> (exists f, draw (Z.of_nat (s + i)) = Ret f) \/ draw (Z.of_nat (s + i)) = Raise TypeError) ->
  draw (Z.of_nat (s + k)) = Raise TypeError ->
  draw_frames draw (Z.of_nat s) n = Raise TypeError.
Proof.
  revert s k. induction n as [|n IH]; intros s k Hk H HK; [lia|]. cbn [draw_frames].
  destruct (H 0%nat ltac:(lia)) as [(f & E)|E]; rewrite Nat.add_0_r in E; rewrite E; [|reflexivity]. cbn [bind].
  destruct k as [|k]. { rewrite Nat.add_0_r in HK. congruence. }
  replace (Z.of_nat s + 1)%Z with (Z.of_nat (S s)) by lia.
  rewrite (IH (S s) k); [reflexivity | lia | | ].
  - intros i Hi. specialize (H (S i) ltac:(lia)). replace (S s + i)%nat with (s + S i)%nat by lia. exact H.
  - replace (S s + k)%nat with (s + S k)%nat by lia. exact HK.
Qed.

Lemma absmax_fold l m : exists v, fold_left absmax2 (map Some l) (Some m) = Some v /\ Rabs m <= Rabs v /\ forall x, In x l -> Rabs x <= Rabs v.
Proof.
  revert m. induction l as [|y l IH]; intros m; [exists m; repeat split; [lra | intros x []]|].
  cbn [map fold_left]. unfold absmax2 at 2. cnum. cbn [nif]. destruct (Rltb_spec (Rabs m) (Rabs y)).
  - destruct (IH y) as (v & E & H1 & H2). exists v. refine (conj E (conj _ _)); [lra|]. intros x [<-|K]; auto.
  - destruct (IH m) as (v & E & H1 & H2). exists v. refine (conj E (conj _ _)); [lra|]. intros x [<-|K]; [lra | auto].
Qed.

(** camera function of Mino time: an optional user function on real numbers *)
Definition lift (f : option (R -> R)) : option (option R -> option R) :=
  option_map (fun f x => match x with Some v => Some (f v) | None => None end) f.
Definition camera_at (f : option (R -> R)) (fixed l : R) : R := match f with Some f => f l | None => fixed end.

Section C72.
Context {X : External R}.
Context (o : orbit (T := option R)) (ip : option (option R * option R * option R * option R)).
Context (a l0 l1 el az speed : R) (tau : option R) (azp elp roll lim : option (R -> R)) (n s : nat).
Context (T1 T2 T3 T4 : @traj (option R)) (r th ph : R -> R).
Notation lam := (sample_time l0 l1 n).
Notation P k := (cart (r (lam k)) (th (lam k)) (ph (lam k))).
Context (Ho : o_a o = Some a) (Ha : -1 <= a <= 1).
Context (HT : Orbit_trajectory o (Some (used_phases o ip)) "natural" "natural" = Ret (T1, T2, T3, T4)).
Context (HV : forall k, (k < n)%nat -> T2 (Some (lam k)) = Ret (Some (r (lam k))) /\
  T3 (Some (lam k)) = Ret (Some (th (lam k))) /\ T4 (Some (lam k)) = Ret (Some (ph (lam k)))).
(** n = int(240 (lambda1 - lambda0)) sampled points, s = int(8 speed) points per frame *)
Context (Hn : (1 <= n)%nat) (Hd : INR n <= (l1 - l0) * 240 < INR n + 1) (Htau : tau_ok tau).
Context (Hs : (1 <= s)%nat) (Hsp : INR s <= speed * 8 < INR s + 1).

Notation pts := (pointsR l0 l1 n r th ph).
Notation run tail := (animate o (Some l0) (Some l1) (Some el) (Some az) ip (option_map Some tau) tail
  (lift azp) (lift elp) (lift roll) (Some speed) (lift lim)).

(** points j0 .. j-1 *)
Definition tail_points (j0 j : nat) : list (R * R * R) := slice pts (Z.of_nat j0) (Z.of_nat j).

(** frame number i: the body at sample j = s i, preceded by a tail of at most 240 [tail]
    samples, seen from the camera angles of that moment *)
Definition frame_ok (tail i : nat) (f : frame (T := option R)) : Prop :=
  let j := (s * i)%nat in let j0 := (j - 240 * tail)%nat in
  let E := camera_at elp el (lam j) in let A := camera_at azp az (lam j) in
  (j < n)%nat /\ fr_time f = Some (lam j) /\ fr_body f = some3 (P j) /\
  fr_view f = (Some E, Some A, Some (camera_at roll 0 (lam j))) /\
  fr_limit f = option_map (fun g => Some (g (lam j))) lim /\
  length (fr_segments f) = (j - j0 - 1)%nat /\
  (forall m, (S (j0 + m) < j)%nat -> exists v w, nth_error (fr_segments f) m = Some (v, w) /\
     drawn_iff (unobstructed a E A (P (j0 + m)) /\ horizon a < frobenius (tail_points j0 j)) (P (j0 + m)) v /\
     drawn_iff (unobstructed a E A (P (S (j0 + m))) /\ horizon a < frobenius (tail_points j0 j)) (P (S (j0 + m))) w) /\
  ((j0 < j)%nat -> length (fr_alpha f) = (j - j0)%nat /\
   forall m, (j0 + m < j)%nat ->
     nth_error (fr_alpha f) m = Some (Some (1 / 10 + 9 / 10 * age_factor tau (lam (j - 1) - lam (j0 + m))))).

Lemma pts_nth k : (k < n)%nat -> nth_error pts k = Some (P k).
Proof. intros Hk. unfold pointsR. rewrite nth_error_map, (nth_error_nth' _ 0%nat) by (rewrite seq_length; lia). rewrite seq_nth by lia. reflexivity. Qed.
Lemma pts_length : length pts = n.
Proof. unfold pointsR. now rewrite map_length, seq_length. Qed.

Lemma draw_run (alphas : list (option R)) (tl : pynum (option R)) (tail i : nat) : (s * i < n)%nat ->
  tail_start tl (frame_index (Z.of_nat s) (Z.of_nat i)) = Ret (Z.of_nat (s * i - 240 * tail)) ->
  length alphas = n ->
  (forall k, (k < n)%nat -> nth_error alphas k = Some (Some (1 / 10 + 9 / 10 * age_factor tau (lam (n - 1) - lam k)))) ->
  exists f, draw_frame (Some a) (map (fun k => Some (lam k)) (seq 0 n)) (map some3 pts) alphas (Some el) (Some az) tl
    (lift azp) (lift elp) (lift roll) (lift lim) (Z.of_nat s) (Z.of_nat i) = Ret f /\ frame_ok tail i f.
Proof.
  intros Hj TS LA NA. unfold draw_frame. cbv zeta. rewrite TS.
  set (j := (s * i)%nat) in *. set (j0 := (j - 240 * tail)%nat) in *.
  assert (IJ : frame_index (Z.of_nat s) (Z.of_nat i) = Z.of_nat j) by (unfold frame_index, j; lia). rewrite IJ.
  assert (NT : nth_error (map (fun k => Some (lam k)) (seq 0 n)) j = Some (Some (lam j))).
  { rewrite nth_error_map, (nth_error_nth' _ 0%nat) by (rewrite seq_length; lia). rewrite seq_nth by lia. reflexivity. }
  rewrite (get_run _ _ _ NT). cbn [bind].
  assert (NP : nth_error (map some3 pts) j = Some (some3 (P j))) by (rewrite nth_error_map, pts_nth by lia; reflexivity).
  rewrite (get_run _ _ _ NP). cbn [bind].
  set (E := camera_at elp el (lam j)). set (A := camera_at azp az (lam j)).
  assert (E1 : match lift elp with Some f => f (Some (lam j)) | None => Some el end = Some E) by (unfold E, camera_at, lift; destruct elp; reflexivity).
  assert (E2 : match lift azp with Some f => f (Some (lam j)) | None => Some az end = Some A) by (unfold A, camera_at, lift; destruct azp; reflexivity).
  assert (E3 : match lift roll with Some f => f (Some (lam j)) | None => nZ 0 end = Some (camera_at roll 0 (lam j))) by (unfold camera_at, lift; destruct roll; reflexivity).
  assert (E4 : match lift lim with Some f => Some (f (Some (lam j))) | None => None end = option_map (fun g => Some (g (lam j))) lim) by (unfold lift; destruct lim; reflexivity).
  rewrite E1, E2, E3, E4.
  rewrite slice_map. fold (tail_points j0 j). rewrite visible_checked by exact Ha.
  assert (LT : length (tail_points j0 j) = (j - j0)%nat) by (unfold tail_points; apply slice_length; rewrite pts_length; unfold j0; lia).
  set (vis := is_visible a (tail_points j0 j) E A).
  assert (LV : length vis = length (tail_points j0 j)) by (unfold vis, is_visible; cbv zeta; apply map_length).
  assert (VX : forall m, (j0 + m < j)%nat -> exists v, nth_error (mask (map some3 (tail_points j0 j)) vis) m = Some v /\
     drawn_iff (unobstructed a E A (P (j0 + m)) /\ horizon a < frobenius (tail_points j0 j)) (P (j0 + m)) v).
  { intros m Hm. assert (Nm : nth_error (tail_points j0 j) m = Some (P (j0 + m)%nat)).
    { unfold tail_points. rewrite slice_nth by exact Hm. apply pts_nth. lia. }
    destruct (is_visible_nth a (tail_points j0 j) E A m (P (j0 + m)) Nm) as (b & Eb & K).
    destruct (mask_map (tail_points j0 j) vis m (P (j0 + m)) b Nm Eb) as (v & E' & D). exists v. split; [exact E'|].
    unfold drawn_iff in *. destruct (P (j0 + m)%nat) as [[xx yy] zz]. destruct D as [D1 D2]. fold (horizon a) in K.
    split; intros C; [apply D1, K, C | apply D2]. intros B. apply C, K, B. }
  eexists. split; [reflexivity|]. unfold frame_ok. fold j. fold j0. fold E. fold A. cbv zeta.
  cbn [fr_time fr_body fr_view fr_limit fr_segments fr_alpha].
  refine (conj Hj (conj eq_refl (conj eq_refl (conj eq_refl (conj eq_refl (conj _ (conj _ _))))))).
  - rewrite consecutive_length, (mask_length _ _ LV), LT. reflexivity.
  - intros m Hm. destruct (VX m ltac:(lia)) as (v & F1 & D1). destruct (VX (S m) ltac:(lia)) as (v' & F2 & D2).
    exists v, v'. rewrite consecutive_nth, F1, F2. rewrite Nat.add_succ_r in D2. auto.
  - intros Hjj. replace (Z.of_nat j - Z.of_nat j0)%Z with (Z.of_nat (j - j0)) by lia.
    assert (SB : (0 < j - j0 <= length alphas)%nat) by lia. split; [apply (suffix_nth _ _ 0 SB)|].
    intros m Hm. rewrite (proj1 (suffix_nth _ _ m SB)), LA. rewrite NA by lia. do 5 f_equal.
    unfold sample_time. rewrite !plus_INR, !minus_INR by lia. ring.
Qed.

Lemma prelude (tail : pynum (option R)) :
  exists alphas limit, length alphas = n /\
  (forall k, (k < n)%nat -> nth_error alphas k = Some (Some (1 / 10 + 9 / 10 * age_factor tau (lam (n - 1) - lam k)))) /\
  (forall k, (k < n)%nat -> let '(x, y, z) := P k in Rabs x <= limit /\ Rabs y <= limit /\ Rabs z <= limit) /\
  (forall p, In p (sphereR a) -> let '(x, y, z) := p in Rabs x <= limit /\ Rabs y <= limit /\ Rabs z <= limit) /\
  run tail = do frames <- draw_frames (draw_frame (Some a) (map (fun k => Some (lam k)) (seq 0 n)) (map some3 pts) alphas
     (Some el) (Some az) tail (lift azp) (lift elp) (lift roll) (lift lim) (Z.of_nat s)) (Z.of_nat 0) (n / s)%nat;
   Ret (mkMovie frames (map some3 (sphereR a)) (Some limit) 30).
Proof.
  change (nQ 9 10) with (Some (9 / 10)). 
  destruct (decay_run (1 / 10) (9 / 10) tau l0 l1 n Hn Htau) as (w & HW & LW & NW).
  destruct (limits_run a l0 l1 n r th ph Ha Hn px (fun p => let '(x, _, _) := p in x)) as (xl & xh & EX & KX & SX); [intros [[x y] z]; reflexivity|].
  destruct (limits_run a l0 l1 n r th ph Ha Hn py (fun p => let '(_, y, _) := p in y)) as (yl & yh & EY & KY & SY); [intros [[x y] z]; reflexivity|].
  destruct (limits_run a l0 l1 n r th ph Ha Hn pz (fun p => let '(_, _, z) := p in z)) as (zl & zh & EZ & KZ & SZ); [intros [[x y] z]; reflexivity|].
  destruct (absmax_fold [yl; zl; xh; yh; zh] xl) as (v & EV & V1 & V2).
  exists w, (Rabs v). refine (conj LW (conj NW _)).
  assert (B : forall q, xl <= (let '(x, _, _) := q in x) <= xh -> yl <= (let '(_, y, _) := q in y) <= yh -> zl <= (let '(_, _, z) := q in z) <= zh ->
    let '(x, y, z) := q in Rabs x <= Rabs v /\ Rabs y <= Rabs v /\ Rabs z <= Rabs v).
  { intros [[x y] z] Bx By Bz.
    assert (Rabs yl <= Rabs v /\ Rabs zl <= Rabs v /\ Rabs xh <= Rabs v /\ Rabs yh <= Rabs v /\ Rabs zh <= Rabs v) as (W1 & W2 & W3 & W4 & W5).
    { repeat split; apply V2; cbn; tauto. }
    assert (BB : forall lo hi u, lo <= u <= hi -> Rabs lo <= Rabs v -> Rabs hi <= Rabs v -> Rabs u <= Rabs v).
    { intros lo hi u [U1 U2] L1 L2. apply Rabs_le. pose proof (Rle_abs hi). pose proof (Rle_abs (- lo)). rewrite Rabs_Ropp in *. lra. }
    refine (conj _ (conj _ _)); eapply BB; eassumption. }
  refine (conj _ (conj _ _)).
  { intros k Hk. apply B; [apply KX | apply KY | apply KZ]; exact Hk. }
  { intros q Hq. apply B; [apply SX | apply SY | apply SZ]; exact Hq. }
  unfold animate. change (nZ 240) with (Some 240). rewrite (time_grid_run l0 l1 240 n Hd). cbn [bind].
  assert (SP : ntrunc (Some speed * #8)%num = Ret (Z.of_nat s)).
  { change (Ret (Rtrunc (speed * 8)) = Ret (Z.of_nat s)). f_equal. apply trunc_eq, Hsp. }
  rewrite SP. cbn [bind]. rewrite map_length, seq_length.
  unfold num_frames. destruct (Z.eqb_spec (Z.of_nat s) 0); [lia|]. cbn [bind].
  assert (SA : sample o ip (map (fun k => Some (lam k)) (seq 0 n)) = Ret (map some3 pts)).
  { rewrite <- (sample_run o ip l0 l1 n T1 T2 T3 T4 r th ph HT HV) by assumption. destruct ip; reflexivity. }
  rewrite SA. cbn [bind]. change (nQ 1 10) with (Some (1 / 10)). change (nQ 9 10) with (Some (9 / 10)). rewrite HW. cbn [bind].
  rewrite Ho, EX. cbn [bind]. rewrite EY. cbn [bind]. rewrite EZ. cbn [bind fst snd]. cbv zeta.
  assert (AM : absmax (Some xl) [Some yl; Some zl; Some xh; Some yh; Some zh] = Some (Rabs v)).
  { unfold absmax. change [Some yl; Some zl; Some xh; Some yh; Some zh] with (map Some [yl; zl; xh; yh; zh]). rewrite EV. reflexivity. }
  rewrite AM, sphere_run by exact Ha.
  replace (Z.to_nat (Z.of_nat n ÷ Z.of_nat s)) with (n / s)%nat; [reflexivity|].
  rewrite Z.quot_div_nonneg by lia. rewrite <- Nat2Z.inj_div, Nat2Z.id. reflexivity.
Qed.

Lemma in_frames i : (i < n / s)%nat -> (s * i < n)%nat.
Proof. intros H. assert (s * (n / s) <= n)%nat by (apply Nat.mul_div_le; lia). nia. Qed.

(** with an integer tail length the animation has int(n/s) frames, all as described, and
    the cube of the axes contains every sampled position and the black hole *)
Theorem C72_animate_frames (tail : nat) :
  exists m, run (PyInt (Z.of_nat tail)) = Ret m /\ length (m_frames m) = (n / s)%nat /\
  (forall i, (i < n / s)%nat -> exists f, nth_error (m_frames m) i = Some f /\ frame_ok tail i f) /\
  (exists limit, m_limit m = Some limit /\
     (forall k, (k < n)%nat -> let '(x, y, z) := P k in Rabs x <= limit /\ Rabs y <= limit /\ Rabs z <= limit) /\
     (forall x y z, In (Some x, Some y, Some z) (m_sphere m) -> Rabs x <= limit /\ Rabs y <= limit /\ Rabs z <= limit)) /\
  (forall p, In p (m_sphere m) -> on_horizon a p) /\ m_fps m = 30%Z.
Proof.
  destruct (prelude (PyInt (Z.of_nat tail))) as (alphas & limit & LA & NA & KL & SL & ->).
  set (draw := draw_frame (Some a) (map (fun k => Some (lam k)) (seq 0 n)) (map some3 pts) alphas
     (Some el) (Some az) (PyInt (Z.of_nat tail)) (lift azp) (lift elp) (lift roll) (lift lim) (Z.of_nat s)).
  assert (DR : forall i, (i < n / s)%nat -> exists f, draw (Z.of_nat i) = Ret f /\ frame_ok tail i f).
  { intros i Hi. apply draw_run; try assumption; [now apply in_frames|].
    unfold tail_start, frame_tail_start, frame_index. f_equal. lia. }
  set (F := fun i => match draw (Z.of_nat i) with Ret f => f | _ => mkFrame None [] [] (None, None, None) (None, None, None) None end).
  rewrite (draw_frames_run draw F 0 (n / s)%nat).
  2:{ intros i Hi. cbn [Nat.add]. destruct (DR i Hi) as (f & E & _). unfold F. rewrite E. reflexivity. }
  cbn [bind]. eexists. split; [reflexivity|]. cbn [m_frames m_limit m_sphere m_fps].
  refine (conj _ (conj _ (conj _ (conj _ eq_refl)))).
  - now rewrite map_length, seq_length.
  - intros i Hi. destruct (DR i Hi) as (f & E & K). exists f. split; [|exact K].
    rewrite nth_error_map, (nth_error_nth' _ 0%nat) by (rewrite seq_length; lia). rewrite seq_nth by lia.
    cbn [option_map Nat.add]. unfold F. now rewrite E.
  - exists limit. refine (conj eq_refl (conj KL _)). intros x y z Hp.
    apply in_map_iff in Hp as ([[x' y'] z'] & E & Hp). cbn [some3] in E.
    assert (x' = x /\ y' = y /\ z' = z) as (-> & -> & ->) by (repeat split; congruence). exact (SL _ Hp).
  - intros p Hp. apply in_map_iff in Hp as ([[x y] z] & <- & Hp). exists x, y, z. split; [reflexivity | now apply sphereR_radius].
Qed.

(** refuted: a float tail_length, as documented ("tail_length : double"), raises TypeError as
    soon as some frame is further from the start than the tail is long *)
Theorem C73_float_tail_refuted (x : R) i : (i < n / s)%nat -> 240 * x < INR (s * i) ->
  run (PyFloat (Some x)) = Raise TypeError.
Proof.
  intros Hi Hx. destruct (prelude (PyFloat (Some x))) as (alphas & limit & LA & NA & _ & _ & ->).
  assert (TS : forall i, tail_start (PyFloat (Some x)) (frame_index (Z.of_nat s) (Z.of_nat i)) =
     if Rlt_dec 0 (INR (s * i) - x * 240) then Raise TypeError else Ret 0%Z).
  { intros k. unfold tail_start, frame_index.
    change (nltb (nZ 0) (nZ (Z.of_nat s * Z.of_nat k) - Some x * nZ 240)%num)
      with (Some (Rltb 0 (IZR (Z.of_nat s * Z.of_nat k) - x * 240))).
    rewrite <- Nat2Z.inj_mul, <- INR_IZR_INZ. cbn [ifo]. unfold Rltb. destruct (Rlt_dec 0 (INR (s * k) - x * 240)); reflexivity. }
  assert (NT : forall k, (s * k < n)%nat -> nth_error (map (fun k => Some (lam k)) (seq 0 n)) (s * k) = Some (Some (lam (s * k)))).
  { intros k Hk. rewrite nth_error_map, (nth_error_nth' _ 0%nat) by (rewrite seq_length; lia). rewrite seq_nth by lia. reflexivity. }
  assert (DK : forall k, (k < n / s)%nat -> 0 < INR (s * k) - x * 240 ->
    draw_frame (Some a) (map (fun k => Some (lam k)) (seq 0 n)) (map some3 pts) alphas (Some el) (Some az) (PyFloat (Some x))
    (lift azp) (lift elp) (lift roll) (lift lim) (Z.of_nat s) (Z.of_nat k) = Raise TypeError).
  { intros k Hk K. unfold draw_frame. cbv zeta. rewrite TS. destruct (Rlt_dec 0 (INR (s * k) - x * 240)); [|contradiction].
    replace (frame_index (Z.of_nat s) (Z.of_nat k)) with (Z.of_nat (s * k)) by (unfold frame_index; lia).
    rewrite (get_run _ _ _ (NT k (in_frames k Hk))). reflexivity. }
  rewrite (draw_frames_fail _ 0 (n / s)%nat i Hi); [reflexivity| |].
  - intros k Hk. cbn [Nat.add]. destruct (Rlt_dec 0 (INR (s * k) - x * 240)) as [K|K]; [right; now apply DK | left].
    destruct (draw_run alphas (PyFloat (Some x)) (s * k) k (in_frames k Hk)) as (f & E & _); try assumption; [|now exists f].
    rewrite TS. destruct (Rlt_dec 0 (INR (s * k) - x * 240)); [contradiction|]. f_equal. lia.
  - cbn [Nat.add]. apply DK; [exact Hi | lra].
Qed.
End C72.
Print Assumptions C72_animate_frames.
Print Assumptions C73_float_tail_refuted.
(** at 30 frames per second, s = 8 speed samples per frame, the film advances [speed] units of
    Mino time per second, up to the factor n/(n-1) of the sampling *)
Theorem C72_playback_speed l0 l1 n s i speed : (2 <= n)%nat -> (l1 - l0) * 240 = INR n -> INR s = 8 * speed ->
  30 * (sample_time l0 l1 n (s * S i) - sample_time l0 l1 n (s * i)) = speed * (INR n / INR (n - 1)).
Proof.
  intros Hn Hd Hs. assert (INR (n - 1) <> 0) by (apply not_0_INR; lia). unfold sample_time.
  rewrite !mult_INR, S_INR, Hs. replace (l1 - l0) with (INR n / 240) by lra. field. assumption.
Qed.

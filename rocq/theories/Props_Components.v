(** * C98: the side panels and the label of Orbit.animate *)
From Coq Require Import Reals Lra Lia ZArith String List.
From Coquelicot Require Import Coquelicot.
From Verif Require Import Num Outcome External Checked ExternalSpec.
From Verif Require Import Model_Constants Model_Frequencies Model_Spacetime Model_Stable Model_Plunge Model_Orbit Model_Plot Model_Components.
From Verif Require Import Spec SpecElliptic P_Constants Props_Constants Props_Orbit2 Props_Trajectory Props_Trajectory2 Props_Finite Props_Frequencies Props_Plot Props_Animate Props_Constructors Props_Restart Props_Plot2 Props_Validation.
Import ListNotations.
Open Scope R_scope.

Lemma all_frames_run {A} (draw : Z -> outcome A) (F : nat -> A) s n :
  (forall i, (i < n)%nat -> draw (Z.of_nat (s + i)) = Ret (F (s + i)%nat)) ->
  all_frames draw (Z.of_nat s) n = Ret (map F (seq s n)).
Proof.
  revert s. induction n as [|n IH]; intros s H; [reflexivity|]. cbn [all_frames seq map].
  pose proof (H 0%nat ltac:(lia)) as H0. rewrite Nat.add_0_r in H0. rewrite H0. cbn [bind].
  replace (Z.of_nat s + 1)%Z with (Z.of_nat (S s)) by lia. rewrite IH; [reflexivity|].
  intros i Hi. specialize (H (S i) ltac:(lia)). replace (S s + i)%nat with (s + S i)%nat by lia. exact H.
Qed.
Lemma firstn_seq s n k : (k <= n)%nat -> firstn k (seq s n) = seq s k.
Proof. revert s k. induction n as [|n IH]; intros s [|k] H; try reflexivity; [lia|]. cbn. rewrite IH by lia. reflexivity. Qed.

(** the curve of a coordinate c over the first k sampled Mino times *)
Definition curve (l0 l1 : R) (n k : nat) (c : R -> R) : list (option R) := map (fun m => Some (c (sample_time l0 l1 n m))) (seq 0 k).
(** panels showing the first k samples of all four coordinates *)
Definition shows (l0 l1 : R) (n k : nat) (t r th ph : R -> R) (ps : panels (T := option R)) : Prop :=
  pn_time ps = curve l0 l1 n k (fun l => l) /\ pn_t ps = curve l0 l1 n k t /\ pn_r ps = curve l0 l1 n k r /\
  pn_theta ps = curve l0 l1 n k th /\ pn_phi ps = curve l0 l1 n k ph.
(** the label of a bound orbit names a, p, e, x, that of a plunging orbit a, E, L, Q; then the time *)
Definition label_of (o : orbit (T := option R)) (l : R) : list (string * option R) :=
  match o_stable o, o_apex o with
  | true, Some (p, e, x) => [("a", o_a o); ("p", p); ("e", e); ("x", x); ("lambda", Some l)]%string
  | _, _ => [("a", o_a o); ("E", o_E o); ("L", o_L o); ("Q", o_Q o); ("lambda", Some l)]%string
  end.

Section C98.
Context {X : External R}.
Context (o : orbit (T := option R)) (ip : option (option R * option R * option R * option R)).
Context (a l0 l1 el az speed : R) (tau : option R) (azp elp roll lim : option (R -> R)) (n s : nat).
Context (T1 T2 T3 T4 : @traj (option R)) (t r th ph : R -> R).
Notation lam := (sample_time l0 l1 n).
Notation P k := (cart (r (lam k)) (th (lam k)) (ph (lam k))).
Context (Ho : o_a o = Some a) (Ha : -1 <= a <= 1) (Hst : o_stable o = true -> o_apex o <> None).
Context (HT : Orbit_trajectory o (Some (used_phases o ip)) "natural" "natural" = Ret (T1, T2, T3, T4)).
Context (HV : forall k, (k < n)%nat -> T1 (Some (lam k)) = Ret (Some (t (lam k))) /\ T2 (Some (lam k)) = Ret (Some (r (lam k))) /\
  T3 (Some (lam k)) = Ret (Some (th (lam k))) /\ T4 (Some (lam k)) = Ret (Some (ph (lam k)))).
Context (Hn : (1 <= n)%nat) (Hd : INR n <= (l1 - l0) * 240 < INR n + 1) (Htau : tau_ok tau).
Context (Hs : (1 <= s)%nat) (Hsp : INR s <= speed * 8 < INR s + 1).

Lemma panels_run k : (k <= n)%nat -> exists ps, draw_panels T1 T2 T3 T4 (map (fun m => Some (lam m)) (seq 0 k)) = Ret ps /\ shows l0 l1 n k t r th ph ps.
Proof.
  intros Hk. unfold draw_panels.
  assert (V : forall i, In i (seq 0 k) -> (i < n)%nat) by (intros i Hi; apply in_seq in Hi; lia).
  rewrite (eval_array_run T1 lam (fun m => t (lam m))) by (intros i Hi; apply HV; auto).
  rewrite (eval_array_run T2 lam (fun m => r (lam m))) by (intros i Hi; apply HV; auto).
  rewrite (eval_array_run T3 lam (fun m => th (lam m))) by (intros i Hi; apply HV; auto).
  rewrite (eval_array_run T4 lam (fun m => ph (lam m))) by (intros i Hi; apply HV; auto).
  cbn [bind]. eexists. split; [reflexivity|]. unfold shows, curve. cbn [pn_time pn_t pn_r pn_theta pn_phi]. tauto.
Qed.

(** the panels first show the whole curves; in frame i they show samples 0 .. s i - 1 of t, r,
    theta, phi of the very trajectory whose point s i is the body of the 3d panel, and the label
    gives the parameters of the orbit and the Mino time of the body *)
Theorem C98_side_panels (tail : nat) :
  exists m full frames,
  animate_components o (Some l0) (Some l1) (Some el) (Some az) ip (option_map Some tau) (PyInt (Z.of_nat tail))
    (lift azp) (lift elp) (lift roll) (Some speed) (lift lim) = Ret (m, full, frames) /\
  animate o (Some l0) (Some l1) (Some el) (Some az) ip (option_map Some tau) (PyInt (Z.of_nat tail))
    (lift azp) (lift elp) (lift roll) (Some speed) (lift lim) = Ret m /\
  shows l0 l1 n n t r th ph full /\
  length frames = length (m_frames m) /\ length frames = (n / s)%nat /\
  forall i, (i < n / s)%nat -> exists f ps, nth_error (m_frames m) i = Some f /\ nth_error frames i = Some (ps, label_of o (lam (s * i))) /\
    shows l0 l1 n (s * i) t r th ph ps /\ fr_time f = Some (lam (s * i)) /\ fr_body f = some3 (P (s * i)%nat).
Proof.
  assert (HV' : forall k, (k < n)%nat -> T2 (Some (lam k)) = Ret (Some (r (lam k))) /\
    T3 (Some (lam k)) = Ret (Some (th (lam k))) /\ T4 (Some (lam k)) = Ret (Some (ph (lam k)))) by (intros k Hk; apply HV, Hk).
  destruct (C72_animate_frames o ip a l0 l1 el az speed tau azp elp roll lim n s T1 T2 T3 T4 r th ph Ho Ha HT HV' Hn Hd Htau Hs Hsp tail)
    as (m & AN & LN & FR & _).
  destruct (panels_run n (le_n n)) as (full & DF & SF).
  set (F := fun i => match draw_panels T1 T2 T3 T4 (map (fun k => Some (lam k)) (seq 0 (s * i))) with Ret ps => (ps, label_of o (lam (s * i))) | _ => (mkPanels [] [] [] [] [], []) end).
  exists m, full, (map F (seq 0 (n / s))).
  assert (INF : forall i, (i < n / s)%nat -> (s * i < n)%nat).
  { intros i H. assert (s * (n / s) <= n)%nat by (apply Nat.mul_div_le; lia). nia. }
  assert (DR : forall i, (i < n / s)%nat -> frame_panels o T1 T2 T3 T4 (map (fun k => Some (lam k)) (seq 0 n)) (Z.of_nat s) (Z.of_nat i) = Ret (F i)).
  { intros i Hi. specialize (INF i Hi). unfold frame_panels. cbv zeta.
    replace (frame_index (Z.of_nat s) (Z.of_nat i)) with (Z.of_nat (s * i)) by (unfold frame_index; lia).
    assert (NT : nth_error (map (fun k => Some (lam k)) (seq 0 n)) (s * i) = Some (Some (lam (s * i)))).
    { rewrite nth_error_map, (nth_error_nth' _ 0%nat) by (rewrite seq_length; lia). rewrite seq_nth by lia. reflexivity. }
    rewrite (get_run _ _ _ NT). cbn [bind]. rewrite slice_map.
    assert (SL : slice (seq 0 n) 0 (Z.of_nat (s * i)) = seq 0 (s * i)).
    { unfold slice. cbn [Z.to_nat skipn]. rewrite Z.sub_0_r, Nat2Z.id. apply firstn_seq. lia. }
    rewrite SL. unfold F. destruct (panels_run (s * i)) as (ps & -> & _); [lia|]. cbn [bind].
    unfold label, label_of. destruct (o_stable o); [|reflexivity]. destruct (o_apex o) as [[[p e] x]|]; [reflexivity|]. exfalso. now apply Hst. }
  refine (conj _ (conj AN (conj SF (conj _ (conj _ _))))).
  - unfold animate_components. change (nZ 240) with (Some 240). rewrite (time_grid_run l0 l1 240 n Hd). cbn [bind].
    assert (SP : ntrunc (Some speed * #8)%num = Ret (Z.of_nat s)).
    { change (Ret (Rtrunc (speed * 8)) = Ret (Z.of_nat s)). f_equal. apply trunc_eq, Hsp. }
    rewrite SP. cbn [bind]. rewrite map_length, seq_length.
    unfold num_frames. destruct (Z.eqb_spec (Z.of_nat s) 0); [lia|]. cbn [bind].
    assert (OT : Orbit_trajectory o ip "natural" "natural" = Ret (T1, T2, T3, T4)) by (rewrite <- HT; destruct ip; reflexivity).
    rewrite OT. cbn [bind]. rewrite DF. cbn [bind]. rewrite AN. cbn [bind].
    replace (Z.to_nat (Z.of_nat n ÷ Z.of_nat s)) with (n / s)%nat.
    2: { rewrite Z.quot_div_nonneg by lia. rewrite <- Nat2Z.inj_div, Nat2Z.id. reflexivity. }
    rewrite (all_frames_run _ F 0 (n / s)) by (intros i Hi; apply DR, Hi). reflexivity.
  - now rewrite map_length, seq_length, LN.
  - now rewrite map_length, seq_length.
  - intros i Hi. destruct (FR i Hi) as (f & NF & FO). destruct (panels_run (s * i)) as (ps & DP & SH); [specialize (INF i Hi); lia|].
    exists f, ps. unfold frame_ok in FO. cbv zeta in FO. destruct FO as (_ & Ft & Fb & _).
    refine (conj NF (conj _ (conj SH (conj Ft Fb)))).
    rewrite nth_error_map, (nth_error_nth' _ 0%nat) by (rewrite seq_length; lia). rewrite seq_nth by lia.
    cbn [option_map Nat.add]. unfold F. now rewrite DP.
Qed.
End C98.


Section Bound.
Context {X : External R} (HX : special_spec X) (HR : root_spec X).

(** for every bound orbit with finite frequencies, every interval of Mino time and every speed
    of at least 1/8 the panels are drawn; the label reports |a|, p, e and x with the sign of a *)
Theorem C98_bound_orbits a p e x ur uth uph gam qt qr qth qph M mu o l0 l1 el az speed tau azp elp roll lim (tail n s : nat) :
  mino_frequencies (Some a) (Some p) (Some e) (Some x) = Ret (Some ur, Some uth, Some uph, Some gam) ->
  StableOrbit_init (Some a) (Some p) (Some e) (Some x) (Some qt, Some qr, Some qth, Some qph) M mu = Ret o ->
  (1 <= n)%nat -> INR n <= (l1 - l0) * 240 < INR n + 1 -> (1 <= s)%nat -> INR s <= speed * 8 < INR s + 1 -> tau_ok tau ->
  exists t r th ph m full frames, runs_as (Orbit_trajectory o None "natural" "natural") t r th ph /\
  animate_components o (Some l0) (Some l1) (Some el) (Some az) None (option_map Some tau) (PyInt (Z.of_nat tail))
    (lift azp) (lift elp) (lift roll) (Some speed) (lift lim) = Ret (m, full, frames) /\
  shows l0 l1 n n t r th ph full /\ length frames = (n / s)%nat /\
  forall i, (i < n / s)%nat -> exists ps, shows l0 l1 n (s * i) t r th ph ps /\
    nth_error frames i = Some (ps, [("a", Some (Rabs a)); ("p", Some p); ("e", Some e); ("x", Some (x * spin_sign a));
      ("lambda", Some (sample_time l0 l1 n (s * i)))]%string).
Proof.
  intros HF HI Hn Hd Hs Hsp Ht.
  destruct (C66_stable_orbit HX HR a p e x qt qr qth qph M mu ur uth uph gam HF)
    as (o' & E & L & Q & r0 & theta & I & _ & A1 & A2 & _ & _ & _ & _ & _ & A0 & A3 & _).
  rewrite HI in I. apply Ret_inj in I. subst o'.
  destruct (bound_runs HX HR a p e x ur uth uph gam qt qr qth qph M mu o HF HI qt qr qth qph) as (t & r & th & ph & H & _ & _ & B & _).
  pose proof H as (T1 & T2 & T3 & T4 & HT & HV). pose proof (Rabs_pos a) as B0.
  destruct (C98_side_panels o None (Rabs a) l0 l1 el az speed tau azp elp roll lim n s T1 T2 T3 T4 t r th ph A1) with (tail := tail)
    as (m & full & frames & AN & _ & SF & _ & LN & FR); try assumption; [lra|congruence|unfold used_phases; rewrite A3; exact HT|intros k _; apply HV|].
  exists t, r, th, ph, m, full, frames. refine (conj _ (conj AN (conj SF (conj LN _)))).
  - replace (Orbit_trajectory o None "natural" "natural") with (Orbit_trajectory o (Some (Some qt, Some qr, Some qth, Some qph)) "natural" "natural"); [exact H|].
    rewrite <- A3. reflexivity.
  - intros i Hi. destruct (FR i Hi) as (f & ps & _ & K & S & _). exists ps. split; [exact S|]. rewrite K. unfold label_of. rewrite A0, A1, A2. reflexivity.
Qed.

(** the default arguments lambda0=0, lambda1=10, speed=1 on a retrograde inclined orbit *)
Example C98_case : exists o m full frames,
  StableOrbit_init (Some (1/2)) (Some 20) (Some (1/2)) (Some (-1/2)) (Some 0, Some 0, Some 0, Some 0) None None = Ret o /\
  animate_components o (Some 0) (Some 10) (Some 30) (Some (-60)) None (Some (Some 2)) (PyInt 5) None None None (Some 1) None = Ret (m, full, frames) /\
  length frames = 300%nat.
Proof.
  destruct (far_retrograde HX HR (1/2) 20 (1/2) (-1/2)) as (E & L & Q & ur & uth & uph & gam & HC & HF); try lra.
  destruct (C66_stable_orbit HX HR (1/2) 20 (1/2) (-1/2) 0 0 0 0 None None ur uth uph gam HF) as (o & E' & L' & Q' & rr & tt & I & _).
  assert (N : INR 2400 = 2400) by (rewrite INR_IZR_INZ; reflexivity).
  destruct (C98_bound_orbits (1/2) 20 (1/2) (-1/2) ur uth uph gam 0 0 0 0 None None o 0 10 30 (-60) 1 (Some 2) None None None None 5 2400 8 HF I)
    as (t & r & th & ph & m & full & frames & _ & AN & _ & LN & _); try lia.
  - rewrite N. lra.
  - replace (INR 8) with 8 by (cbn [INR]; lra). lra.
  - unfold tau_ok. lra.
  - exists o, m, full, frames. exact (conj I (conj AN LN)).
Qed.
End Bound.

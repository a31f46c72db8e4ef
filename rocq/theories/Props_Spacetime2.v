(** * C92: the methods of KerrSpacetime decide which orbits exist *)
From Coq Require Import Reals Lra Lia ZArith String List.
From Coquelicot Require Import Coquelicot.
From Verif Require Import Num Outcome External Checked ExternalSpec.
From Verif Require Import Model_Constants Model_Spacetime.
From Verif Require Import Spec P_Validation Props_Validation P_Bounds P_Constants Props_Constants Props_Separatrix.
Open Scope R_scope.

Section S.
Context {X : External R} (HR : root_spec X).

(** For a spin in [0,1), KerrSpacetime(a).separatrix(e, x) is the threshold in p for
    KerrSpacetime(a).is_stable(p, e, x), which says whether constants_of_motion(a, p, e, x) raises;
    and an orbit it accepts has its periapsis outside the outer_horizon attribute. *)
Theorem C92_spacetime_decides a e x : 0 <= a < 1 -> 0 <= e <= 1 -> -1 <= x <= 1 ->
  exists s h h', spacetime_separatrix (Some a) (Some e) (Some x) = Ret (Some s) /\
  outer_horizon (Some a) = Some h /\ inner_horizon (Some a) = Some h' /\ 0 <= h' < h /\ h + h' = 2 /\ h * h' = a^2 /\
  forall p, exists b, spacetime_is_stable (Some a) (Some p) (Some e) (Some x) = Ret b /\
  (b = true <-> s < p) /\
  (b = true <-> exists v, constants_of_motion (Some a) (Some p) (Some e) (Some x) = Ret v) /\
  (b = true -> h < p / (1 + e)).
Proof.
  intros Ha He Hx.
  assert (A2 : 0 <= a^2 < 1) by nra.
  assert (K : 0 < sqrt (1 - a^2)) by (apply sqrt_lt_R0; lra). assert (K2 : sqrt (1 - a^2) ^2 = 1 - a^2) by (apply pow2_sqrt; lra).
  destruct (separatrix_total HR a e x Ha He Hx) as (s & Es & _).
  assert (Es' : separatrix (Some a) (Some e) (Some x) = Ret (Some s)) by (rewrite separatrix_lift, Es; reflexivity).
  exists s, (1 + sqrt (1 - a^2)), (1 - sqrt (1 - a^2)).
  split; [exact Es'|].
  split. { unfold outer_horizon. cnum. rewrite csqrt_some by lra. reflexivity. }
  split. { unfold inner_horizon. cnum. rewrite csqrt_some by lra. reflexivity. }
  split; [nra|]. split; [ring|]. split; [nra|].
  intros p. exists (if Rlt_dec s p then true else false).
  assert (ST : is_stable (Some a) (Some p) (Some e) (Some x) = Ret (if Rlt_dec s p then true else false)).
  { destruct (C22_is_stable_above_separatrix HR a e x Ha He Hx) as (s' & E1 & E2). rewrite Es' in E1. assert (s' = s) as -> by congruence. apply E2. }
  split; [exact ST|].
  assert (S1 : spin_sign a = 1) by (unfold spin_sign; destruct (Rlt_dec a 0); lra).
  destruct (C08_constants_validation HR) as (_ & _ & _ & V). destruct (V a p e x) as (_ & _ & V3).
  rewrite Rabs_pos_eq, S1, Rmult_1_r in V3 by lra. destruct (V3 ltac:(lra) He ltac:(apply Rabs_le; lra)) as (s' & E1 & V4 & V5).
  rewrite Es' in E1. assert (s' = s) as -> by congruence.
  destruct (Rlt_dec s p) as [C|C].
  - split; [split; auto|]. split; [split; auto|]. intros _.
    assert (CK : check_constants_params a p e x = Ret tt).
    { destruct (check_constants_cases a p e x ltac:(lra)) as [_ [_ H]]. rewrite (H s ltac:(lra) Es). destruct (Rlt_dec s p); [reflexivity | lra]. }
    destruct (accepted_bounds HR a p e x ltac:(lra) CK) as (_ & _ & _ & Q1 & QD & _).
    unfold Delta in QD. set (q := p / (1 + e)) in *. clearbody q.
    apply Rnot_le_lt. intros N. assert ((q - 1)^2 <= sqrt (1 - a^2) ^2) by (apply pow_incr; lra). nra.
  - split; [split; [discriminate | intros; lra]|]. split; [|discriminate]. split; [discriminate|]. intros (v & HV). rewrite (V4 ltac:(lra)) in HV. discriminate HV.
Qed.

(** For a negative spin, which constants_of_motion accepts, both methods raise. *)
Theorem C92_negative_spin_raises a p e x : -1 < a < 0 -> 
  spacetime_separatrix (Some a) (Some e) (Some x) = Raise (ValueError msg_range) /\
  spacetime_is_stable (Some a) (Some p) (Some e) (Some x) = Raise (ValueError msg_range).
Proof.
  intros Ha. assert (H : separatrix (Some a) (Some e) (Some x) = Raise (ValueError msg_range)).
  { rewrite C19_separatrix_rejects by lra. destruct (Req_EM_T a 1); [lra | reflexivity]. }
  split; [exact H|]. unfold spacetime_is_stable, is_stable. rewrite H. reflexivity.
Qed.

Example C92_case : exists s, spacetime_separatrix (Some 0) (Some (1/2)) (Some 1) = Ret (Some s) /\ s = 7 /\
  spacetime_is_stable (Some 0) (Some 8) (Some (1/2)) (Some 1) = Ret true /\ spacetime_is_stable (Some 0) (Some 7) (Some (1/2)) (Some 1) = Ret false.
Proof.
  destruct (C92_spacetime_decides 0 (1/2) 1) as (s & h & h' & E1 & _ & _ & _ & _ & _ & K); try lra.
  destruct (C18_schwarzschild_separatrix (1/2) 1 8) as (E2 & _); try lra. assert (s = 7).
  { unfold spacetime_separatrix in E1. rewrite E2 in E1. apply Ret_inj in E1. assert (6 + 2 * (1/2) = s) by congruence. lra. }
  exists s. split; [exact E1|]. split; [assumption|]. split.
  - destruct (K 8) as (b & -> & H1 & _). destruct b; [reflexivity|]. assert (false = true) by (apply H1; lra). discriminate.
  - destruct (K 7) as (b & -> & H1 & _). destruct b; [|reflexivity]. assert (s < 7) by now apply H1. lra.
Qed.
End S.

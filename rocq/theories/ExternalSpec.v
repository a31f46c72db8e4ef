(** * Specification of the numerical libraries (exact-arithmetic idealisation)

    [root_spec]: scipy.optimize.root_scalar(f, bracket=[lo,hi]) (brentq).  Without a
    sign change it raises ValueError("f(a) and f(b) must have different signs");
    with one, and a continuous f, it returns SOME zero inside the bracket (which
    one is not specified).  Simplification: the zero is exact.

    [polyroots_spec]: numpy.polynomial.Polynomial(cs).roots() trims trailing zero
    coefficients and returns all complex roots with multiplicity, sorted
    lexicographically by (real, imaginary) part (numpy/polynomial/polynomial.py,
    polyroots).  Simplification: the roots are exact. *)

From Coq Require Import Reals Lra Lia ZArith String List Sorting.Sorted Sorting.Permutation
  ClassicalEpsilon FunctionalExtensionality.
From Coquelicot Require Import Coquelicot.
From Verif Require Import Num Outcome External Checked.
Import ListNotations.
Open Scope R_scope.

Definition msg_bracket : string := "f(a) and f(b) must have different signs".

Definition root_spec (X : External R) : Prop :=
  forall (f : R -> R) (lo hi : R),
    (f lo * f hi > 0 -> root_scalar f lo hi = Raise (ValueError msg_bracket)) /\
    (f lo * f hi <= 0 -> continuity f ->
     exists r, root_scalar f lo hi = Ret r /\ f r = 0 /\ Rmin lo hi <= r <= Rmax lo hi).

(** coefficients (lowest first) of (X - rho) * p *)
Fixpoint lin_aux (rho prev : C) (p : list C) : list C :=
  match p with
  | [] => [prev]
  | c :: p' => (prev - rho * c)%C :: lin_aux rho c p'
  end.
Definition lin (rho : C) (p : list C) : list C := lin_aux rho 0%C p.
(** coefficients of prod (X - rho_i) *)
Definition expand (rs : list C) : list C := fold_right lin [RtoC 1] rs.
(** [rs] are the roots, with multiplicity, of the polynomial with coefficients [cs] *)
Definition roots_of (cs : list R) (rs : list C) : Prop :=
  exists (lead : R) (k : nat), lead <> 0 /\
    map RtoC cs = map (Cmult (RtoC lead)) (expand rs) ++ repeat (RtoC 0) k.
Definition clex (x y : C) : Prop := fst x < fst y \/ (fst x = fst y /\ snd x <= snd y).
Definition sorted_roots (cs : list R) (rs : list C) : Prop :=
  roots_of cs rs /\ StronglySorted clex rs.
Definition polyroots_spec (X : External R) : Prop :=
  forall cs rs, sorted_roots cs rs -> polyroots cs = rs.

(** ** uniqueness of the sorted root list *)
Fixpoint ceval (p : list C) (z : C) : C :=
  match p with [] => 0%C | c :: p' => (c + z * ceval p' z)%C end.
Lemma ceval_lin_aux rho prev p z :
  ceval (lin_aux rho prev p) z = (prev + (z - rho) * ceval p z)%C.
Proof.
  revert prev. induction p as [|c p IH]; intros prev; simpl.
  - ring.
  - rewrite IH. ring.
Qed.
Lemma ceval_lin rho p z : ceval (lin rho p) z = ((z - rho) * ceval p z)%C.
Proof. unfold lin. rewrite ceval_lin_aux. ring. Qed.

Lemma cons_inj {A} (x y : A) l m : x :: l = y :: m -> x = y /\ l = m.
Proof. intros H. split; [exact (f_equal (hd x) H) | exact (f_equal (@tl A) H)]. Qed.

Lemma lin_aux_inj rho prev prev' p q :
  lin_aux rho prev p = lin_aux rho prev' q -> length p = length q -> prev = prev' /\ p = q.
Proof.
  revert prev prev' q. induction p as [|c p IH]; intros prev prev' [|d q] H Hl; simpl in *; try discriminate.
  - apply cons_inj in H. tauto.
  - apply cons_inj in H. destruct H as [H2 H1]. apply IH in H1; [|lia]. destruct H1 as [<- <-].
    split; [|reflexivity].
    assert (E : (prev - rho * c + rho * c = prev' - rho * c + rho * c)%C) by now rewrite H2.
    replace (prev - rho * c + rho * c)%C with prev in E by ring.
    now replace (prev' - rho * c + rho * c)%C with prev' in E by ring.
Qed.
Lemma length_lin_aux rho prev p : length (lin_aux rho prev p) = S (length p).
Proof. revert prev; induction p; intros; simpl; auto. Qed.
Lemma length_expand rs : length (expand rs) = S (length rs).
Proof. induction rs; simpl; auto. unfold lin. now rewrite length_lin_aux, IHrs. Qed.
Lemma lin_inj rho p q : lin rho p = lin rho q -> p = q.
Proof.
  intros H. eapply lin_aux_inj; [exact H|].
  apply (f_equal (@length C)) in H. unfold lin in H. rewrite !length_lin_aux in H. lia.
Qed.
Lemma lin_aux_comm r s u v p :
  lin_aux r (u - s * v)%C (lin_aux s v p) = lin_aux s (u - r * v)%C (lin_aux r v p).
Proof.
  revert u v. induction p as [|c p IH]; intros u v; simpl.
  - f_equal; ring.
  - rewrite IH. f_equal; ring.
Qed.
Lemma lin_comm r s p : lin r (lin s p) = lin s (lin r p).
Proof.
  unfold lin. destruct p as [|c p]; simpl.
  - f_equal; ring.
  - f_equal; [ring|]. apply lin_aux_comm.
Qed.
Lemma expand_perm rs rs' : Permutation rs rs' -> expand rs = expand rs'.
Proof.
  induction 1; simpl; auto.
  - now f_equal.
  - apply lin_comm.
  - congruence.
Qed.
Lemma ceval_expand_root rho rs : ceval (expand rs) rho = 0%C -> In rho rs.
Proof.
  induction rs as [|s rs IH]; simpl.
  - intros H. exfalso. injection H. intros. lra.
  - rewrite ceval_lin. intros H. destruct (Ceq_dec s rho) as [E|E]; [now left|].
    right. apply IH. destruct (Ceq_dec (ceval (expand rs) rho) 0) as [|N]; [assumption|].
    exfalso. apply (Cmult_neq_0 (rho - s)%C (ceval (expand rs) rho)); auto.
    intros H0. apply E.
    assert (E' : (rho - s + s = 0 + s)%C) by now rewrite H0.
    replace (rho - s + s)%C with rho in E' by ring.
    replace (0 + s)%C with s in E' by ring. congruence.
Qed.
Lemma expand_unique rs rs' : expand rs = expand rs' -> Permutation rs rs'.
Proof.
  revert rs'. induction rs as [|r rs IH]; intros rs' H.
  - apply (f_equal (@length C)) in H. rewrite !length_expand in H. simpl in H.
    destruct rs'; [constructor | simpl in H; lia].
  - assert (Hin : In r rs').
    { apply ceval_expand_root. rewrite <- H. simpl. rewrite ceval_lin. ring. }
    apply in_split in Hin. destruct Hin as [l1 [l2 ->]].
    apply Permutation_cons_app. apply IH. apply lin_inj with r.
    change (lin r (expand rs)) with (expand (r :: rs)). rewrite H.
    change (lin r (expand (l1 ++ l2))) with (expand (r :: l1 ++ l2)).
    apply expand_perm. symmetry. apply Permutation_middle.
Qed.
Lemma clex_antisym x y : clex x y -> clex y x -> x = y.
Proof.
  destruct x as [x1 x2], y as [y1 y2]. unfold clex; simpl. intros [H|[H H']] [K|[K K']]; try lra.
  f_equal; lra.
Qed.
Lemma sorted_perm_eq rs rs' :
  StronglySorted clex rs -> StronglySorted clex rs' -> Permutation rs rs' -> rs = rs'.
Proof.
  revert rs'. induction rs as [|r rs IH]; intros rs' H1 H2 HP.
  - apply Permutation_nil in HP. now subst.
  - destruct rs' as [|s rs']; [symmetry in HP; apply Permutation_nil in HP; discriminate|].
    assert (E : r = s).
    { inversion H1 as [|? ? _ F1]; subst. inversion H2 as [|? ? _ F2]; subst.
      assert (I1 : In r (s :: rs')) by (eapply Permutation_in; [exact HP | now left]).
      assert (I2 : In s (r :: rs)) by (eapply Permutation_in; [symmetry; exact HP | now left]).
      rewrite Forall_forall in F1, F2.
      destruct I1 as [->|I1]; [reflexivity|]. destruct I2 as [->|I2]; [reflexivity|].
      apply clex_antisym; auto. }
    subst s. f_equal. inversion H1; subst. inversion H2; subst. apply IH; auto.
    now apply Permutation_cons_inv in HP.
Qed.

Lemma last_expand rs : exists l, expand rs = l ++ [RtoC 1].
Proof.
  induction rs as [|r rs [l IH]]; simpl.
  - now exists [].
  - unfold lin. rewrite IH. generalize (RtoC 0). clear IH.
    induction l as [|c l IHl]; intros prev; simpl.
    + eexists [_]. reflexivity.
    + destruct (IHl c) as [l' ->]. now exists ((prev - r * c)%C :: l').
Qed.

Lemma trailing_zeros_unique (l l' : list C) (x x' : C) k k' :
  x <> 0%C -> x' <> 0%C ->
  (l ++ [x]) ++ repeat (RtoC 0) k = (l' ++ [x']) ++ repeat (RtoC 0) k' -> l ++ [x] = l' ++ [x'].
Proof.
  intros Hx Hx' H. apply (f_equal (@rev C)) in H.
  rewrite !rev_app_distr in H. simpl in H.
  assert (Hr : forall n, rev (repeat (RtoC 0) n) = repeat (RtoC 0) n).
  { intros n. induction n; simpl; auto. rewrite IHn. clear. induction n; simpl; auto. now f_equal. }
  rewrite !Hr in H.
  assert (G : x :: rev l = x' :: rev l').
  { clear Hr. revert k' H. induction k as [|k IH]; intros [|k'] H; simpl in *; auto.
    - apply cons_inj in H. destruct H. contradiction.
    - apply cons_inj in H. destruct H. exfalso. apply Hx'. congruence.
    - apply IH with k'. now apply cons_inj in H. }
  apply (f_equal (@rev C)) in G. simpl in G. now rewrite !rev_involutive in G.
Qed.

Lemma Cmult_inj (l : R) x y : l <> 0 -> (RtoC l * x = RtoC l * y)%C -> x = y.
Proof.
  intros Hl H. destruct x as [a b], y as [c d]. unfold Cmult in H. simpl in H.
  injection H. intros H1 H2. f_equal; apply Rmult_eq_reg_l with l; auto; lra.
Qed.
Lemma map_Cmult_inj (l : R) p q :
  l <> 0 -> map (Cmult (RtoC l)) p = map (Cmult (RtoC l)) q -> p = q.
Proof.
  intros Hl. revert q. induction p as [|x p IH]; intros [|y q] H; simpl in H; try discriminate; auto.
  apply cons_inj in H. destruct H as [H2 H1]. f_equal; [now apply (Cmult_inj l) | auto].
Qed.

Theorem sorted_roots_unique cs rs rs' : sorted_roots cs rs -> sorted_roots cs rs' -> rs = rs'.
Proof.
  intros [[l [k [Hl H]]] HS] [[l' [k' [Hl' H']]] HS'].
  destruct (last_expand rs) as [p Hp]. destruct (last_expand rs') as [p' Hp'].
  assert (E : map (Cmult (RtoC l)) (expand rs) = map (Cmult (RtoC l')) (expand rs')).
  { rewrite H in H'. rewrite Hp, Hp' in H'. rewrite !map_app in H'. simpl map in H'.
    rewrite Hp, Hp', !map_app. simpl map.
    eapply trailing_zeros_unique; [| | exact H'].
    - intros K. apply Hl. unfold Cmult, RtoC in K. simpl in K. injection K. intros. lra.
    - intros K. apply Hl'. unfold Cmult, RtoC in K. simpl in K. injection K. intros. lra. }
  assert (l = l').
  { rewrite Hp, Hp', !map_app in E. simpl in E. apply app_inj_tail in E. destruct E as [_ E].
    unfold Cmult, RtoC in E. simpl in E. injection E. intros. lra. }
  subst l'. apply map_Cmult_inj in E; [|assumption].
  apply sorted_perm_eq; auto. now apply expand_unique.
Qed.

(** ** the specifications are satisfiable *)
Definition choice_root (f : R -> R) (lo hi : R) : outcome R :=
  if Rlt_dec 0 (f lo * f hi) then Raise (ValueError msg_bracket)
  else Ret (epsilon (inhabits 0) (fun r => f r = 0 /\ Rmin lo hi <= r <= Rmax lo hi)).
Definition choice_polyroots (cs : list R) : list (R * R) :=
  epsilon (inhabits []) (fun rs => sorted_roots cs rs).

Lemma ivt_any f lo hi : continuity f -> f lo * f hi <= 0 ->
  exists r, f r = 0 /\ Rmin lo hi <= r <= Rmax lo hi.
Proof.
  intros Hc H.
  destruct (Rle_lt_dec lo hi) as [Hle|Hlt].
  - rewrite Rmin_left, Rmax_right by assumption.
    destruct (IVT_cor f lo hi Hc Hle H) as [z [Hz Hz']]. exists z. auto.
  - rewrite Rmin_right, Rmax_left by lra.
    destruct (IVT_cor f hi lo Hc) as [z [Hz Hz']]; try lra. exists z. auto.
Qed.

(** any oracle can be completed to one satisfying both specifications *)
Definition with_choice (X : External R) : External R := {|
  ellipk := @ellipk R X; ellipe := @ellipe R X; ellipkinc := @ellipkinc R X;
  ellipeinc := @ellipeinc R X; ellipj := @ellipj R X; elliprf := @elliprf R X;
  elliprd := @elliprd R X; elliprj := @elliprj R X;
  root_scalar := choice_root; polyroots := choice_polyroots |}.

Lemma root_spec_satisfiable X : root_spec (with_choice X).
Proof.
  intros f lo hi. simpl. unfold choice_root. split.
  - intros H. destruct (Rlt_dec 0 (f lo * f hi)); [reflexivity | lra].
  - intros H Hc. destruct (Rlt_dec 0 (f lo * f hi)) as [K|K]; [lra|].
    eexists. split; [reflexivity|]. apply epsilon_spec. now apply ivt_any.
Qed.
Lemma polyroots_spec_satisfiable X : polyroots_spec (with_choice X).
Proof.
  intros cs rs H. simpl. unfold choice_polyroots.
  eapply sorted_roots_unique; [|exact H]. apply epsilon_spec. now exists rs.
Qed.

(** ** lifting the oracles to checked reals

    Outside the domain of the special functions the result is undefined:
    ellipk needs m < 1 (m = 1 gives inf), ellipkinc m < 1 or m = 1 and |phi| < pi/2, ellipe/ellipeinc m <= 1, ellipj
    0 <= m <= 1, Carlson functions non-negative arguments with at most one zero
    (elliprd: third argument positive, elliprj: fourth argument non-zero). *)
Definition rf_dom (x y z : R) : bool :=
  (Rleb 0 x && Rleb 0 y && Rleb 0 z && Rltb 0 (x + y) && Rltb 0 (y + z) && Rltb 0 (x + z))%bool.
Definition guard {A} (b : bool) (x : A) : option A := if b then Some x else None.

Definition total_on (f : option R -> option R) (g : R -> R) : Prop :=
  forall r, f (Some r) = Some (g r).
Definition checked_root (X : External R) (f : option R -> option R) (lo hi : option R)
  : outcome (option R) :=
  match lo, hi with
  | Some l, Some h =>
      if excluded_middle_informative (exists g, total_on f g) then
        match @root_scalar R X (fun r => match f (Some r) with Some v => v | None => 0 end) l h with
        | Ret r => Ret (Some r)
        | Raise e => Raise e
        | Undef => Undef
        end
      else Undef
  | _, _ => Undef
  end.
Fixpoint all_some {A} (l : list (option A)) : option (list A) :=
  match l with
  | [] => Some []
  | Some x :: l' => match all_some l' with Some xs => Some (x :: xs) | None => None end
  | None :: _ => None
  end.
Definition checked_polyroots (X : External R) (cs : list (option R)) : list (option R * option R) :=
  match all_some cs with
  | Some xs => map (fun z => (Some (fst z), Some (snd z))) (@polyroots R X xs)
  | None => [(None, None)]
  end.

#[global] Instance checked (X : External R) : External (option R) := {|
  ellipk m := match m with Some m => guard (Rltb m 1) (ellipk m) | None => None end;
  ellipe m := match m with Some m => guard (Rleb m 1) (ellipe m) | None => None end;
  ellipkinc p m := match p, m with
                   | Some p, Some m => guard (Rltb m 1 || (Reqb m 1 && Rltb (Rabs p) (PI / 2)))%bool (ellipkinc p m) | _, _ => None end;
  ellipeinc p m := match p, m with
                   | Some p, Some m => guard (Rleb m 1) (ellipeinc p m) | _, _ => None end;
  ellipj u m := match u, m with
                | Some u, Some m =>
                    if (Rleb 0 m && Rleb m 1)%bool then
                      let '(sn, cn, dn, ph) := ellipj u m in
                      (Some sn, Some cn, Some dn, Some ph)
                    else (None, None, None, None)
                | _, _ => (None, None, None, None) end;
  elliprf x y z := match x, y, z with
                   | Some x, Some y, Some z => guard (rf_dom x y z) (elliprf x y z)
                   | _, _, _ => None end;
  elliprd x y z := match x, y, z with
                   | Some x, Some y, Some z =>
                       guard (Rleb 0 x && Rleb 0 y && Rltb 0 z && Rltb 0 (x + y))%bool (elliprd x y z)
                   | _, _, _ => None end;
  elliprj x y z p := match x, y, z, p with
                     | Some x, Some y, Some z, Some p =>
                         guard (rf_dom x y z && negb (Reqb p 0))%bool (elliprj x y z p)
                     | _, _, _, _ => None end;
  root_scalar := checked_root X;
  polyroots := checked_polyroots X |}.

Lemma checked_root_total X f g l h :
  total_on f g ->
  checked_root X f (Some l) (Some h) =
  match @root_scalar R X g l h with
  | Ret r => Ret (Some r) | Raise e => Raise e | Undef => Undef end.
Proof.
  intros H. unfold checked_root.
  destruct (excluded_middle_informative _) as [_|N].
  - replace (fun r => match f (Some r) with Some v => v | None => 0 end) with g; [reflexivity|].
    apply functional_extensionality. intros r. now rewrite H.
  - exfalso. apply N. now exists g.
Qed.

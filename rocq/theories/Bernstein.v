(** * A reflective test for non-negativity of polynomials on the unit box

    Not a model of any code.  A polynomial in n variables with integer
    coefficients is a nested list; if all its Bernstein coefficients are
    non-negative it is non-negative on [0,1]^n. *)
From Coq Require Import Reals Lra Lia ZArith List Bool.
Import ListNotations.
Open Scope R_scope.

Fixpoint mp (n : nat) : Type := match n with O => Z | S n => list (mp n) end.
Fixpoint ev (n : nat) : mp n -> list R -> R :=
  match n with
  | O => fun z _ => IZR z
  | S n => fun cs xs =>
      (fix horner (cs : list (mp n)) : R :=
         match cs with
         | [] => 0
         | c :: cs => ev n c (tl xs) + hd 0 xs * horner cs
         end) cs
  end.
Fixpoint madd (n : nat) : mp n -> mp n -> mp n :=
  match n with
  | O => Z.add
  | S n =>
      fix zip (a b : list (mp n)) : list (mp n) :=
        match a, b with
        | [], b => b
        | a, [] => a
        | x :: a, y :: b => madd n x y :: zip a b
        end
  end.
Definition mzero (n : nat) : mp n := match n with O => 0%Z | S _ => [] end.

Lemma ev_madd n p q xs : ev n (madd n p q) xs = ev n p xs + ev n q xs.
Proof.
  revert p q xs. induction n as [|n IH]; intros p q xs.
  - simpl. apply plus_IZR.
  - revert q. induction p as [|c p IHp]; intros q.
    + simpl. lra.
    + destruct q as [|d q].
      * simpl. lra.
      * change (madd (S n) (c :: p) (d :: q)) with (madd n c d :: madd (S n) p q).
        change (ev n (madd n c d) (tl xs) + hd 0 xs * ev (S n) (madd (S n) p q) xs
          = (ev n c (tl xs) + hd 0 xs * ev (S n) p xs)
            + (ev n d (tl xs) + hd 0 xs * ev (S n) q xs)).
        rewrite IH, IHp. ring.
Qed.
Lemma ev_mzero n xs : ev n (mzero n) xs = 0.
Proof. destruct n; reflexivity. Qed.

Section B.
Context (n : nat).
(** homogeneous evaluation: sum_j l_j u^j v^(len-1-j) *)
Fixpoint evb (l : list (mp n)) (xs : list R) (u v : R) : R :=
  match l with
  | [] => 0
  | c :: l => ev n c xs * v ^ length l + u * evb l xs u v
  end.
Fixpoint mul1t_aux (prev : mp n) (l : list (mp n)) : list (mp n) :=
  match l with
  | [] => [prev]
  | c :: l => madd n prev c :: mul1t_aux c l
  end.
Fixpoint zipadd (a b : list (mp n)) : list (mp n) :=
  match a, b with
  | x :: a, y :: b => madd n x y :: zipadd a b
  | _, _ => []
  end.
Fixpoint expo (m : nat) (c : mp n) : list (mp n) :=
  match m with O => [c] | S m => mul1t_aux (mzero n) (expo m c) end.
Fixpoint tobern (l : list (mp n)) : list (mp n) :=
  match l with
  | [] => []
  | c :: l => zipadd (expo (length l) c) (mzero n :: tobern l)
  end.

Lemma len_mul1t p l : length (mul1t_aux p l) = S (length l).
Proof. revert p; induction l; intros; simpl; auto. Qed.
Lemma len_expo m c : length (expo m c) = S m.
Proof. induction m; simpl; auto. rewrite len_mul1t. auto. Qed.
Lemma len_zipadd a b : length a = length b -> length (zipadd a b) = length a.
Proof. revert b; induction a; intros [|y b] H; simpl in *; auto; try discriminate. Qed.
Lemma len_tobern l : length (tobern l) = length l.
Proof.
  induction l as [|c l IH]; simpl; auto.
  rewrite len_zipadd; rewrite len_expo; auto. simpl. auto.
Qed.
Lemma evb_mul1t p l xs u v :
  evb (mul1t_aux p l) xs u v = ev n p xs * v ^ length l + (u + v) * evb l xs u v.
Proof.
  revert p; induction l as [|c l IH]; intros p; simpl.
  - ring.
  - rewrite IH, ev_madd, len_mul1t. simpl. ring.
Qed.
Lemma evb_expo m c xs u v : evb (expo m c) xs u v = ev n c xs * (u + v) ^ m.
Proof.
  induction m; simpl.
  - ring.
  - rewrite evb_mul1t, IHm, ev_mzero. ring.
Qed.
Lemma evb_zipadd a b xs u v : length a = length b ->
  evb (zipadd a b) xs u v = evb a xs u v + evb b xs u v.
Proof.
  revert b; induction a as [|x a IH]; intros [|y b] H; simpl in *; try discriminate.
  - ring.
  - rewrite IH, ev_madd, len_zipadd by lia. replace (length b) with (length a) by lia. ring.
Qed.
Lemma evb_tobern l xs u v : u + v = 1 -> evb (tobern l) xs u v = ev (S n) l (u :: xs).
Proof.
  intros H. induction l as [|c l IH]; [reflexivity|].
  change (tobern (c :: l)) with (zipadd (expo (length l) c) (mzero n :: tobern l)).
  rewrite evb_zipadd by (rewrite len_expo; simpl; now rewrite len_tobern).
  rewrite evb_expo, H. simpl evb. rewrite IH, ev_mzero, pow1.
  change (ev (S n) (c :: l) (u :: xs)) with (ev n c xs + u * ev (S n) l (u :: xs)). ring.
Qed.
Lemma evb_nonneg l xs u v : 0 <= u -> 0 <= v -> (forall c, In c l -> 0 <= ev n c xs) ->
  0 <= evb l xs u v.
Proof.
  intros Hu Hv. induction l as [|c l IH]; intros H; simpl.
  - lra.
  - assert (0 <= ev n c xs) by (apply H; now left).
    assert (0 <= evb l xs u v) by (apply IH; intros; apply H; now right).
    apply Rplus_le_le_0_compat; apply Rmult_le_pos; auto. now apply pow_le.
Qed.
End B.

Fixpoint chk (n : nat) : mp n -> bool :=
  match n with
  | O => fun z => Z.leb 0 z
  | S n => fun l => forallb (chk n) (tobern n l)
  end.

Theorem chk_sound n (p : mp n) (xs : list R) :
  chk n p = true -> length xs = n -> List.Forall (fun x => 0 <= x <= 1) xs -> 0 <= ev n p xs.
Proof.
  revert p xs. induction n as [|n IH]; intros p xs Hc Hl Hx.
  - simpl in *. apply Z.leb_le in Hc. now apply IZR_le.
  - destruct xs as [|x xs]; [discriminate|]. inversion Hx as [|? ? Hx1 Hx2]; subst.
    rewrite <- (evb_tobern n p xs x (1 - x)) by ring.
    apply evb_nonneg; try lra. intros c Hin.
    simpl in Hc. rewrite forallb_forall in Hc. apply IH; auto.
Qed.

(** forms with separate arguments *)
Lemma chk2 (p : mp 2) x y : chk 2 p = true -> 0 <= x <= 1 -> 0 <= y <= 1 -> 0 <= ev 2 p [x; y].
Proof. intros. apply chk_sound; auto. Qed.
Lemma chk1 (p : mp 1) x : chk 1 p = true -> 0 <= x <= 1 -> 0 <= ev 1 p [x].
Proof. intros. apply chk_sound; auto. Qed.
Lemma chk3 (p : mp 3) x y z : chk 3 p = true ->
  0 <= x <= 1 -> 0 <= y <= 1 -> 0 <= z <= 1 -> 0 <= ev 3 p [x; y; z].
Proof. intros. apply chk_sound; auto. Qed.
Lemma chk4 (p : mp 4) x y z w : chk 4 p = true ->
  0 <= x <= 1 -> 0 <= y <= 1 -> 0 <= z <= 1 -> 0 <= w <= 1 -> 0 <= ev 4 p [x; y; z; w].
Proof. intros. apply chk_sound; auto. Qed.

Ltac evsimp := cbv [ev hd tl].

(** * Evaluating the model on checked reals *)

From Coq Require Import Reals Lra ZArith.
From Verif Require Import Num Outcome.
Open Scope R_scope.

Lemma cdiv_some a b : b <> 0 -> cdiv (Some a) (Some b) = Some (a / b).
Proof. intros H. unfold cdiv. destruct (Req_EM_T b 0); [contradiction | reflexivity]. Qed.
Lemma csqrt_some a : 0 <= a -> csqrt (Some a) = Some (sqrt a).
Proof. intros H. unfold csqrt. destruct (Rle_dec 0 a); [reflexivity | contradiction]. Qed.

Lemma Reqb_true x y : x = y -> Reqb x y = true.
Proof. intros ->. unfold Reqb. destruct (Req_EM_T y y); congruence. Qed.
Lemma Reqb_false x y : x <> y -> Reqb x y = false.
Proof. unfold Reqb. destruct (Req_EM_T x y); congruence. Qed.
Lemma Rltb_true x y : x < y -> Rltb x y = true.
Proof. unfold Rltb. destruct (Rlt_dec x y); [auto | contradiction]. Qed.
Lemma Rltb_false x y : y <= x -> Rltb x y = false.
Proof. unfold Rltb. destruct (Rlt_dec x y); [lra | auto]. Qed.
Lemma Rleb_true x y : x <= y -> Rleb x y = true.
Proof. unfold Rleb. destruct (Rle_dec x y); [auto | contradiction]. Qed.
Lemma Rleb_false x y : y < x -> Rleb x y = false.
Proof. unfold Rleb. destruct (Rle_dec x y); [lra | auto]. Qed.

Lemma Reqb_spec x y : Bool.reflect (x = y) (Reqb x y).
Proof. unfold Reqb. destruct (Req_EM_T x y); constructor; auto. Qed.
Lemma Rltb_spec x y : Bool.reflect (x < y) (Rltb x y).
Proof. unfold Rltb. destruct (Rlt_dec x y); constructor; auto. Qed.
Lemma Rleb_spec x y : Bool.reflect (x <= y) (Rleb x y).
Proof. unfold Rleb. destruct (Rle_dec x y); constructor; auto. Qed.

Lemma Rsgn_pos x : 0 < x -> Rsgn x = 1.
Proof. unfold Rsgn. destruct (Rlt_dec 0 x); lra. Qed.
Lemma Rsgn_neg x : x < 0 -> Rsgn x = -1.
Proof. unfold Rsgn. destruct (Rlt_dec 0 x); [lra|]. destruct (Rlt_dec x 0); lra. Qed.
Lemma Rsgn_0 : Rsgn 0 = 0.
Proof. unfold Rsgn. destruct (Rlt_dec 0 0); [lra|]. destruct (Rlt_dec 0 0); lra. Qed.
Lemma Rcopysign1_sq x : Rcopysign1 x * Rcopysign1 x = 1.
Proof. unfold Rcopysign1. destruct (Rlt_dec x 0); ring. Qed.
Lemma Rcopysign1_cases x : Rcopysign1 x = 1 /\ 0 <= x \/ Rcopysign1 x = -1 /\ x < 0.
Proof. unfold Rcopysign1. destruct (Rlt_dec x 0); [right | left]; split; lra. Qed.

(** reduce the arithmetic interface at the real / checked instances *)
Ltac rnum :=
  cbv beta iota zeta delta
    [nZ nQ nadd nsub nmul ndiv nopp npow nabs nsqrt nsign ncopysign1 nsin ncos nasin
     nacos natan natan2 nlog nexp nfloor npi nundef neqb nltb nleb RNum nsq].
Ltac rnum_in H :=
  cbv beta iota zeta delta
    [nZ nQ nadd nsub nmul ndiv nopp npow nabs nsqrt nsign ncopysign1 nsin ncos nasin
     nacos natan natan2 nlog nexp nfloor npi nundef neqb nltb nleb RNum nsq] in H.
Ltac cnum :=
  cbv beta iota zeta delta
    [nZ nQ nadd nsub nmul ndiv nopp npow nabs nsqrt nsign ncopysign1 nsin ncos nasin
     nacos natan natan2 nlog nexp nfloor npi nundef neqb nltb nleb CNum c1 c2 nsq].
Ltac cnum_in H :=
  cbv beta iota zeta delta
    [nZ nQ nadd nsub nmul ndiv nopp npow nabs nsqrt nsign ncopysign1 nsin ncos nasin
     nacos natan natan2 nlog nexp nfloor npi nundef neqb nltb nleb CNum c1 c2 nsq] in H.

(** close [X <> 0] from a hypothesis [Y <> 0] with X = Y by ring *)
Ltac nz :=
  repeat match goal with
  | |- _ /\ _ => split
  end;
  try assumption;
  try match goal with
  | H : ?Y <> 0 |- ?X <> 0 => replace X with Y by ring; exact H
  end; try lra.

Lemma sin_sq theta : (sin theta ^ 2 = 1 - cos theta ^ 2)%R.
Proof. pose proof (sin2_cos2 theta) as H. unfold Rsqr in H. simpl. lra. Qed.
Lemma one_minus_cos_sq theta : (1 - cos theta ^ 2 = sin theta ^ 2)%R.
Proof. now rewrite sin_sq. Qed.

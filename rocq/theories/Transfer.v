(** * Checked runs approximate exact runs

    If the checked run of a model function (carrier [option R]) returns a defined
    value, the exact run (carrier [R]) returns the same value, and exceptions agree.
    So every theorem about exact runs also speaks about the checked ones. *)

From Coq Require Import Reals Lra ZArith String List FunctionalExtensionality ClassicalEpsilon.
From Verif Require Import Num Outcome External Checked ExternalSpec Model_Units Model_Constants
  Model_Frequencies Model_Spacetime Model_InitialConditions Model_Stable Model_Plunge Model_Orbit.
Import ListNotations.
Open Scope R_scope.

Definition ap (o : option R) (r : R) : Prop :=
  match o with None => True | Some v => v = r end.
Definition bap (o p : option bool) : Prop :=
  match o with None => True | Some b => p = Some b end.
Definition oap {A B} (S : A -> B -> Prop) (o : outcome A) (o' : outcome B) : Prop :=
  match o with
  | Undef => True
  | Raise e => o' = Raise e
  | Ret x => exists y, o' = Ret y /\ S x y
  end.
Definition pap {A B A' B'} (S : A -> A' -> Prop) (S' : B -> B' -> Prop) (x : A * B) (y : A' * B') :=
  S (fst x) (fst y) /\ S' (snd x) (snd y).
Definition fap {A B A' B'} (S : A -> A' -> Prop) (S' : B -> B' -> Prop) (f : A -> B) (g : A' -> B') :=
  forall x y, S x y -> S' (f x) (g y).
Definition optap {A B} (S : A -> B -> Prop) (x : option A) (y : option B) : Prop :=
  match x, y with None, None => True | Some a, Some b => S a b | _, _ => False end.

Lemma ap_Some r : ap (Some r) r. Proof. reflexivity. Qed.
Lemma ap_Z z : ap (nZ z) (nZ z). Proof. reflexivity. Qed.
Lemma ap_Q n d : ap (nQ n d) (nQ n d). Proof. reflexivity. Qed.
Lemma ap_pi : ap npi npi. Proof. reflexivity. Qed.
Lemma ap_undef : ap nundef nundef. Proof. exact I. Qed.
Lemma ap_1 (f g : R -> R) x a : (forall r, f r = g r) -> ap x a -> ap (c1 f x) (g a).
Proof. destruct x; simpl; auto. intros H ->. apply H. Qed.
Lemma ap_2 f x y a b : ap x a -> ap y b -> ap (c2 f x y) (f a b).
Proof. destruct x, y; simpl; auto. intros -> ->. reflexivity. Qed.
Lemma ap_add x y a b : ap x a -> ap y b -> ap (nadd x y) (nadd a b). Proof. apply ap_2. Qed.
Lemma ap_sub x y a b : ap x a -> ap y b -> ap (nsub x y) (nsub a b). Proof. apply ap_2. Qed.
Lemma ap_mul x y a b : ap x a -> ap y b -> ap (nmul x y) (nmul a b). Proof. apply ap_2. Qed.
Lemma ap_div x y a b : ap x a -> ap y b -> ap (ndiv x y) (ndiv a b).
Proof. destruct x, y; simpl; auto. intros -> ->. destruct (Req_EM_T b 0); simpl; auto. Qed.
Lemma ap_opp x a : ap x a -> ap (nopp x) (nopp a). Proof. now apply ap_1. Qed.
Lemma ap_pow x n a : ap x a -> ap (npow x n) (npow a n). Proof. now apply (ap_1 _ (fun a => pow a n)). Qed.
Lemma ap_abs x a : ap x a -> ap (nabs x) (nabs a). Proof. now apply ap_1. Qed.
Lemma ap_sqrt x a : ap x a -> ap (nsqrt x) (nsqrt a).
Proof. destruct x; simpl; auto. intros ->. destruct (Rle_dec 0 a); simpl; auto. Qed.
Lemma ap_sign x a : ap x a -> ap (nsign x) (nsign a). Proof. now apply ap_1. Qed.
Lemma ap_copysign x a : ap x a -> ap (ncopysign1 x) (ncopysign1 a). Proof. now apply ap_1. Qed.
Lemma ap_sin x a : ap x a -> ap (nsin x) (nsin a). Proof. now apply ap_1. Qed.
Lemma ap_cos x a : ap x a -> ap (ncos x) (ncos a). Proof. now apply ap_1. Qed.
Lemma ap_cunit f x a : ap x a -> ap (cunit f x) (f a).
Proof. destruct x; simpl; auto. intros ->. destruct (Rle_dec (-1) a); simpl; auto.
  destruct (Rle_dec a 1); simpl; auto. Qed.
Lemma ap_asin x a : ap x a -> ap (nasin x) (nasin a). Proof. apply ap_cunit. Qed.
Lemma ap_acos x a : ap x a -> ap (nacos x) (nacos a). Proof. apply ap_cunit. Qed.
Lemma ap_atan x a : ap x a -> ap (natan x) (natan a). Proof. now apply ap_1. Qed.
Lemma ap_atan2 x y a b : ap x a -> ap y b -> ap (natan2 x y) (natan2 a b). Proof. apply ap_2. Qed.
Lemma ap_log x a : ap x a -> ap (nlog x) (nlog a).
Proof. destruct x; simpl; auto. intros ->. destruct (Rlt_dec 0 a); simpl; auto. Qed.
Lemma ap_exp x a : ap x a -> ap (nexp x) (nexp a). Proof. now apply ap_1. Qed.
Lemma ap_floor x a : ap x a -> ap (nfloor x) (nfloor a). Proof. now apply ap_1. Qed.
Lemma bap_2 f x y a b : ap x a -> ap y b -> bap (c2 f x y) (Some (f a b)).
Proof. destruct x, y; simpl; auto. intros -> ->. reflexivity. Qed.
Lemma bap_eqb x y a b : ap x a -> ap y b -> bap (neqb x y) (neqb a b). Proof. apply bap_2. Qed.
Lemma bap_ltb x y a b : ap x a -> ap y b -> bap (nltb x y) (nltb a b). Proof. apply bap_2. Qed.
Lemma bap_leb x y a b : ap x a -> ap y b -> bap (nleb x y) (nleb a b). Proof. apply bap_2. Qed.
Lemma bap_and x y a b : bap x a -> bap y b -> bap (oand x y) (oand a b).
Proof. destruct x, y; simpl; auto; intros -> ->; reflexivity. Qed.
Lemma bap_or x y a b : bap x a -> bap y b -> bap (oor x y) (oor a b).
Proof. destruct x, y; simpl; auto; intros -> ->; reflexivity. Qed.
Lemma bap_not x a : bap x a -> bap (onot x) (onot a).
Proof. destruct x; simpl; auto; intros ->; reflexivity. Qed.
Lemma ap_nif c d x y a b : bap c d -> ap x a -> ap y b -> ap (nif c x y) (nif d a b).
Proof. destruct c as [[]|]; simpl; auto; intros ->; auto. Qed.
Lemma ap_nmod x y a b : ap x a -> ap y b -> ap (nmod x y) (nmod a b).
Proof. intros. unfold nmod. apply ap_sub; auto. apply ap_mul; auto. apply ap_floor. now apply ap_div. Qed.

Lemma oap_ret {A B} (S : A -> B -> Prop) x y : S x y -> oap S (Ret x) (Ret y).
Proof. simpl. eauto. Qed.
Lemma oap_raise {A B} (S : A -> B -> Prop) e : oap S (Raise e) (Raise e).
Proof. reflexivity. Qed.
Lemma oap_undef {A B} (S : A -> B -> Prop) o : oap S Undef o.
Proof. exact I. Qed.
Lemma oap_bind {A B A' B'} (S : A -> A' -> Prop) (S' : B -> B' -> Prop) m m' f g :
  oap S m m' -> (forall x y, S x y -> oap S' (f x) (g y)) -> oap S' (bind m f) (bind m' g).
Proof. destruct m; simpl; auto; [intros [y [-> H]] K; simpl; auto | intros ->; reflexivity]. Qed.
Lemma oap_ifo {A B} (S : A -> B -> Prop) c d x y x' y' :
  bap c d -> oap S x x' -> oap S y y' -> oap S (ifo c x y) (ifo d x' y').
Proof. destruct c as [[]|]; simpl; auto; intros ->; auto. Qed.
Lemma oap_default {A B} (S : A -> B -> Prop) o o' d d' :
  optap S o o' -> oap S d d' -> oap S (default o d) (default o' d').
Proof. destruct o, o'; simpl; auto; try contradiction. intros. eauto. Qed.

Lemma optap_some {A B} (S : A -> B -> Prop) a b : S a b -> optap S (Some a) (Some b).
Proof. auto. Qed.
Lemma optap_none {A B} (S : A -> B -> Prop) : optap S None None.
Proof. exact I. Qed.
Create HintDb tr.
#[global] Hint Resolve optap_some optap_none oap_default : tr.
#[global] Hint Unfold fap : tr.
#[global] Hint Resolve ap_Some ap_Z ap_Q ap_pi ap_undef ap_add ap_sub ap_mul ap_div ap_opp ap_pow
  ap_abs ap_sqrt ap_sign ap_copysign ap_sin ap_cos ap_asin ap_acos ap_atan ap_atan2 ap_log ap_exp
  ap_floor bap_eqb bap_ltb bap_leb bap_and bap_or bap_not ap_nif ap_nmod
  oap_ret oap_raise oap_undef oap_ifo : tr.

Section T.
Context (X : External R).

Lemma ap_ellipk x a : ap x a -> ap (ellipk x) (ellipk a).
Proof. destruct x; simpl; auto. intros ->. destruct (Rltb a 1); simpl; auto. Qed.
Lemma ap_ellipe x a : ap x a -> ap (ellipe x) (ellipe a).
Proof. destruct x; simpl; auto. intros ->. destruct (Rleb a 1); simpl; auto. Qed.
Lemma ap_ellipkinc x a y b : ap x a -> ap y b -> ap (ellipkinc x y) (ellipkinc a b).
Proof. destruct x, y; simpl; auto. intros -> ->. destruct (Rltb b 1 || _)%bool; simpl; auto. Qed.
Lemma ap_ellipeinc x a y b : ap x a -> ap y b -> ap (ellipeinc x y) (ellipeinc a b).
Proof. destruct x, y; simpl; auto. intros -> ->. destruct (Rleb b 1); simpl; auto. Qed.
Definition ap4 : option R * option R * option R * option R -> R * R * R * R -> Prop :=
  pap (pap (pap ap ap) ap) ap.
Definition ap3 : option R * option R * option R -> R * R * R -> Prop := pap (pap ap ap) ap.
Definition ap2 : option R * option R -> R * R -> Prop := pap ap ap.
Lemma ap_ellipj x a y b : ap x a -> ap y b -> ap4 (ellipj x y) (ellipj a b).
Proof.
  unfold ap4, pap. destruct x, y; simpl; auto. intros -> ->.
  destruct (Rleb 0 b && Rleb b 1)%bool; simpl; auto.
  destruct (ellipj a b) as [[[sn cn] dn] ph]. simpl. auto.
Qed.
Lemma ap_elliprf x a y b z c : ap x a -> ap y b -> ap z c -> ap (elliprf x y z) (elliprf a b c).
Proof. destruct x, y, z; simpl; auto. intros -> -> ->. destruct (rf_dom a b c); simpl; auto. Qed.
Lemma ap_elliprd x a y b z c : ap x a -> ap y b -> ap z c -> ap (elliprd x y z) (elliprd a b c).
Proof. destruct x, y, z; simpl; auto. intros -> -> ->.
  destruct (Rleb 0 a && Rleb 0 b && Rltb 0 c && Rltb 0 (a + b))%bool; simpl; auto. Qed.
Lemma ap_elliprj x a y b z c p q :
  ap x a -> ap y b -> ap z c -> ap p q -> ap (elliprj x y z p) (elliprj a b c q).
Proof. destruct x, y, z, p; simpl; auto. intros -> -> -> ->.
  destruct (rf_dom a b c && negb (Reqb q 0))%bool; simpl; auto. Qed.
Lemma oap_root f g lo l hi h :
  fap ap ap f g -> ap lo l -> ap hi h -> oap ap (root_scalar f lo hi) (root_scalar g l h).
Proof.
  intros Hf Hl Hh. simpl. unfold checked_root.
  destruct lo as [lo|]; [|exact I]. destruct hi as [hi|]; [|exact I]. simpl in Hl, Hh. subst lo hi.
  destruct (excluded_middle_informative _) as [[g' Hg']|]; [|exact I].
  assert (E : (fun r => match f (Some r) with Some v => v | None => 0 end) = g).
  { apply functional_extensionality. intros r. specialize (Hf (Some r) r eq_refl).
    rewrite (Hg' r) in *. exact Hf. }
  rewrite E. destruct (root_scalar g l h); simpl; eauto.
Qed.
Lemma all_some_ap l l' : Forall2 ap l l' -> forall xs, all_some l = Some xs -> xs = l'.
Proof.
  induction 1 as [|x y l l' H HF IH]; simpl; intros xs E.
  - now injection E.
  - destruct x; [|discriminate]. destruct (all_some l); [|discriminate].
    injection E as <-. simpl in H. subst. f_equal. auto.
Qed.
(* a split of checked roots determines the split of the exact ones *)
Definition splap (s : option (list (option R) * list (option R * option R)))
  (s' : option (list R * list (R * R))) : Prop :=
  match s with
  | None => True
  | Some (xs, cs) => s' = Some (map (fun o => match o with Some v => v | None => 0 end) xs,
       map (fun z => (match fst z with Some v => v | None => 0 end,
                      match snd z with Some v => v | None => 0 end)) cs)
     /\ Forall (fun o => o <> None) xs /\ Forall (fun z => fst z <> None /\ snd z <> None) cs
  end.
Lemma split_ap cs ds : Forall2 ap cs ds ->
  splap (split_roots (polyroots cs)) (split_roots (polyroots ds)).
Proof.
  intros H. simpl. unfold checked_polyroots.
  destruct (all_some cs) as [xs|] eqn:E; [|exact I].
  rewrite (all_some_ap _ _ H _ E). clear.
  induction (polyroots ds) as [|[re im] rs IH].
  - simpl. repeat split; constructor.
  - cbn [map split_roots fst snd].
    change (neqb (Some im) (nZ 0)) with (Some (Reqb im 0)).
    change (neqb im (nZ 0)) with (Some (Reqb im 0)).
    destruct (Reqb im 0).
    + destruct (split_roots (map _ rs)) as [[xs cs]|]; [|exact I].
      destruct IH as [-> [H1 H2]]. simpl. repeat split; auto. constructor; auto. discriminate.
    + destruct (split_roots (map _ rs)) as [[xs cs]|]; [|exact I].
      destruct IH as [-> [H1 H2]]. simpl. repeat split; auto. constructor; auto.
      split; discriminate.
Qed.

End T.
#[global] Hint Resolve oap_root : tr.
#[global] Hint Resolve ap_ellipk ap_ellipe ap_ellipkinc ap_ellipeinc ap_elliprf ap_elliprd
  ap_elliprj : tr.

(** work-horse: follow the structure of the two runs *)
Ltac tr_step :=
  match goal with
  | |- forall _, _ => intro
  | |- ?x = ?x => reflexivity
  | H : pap _ _ ?x ?y |- _ =>
      is_var x; is_var y; destruct x, y; destruct H; cbn [fst snd] in *
  | H : ap2 ?x ?y |- _ => unfold ap2 in H
  | H : ap3 ?x ?y |- _ => unfold ap3 in H
  | H : ap4 ?x ?y |- _ => unfold ap4 in H
  | H : _ /\ _ |- _ => destruct H
  | |- ap2 _ _ => unfold ap2
  | |- ap3 _ _ => unfold ap3
  | |- ap4 _ _ => unfold ap4
  | |- pap _ _ (_, _) (_, _) => split; cbn [fst snd]
  | |- oap _ (bind (root_scalar _ _ _) _) _ => eapply oap_bind; [ apply oap_root | intros ]
  | |- oap _ (bind _ _) (bind _ _) => eapply oap_bind; [ solve [ eauto 8 with tr nocore ] | intros ]
  | |- oap _ (Ret _) (Ret _) => apply oap_ret
  | |- oap _ (Raise _) (Raise _) => apply oap_raise
  | |- oap _ Undef _ => exact I
  | |- oap _ (ifo _ _ _) (ifo _ _ _) => apply oap_ifo
  | |- oap _ (default _ _) (default _ _) => apply oap_default
  | |- optap _ (Some _) (Some _) => simpl
  | |- optap _ None None => exact I
  | H : optap _ ?x ?y |- _ => is_var x; is_var y; destruct x, y; simpl in H; try contradiction
  | |- oap _ (root_scalar _ _ _) (root_scalar _ _ _) => apply oap_root
  | |- fap _ _ _ _ => intros ? ? ?
  | |- Forall2 _ (_ :: _) (_ :: _) => constructor
  | |- Forall2 _ [] [] => constructor
  | |- oap _ (if ?b then _ else _) (if ?b then _ else _) => destruct b
  end.
Ltac tr_ell :=
  match goal with
  | |- context [ @ellipj (option R) ?I ?u ?m ] =>
      let E := fresh in
      match goal with |- context [ @ellipj R ?J ?v ?n ] =>
        assert (E : ap4 (@ellipj (option R) I u m) (@ellipj R J v n));
        [ apply ap_ellipj | destruct (@ellipj (option R) I u m) as [[[? ?] ?] ?],
                                     (@ellipj R J v n) as [[[? ?] ?] ?];
                            unfold ap4, pap in E; simpl in E ]
      end
  end.
Ltac tr_num :=
  match goal with
  | H : ap ?x ?y |- ap ?x ?y => exact H
  | H : ap ?x ?y |- ap ?x _ => exact H
  | |- ap (nadd _ _) _ => apply ap_add
  | |- ap (nsub _ _) _ => apply ap_sub
  | |- ap (nmul _ _) _ => apply ap_mul
  | |- ap (ndiv _ _) _ => apply ap_div
  | |- ap (nopp _) _ => apply ap_opp
  | |- ap (npow _ _) _ => apply ap_pow
  | |- ap (nabs _) _ => apply ap_abs
  | |- ap (nsqrt _) _ => apply ap_sqrt
  | |- ap (nsign _) _ => apply ap_sign
  | |- ap (ncopysign1 _) _ => apply ap_copysign
  | |- ap (nsin _) _ => apply ap_sin
  | |- ap (ncos _) _ => apply ap_cos
  | |- ap (nasin _) _ => apply ap_asin
  | |- ap (nacos _) _ => apply ap_acos
  | |- ap (natan _) _ => apply ap_atan
  | |- ap (natan2 _ _) _ => apply ap_atan2
  | |- ap (nlog _) _ => apply ap_log
  | |- ap (nexp _) _ => apply ap_exp
  | |- ap (nfloor _) _ => apply ap_floor
  | |- ap (nif _ _ _) _ => apply ap_nif
  | |- ap (nmod _ _) _ => apply ap_nmod
  | |- ap (nZ _) _ => apply ap_Z
  | |- ap (nQ _ _) _ => apply ap_Q
  | |- ap npi _ => apply ap_pi
  | |- ap nundef _ => apply ap_undef
  | |- ap (ellipk _) _ => apply ap_ellipk
  | |- ap (ellipe _) _ => apply ap_ellipe
  | |- ap (ellipkinc _ _) _ => apply ap_ellipkinc
  | |- ap (ellipeinc _ _) _ => apply ap_ellipeinc
  | |- ap (elliprf _ _ _) _ => apply ap_elliprf
  | |- ap (elliprd _ _ _) _ => apply ap_elliprd
  | |- ap (elliprj _ _ _ _) _ => apply ap_elliprj
  | |- bap (neqb _ _) _ => apply bap_eqb
  | |- bap (nltb _ _) _ => apply bap_ltb
  | |- bap (nleb _ _) _ => apply bap_leb
  | |- bap (oand _ _) _ => apply bap_and
  | |- bap (oor _ _) _ => apply bap_or
  | |- bap (onot _) _ => apply bap_not
  end.
Ltac tr := repeat (tr_num || tr_step || (progress cbn [fst snd]) || tr_ell); auto with tr nocore.

Section F.
Context (X : External R).
Notation CX := (checked X).

Lemma tr_mass_in_kg M m : ap M m -> ap (mass_in_kg M) (mass_in_kg m).
Proof. intros. unfold mass_in_kg, solar_mass. tr. Qed.
Hint Resolve tr_mass_in_kg : tr.
Lemma tr_G : ap G_newton G_newton. Proof. unfold G_newton. tr. Qed.
Lemma tr_c : ap c_light c_light. Proof. unfold c_light. tr. Qed.
Hint Resolve tr_G tr_c : tr.

Lemma tr_coefficients r r' a a' x x' : ap r r' -> ap a a' -> ap x x' ->
  ap4 (coefficients r a x) (coefficients r' a' x').
Proof. intros. unfold coefficients. cbv zeta. tr. Qed.
Lemma tr_coefficients_derivative r r' a a' x x' : ap r r' -> ap a a' -> ap x x' ->
  ap4 (coefficients_derivative r a x) (coefficients_derivative r' a' x').
Proof. intros. unfold coefficients_derivative. cbv zeta. tr. Qed.
Hint Resolve tr_coefficients tr_coefficients_derivative : tr.
Lemma tr_standardize a a' x x' : ap a a' -> ap x x' ->
  ap2 (standardize_params a x) (standardize_params a' x').
Proof. intros. unfold standardize_params. tr. Qed.
Lemma tr_S_polar p p' a a' e e' : ap p p' -> ap a a' -> ap e e' ->
  ap (S_polar p a e) (S_polar p' a' e').
Proof. intros. unfold S_polar. tr. Qed.
Lemma tr_S_equatorial p p' a a' e e' : ap p p' -> ap a a' -> ap e e' ->
  ap (S_equatorial p a e) (S_equatorial p' a' e').
Proof. intros. unfold S_equatorial. tr. Qed.
Lemma tr_S_full p p' a a' e e' x x' : ap p p' -> ap a a' -> ap e e' -> ap x x' ->
  ap (S_full p a e x) (S_full p' a' e' x').
Proof. intros. unfold S_full. tr. Qed.
Hint Resolve tr_standardize tr_S_polar tr_S_equatorial tr_S_full : tr.
Lemma tr_valid a a' e e' x x' : ap a a' -> ap e e' -> ap x x' ->
  bap (valid_params a e x) (valid_params a' e' x').
Proof. intros. unfold valid_params. tr. Qed.
Hint Resolve tr_valid : tr.
Lemma tr_separatrix a a' e e' x x' : ap a a' -> ap e e' -> ap x x' ->
  oap ap (separatrix (X := CX) a e x) (separatrix a' e' x').
Proof. intros. unfold separatrix. tr. Qed.
Hint Resolve tr_separatrix : tr.
Lemma tr_is_stable a a' p p' e e' x x' : ap a a' -> ap p p' -> ap e e' -> ap x x' ->
  oap eq (is_stable (X := CX) a p e x) (is_stable a' p' e' x').
Proof. intros. unfold is_stable. tr. Qed.
Hint Resolve tr_is_stable : tr.
Lemma tr_check a a' p p' e e' x x' : ap a a' -> ap p p' -> ap e e' -> ap x x' ->
  oap eq (check_constants_params (X := CX) a p e x) (check_constants_params a' p' e' x').
Proof. intros. unfold check_constants_params. tr; subst; tr. Qed.
Lemma tr_checkf a a' p p' e e' x x' : ap a a' -> ap p p' -> ap e e' -> ap x x' ->
  oap eq (check_frequency_params (X := CX) a p e x) (check_frequency_params a' p' e' x').
Proof. intros. unfold check_frequency_params. tr; subst; tr. Qed.
Hint Resolve tr_check tr_checkf : tr.
Lemma tr_schmidt_energy c c' d d' x x' : ap4 c c' -> ap4 d d' -> ap x x' ->
  ap (schmidt_energy c d x) (schmidt_energy c' d' x').
Proof. intros. unfold schmidt_energy. tr. Qed.
Lemma tr_polar_energy a a' p p' e e' : ap a a' -> ap p p' -> ap e e' ->
  ap (polar_energy a p e) (polar_energy a' p' e').
Proof. intros. unfold polar_energy. tr. Qed.
Lemma tr_polar_carter a a' p p' e e' : ap a a' -> ap p p' -> ap e e' ->
  ap (polar_carter a p e) (polar_carter a' p' e').
Proof. intros. unfold polar_carter. tr. Qed.
Lemma tr_schmidt_L c c' x x' e e' : ap4 c c' -> ap x x' -> ap e e' ->
  ap (schmidt_L c x e) (schmidt_L c' x' e').
Proof. intros. unfold schmidt_L. tr. Qed.
Hint Resolve tr_schmidt_energy tr_polar_energy tr_polar_carter tr_schmidt_L : tr.
Ltac trs := repeat (tr_num || tr_step || (progress cbn [fst snd]) || tr_ell ||
   match goal with
   | |- ap (schmidt_energy _ _ _) _ => apply tr_schmidt_energy
   | |- ap (schmidt_L _ _ _) _ => apply tr_schmidt_L
   | |- pap (pap (pap ap ap) ap) ap (coefficients _ _ _) _ => apply tr_coefficients
   | |- pap (pap (pap ap ap) ap) ap (coefficients_derivative _ _ _) _ => apply tr_coefficients_derivative
   end); auto with tr nocore.
Lemma tr_energy a a' p p' e e' x x' : ap a a' -> ap p p' -> ap e e' -> ap x x' ->
  oap ap (energy (X := CX) a p e x) (energy a' p' e' x').
Proof. intros. unfold energy, standardize_params. trs. Qed.
Hint Resolve tr_energy : tr.
Lemma tr_angular_momentum a a' p p' e e' x x' E E' :
  ap a a' -> ap p p' -> ap e e' -> ap x x' -> optap ap E E' ->
  oap ap (angular_momentum (X := CX) a p e x E) (angular_momentum a' p' e' x' E').
Proof. intros. unfold angular_momentum, standardize_params. trs. Qed.
Hint Resolve tr_angular_momentum : tr.
Lemma tr_carter a a' p p' e e' x x' E E' L L' :
  ap a a' -> ap p p' -> ap e e' -> ap x x' -> optap ap E E' -> optap ap L L' ->
  oap ap (carter_constant (X := CX) a p e x E L) (carter_constant a' p' e' x' E' L').
Proof. intros. unfold carter_constant, standardize_params. trs. Qed.
Hint Resolve tr_carter : tr.
Lemma tr_constants a a' p p' e e' x x' : ap a a' -> ap p p' -> ap e e' -> ap x x' ->
  oap ap3 (constants_of_motion (X := CX) a p e x) (constants_of_motion a' p' e' x').
Proof. intros. unfold constants_of_motion. 
  trs. Qed.
Hint Resolve tr_constants : tr.

Lemma tr_stable_radial_roots a a' p p' e e' x x' c c' :
  ap a a' -> ap p p' -> ap e e' -> ap x x' -> optap ap3 c c' ->
  oap ap4 (stable_radial_roots (X := CX) a p e x c) (stable_radial_roots a' p' e' x' c').
Proof. intros. unfold stable_radial_roots. trs. Qed.
Lemma tr_stable_polar_roots a a' p p' e e' x x' c c' :
  ap a a' -> ap p p' -> ap e e' -> ap x x' -> optap ap3 c c' ->
  oap ap2 (stable_polar_roots (X := CX) a p e x c) (stable_polar_roots a' p' e' x' c').
Proof. intros. unfold stable_polar_roots. trs. Qed.
Hint Resolve tr_stable_radial_roots tr_stable_polar_roots : tr.
Lemma tr_radial_poly a a' E E' L L' Q Q' : ap a a' -> ap E E' -> ap L L' -> ap Q Q' ->
  Forall2 ap (radial_poly a E L Q) (radial_poly a' E' L' Q').
Proof. intros. unfold radial_poly. trs. Qed.
Lemma tr_polar_poly a a' E E' L L' Q Q' : ap a a' -> ap E E' -> ap L L' -> ap Q Q' ->
  Forall2 ap (polar_poly a E L Q) (polar_poly a' E' L' Q').
Proof. intros. unfold polar_poly. trs. Qed.
Definition rrap (x : radial_roots (option R)) (y : radial_roots R) : Prop :=
  match x, y with
  | RealRoots a b c d, RealRoots a' b' c' d' => ap a a' /\ ap b b' /\ ap c c' /\ ap d d'
  | ComplexRoots a b c d, ComplexRoots a' b' c' d' => ap a a' /\ ap b b' /\ ap2 c c' /\ ap2 d d'
  | _, _ => False
  end.
Lemma ap_from_some o : o <> None -> ap o (match o with Some v => v | None => 0 end).
Proof. destruct o; simpl; congruence. Qed.
Lemma ap2_from_some (z : option R * option R) : fst z <> None /\ snd z <> None ->
  ap2 z (match fst z with Some v => v | None => 0 end, match snd z with Some v => v | None => 0 end).
Proof. destruct z as [[] []]; simpl; intros [? ?]; try congruence. split; reflexivity. Qed.
Ltac fall := repeat match goal with
  | H : Forall _ (_ :: _) |- _ => inversion H; subst; clear H
  | H : Forall _ [] |- _ => clear H end.
Lemma tr_plunging_radial_roots a a' E E' L L' Q Q' : ap a a' -> ap E E' -> ap L L' -> ap Q Q' ->
  oap rrap (plunging_radial_roots (X := CX) a E L Q) (plunging_radial_roots a' E' L' Q').
Proof.
  intros. unfold plunging_radial_roots.
  pose proof (split_ap X _ _ (tr_radial_poly _ _ _ _ _ _ _ _ H H0 H1 H2)) as HS.
  destruct (split_roots (polyroots (radial_poly a E L Q))) as [[xs cs]|]; [|exact I].
  destruct HS as [-> [F1 F2]].
  destruct xs as [|x0 [|x1 [|x2 [|x3 [|x4 xs]]]]]; cbn [map]; try apply oap_raise.
  - destruct cs as [|c3 [|c4 [|c5 cs]]]; cbn [map]; try apply oap_raise. fall.
    apply oap_ret. simpl. auto using ap_from_some, ap2_from_some.
  - fall. apply oap_ifo; [| apply oap_ret; simpl; auto using ap_from_some ..].
    apply bap_ltb; [trs | now apply ap_from_some].
Qed.
Hint Resolve tr_plunging_radial_roots : tr.
Lemma tr_real_of_roots cs ds : Forall2 ap cs ds ->
  oap (Forall2 ap) (real_of_roots (polyroots (External := CX) cs)) (real_of_roots (polyroots ds)).
Proof.
  intros H. unfold real_of_roots. pose proof (split_ap X _ _ H) as HS.
  destruct (split_roots (polyroots cs)) as [[xs [|]]|]; try exact I.
  destruct HS as [-> [F1 F2]]. simpl. apply oap_ret.
  clear F2. induction F1; simpl; constructor; auto using ap_from_some.
Qed.
Lemma tr_real_roots_radial a a' E E' L L' Q Q' : ap a a' -> ap E E' -> ap L L' -> ap Q Q' ->
  oap (Forall2 ap) (real_of_roots (polyroots (External := CX) (radial_poly a E L Q)))
    (real_of_roots (polyroots (radial_poly a' E' L' Q'))).
Proof. intros. apply tr_real_of_roots. now apply tr_radial_poly. Qed.
Lemma tr_real_roots_polar a a' E E' L L' Q Q' : ap a a' -> ap E E' -> ap L L' -> ap Q Q' ->
  oap (Forall2 ap) (real_of_roots (polyroots (External := CX) (polar_poly a E L Q)))
    (real_of_roots (polyroots (polar_poly a' E' L' Q'))).
Proof. intros. apply tr_real_of_roots. now apply tr_polar_poly. Qed.
Hint Resolve tr_real_roots_radial tr_real_roots_polar : tr.
Lemma tr_unpack4 l l' : Forall2 ap l l' -> oap ap4 (unpack4 l) (unpack4 l').
Proof.
  intros H. destruct H as [|? ? ? ? ? H]; [apply oap_raise|].
  do 3 (destruct H as [|? ? ? ? ? H]; [apply oap_raise|]).
  destruct H as [|? ? ? ? ? H]; [unfold unpack4, unpack2; trs | apply oap_raise].
Qed.
Lemma tr_unpack2 l l' : Forall2 ap l l' -> oap ap2 (unpack2 l) (unpack2 l').
Proof.
  intros H. destruct H as [|? ? ? ? ? H]; [apply oap_raise|].
  destruct H as [|? ? ? ? ? H]; [apply oap_raise|].
  destruct H as [|? ? ? ? ? H]; [unfold unpack4, unpack2; trs | apply oap_raise].
Qed.
Hint Resolve tr_unpack4 tr_unpack2 : tr.
Lemma tr_polar_roots_of a a' E E' L L' Q Q' : ap a a' -> ap E E' -> ap L L' -> ap Q Q' ->
  oap ap2 (polar_roots_of (X := CX) a E L Q) (polar_roots_of a' E' L' Q').
Proof. intros. unfold polar_roots_of. trs. destruct H3; trs. Qed.
Hint Resolve tr_polar_roots_of : tr.
Lemma tr_apex a a' E E' L L' Q Q' : ap a a' -> ap E E' -> ap L L' -> ap Q Q' ->
  oap ap4 (apex_from_constants (X := CX) a E L Q) (apex_from_constants a' E' L' Q').
Proof. intros. unfold apex_from_constants. trs. Qed.
Hint Resolve tr_apex : tr.

(** frequencies.py *)
Lemma tr_ellipeinc_ p p' m m' : ap p p' -> ap m m' ->
  ap (ellipeinc_ (X := CX) p m) (ellipeinc_ p' m').
Proof. intros. unfold ellipeinc_. trs. Qed.
Lemma tr_ellippi p p' m m' : ap p p' -> ap m m' -> ap (ellippi (X := CX) p m) (ellippi p' m').
Proof. intros. unfold ellippi. trs. Qed.
Hint Resolve tr_ellippi tr_ellipeinc_ : tr.
Lemma tr_ellippiinc p p' n n' m m' : ap p p' -> ap n n' -> ap m m' ->
  ap (ellippiinc (X := CX) p n m) (ellippiinc p' n' m').
Proof. intros. unfold ellippiinc. trs. Qed.
Hint Resolve tr_ellippiinc : tr.
Lemma tr_kr a b c d a' b' c' d' : ap a a' -> ap b b' -> ap c c' -> ap d d' ->
  ap (kr_of a b c d) (kr_of a' b' c' d').
Proof. intros. unfold kr_of. trs. Qed.
Lemma tr_e0zp a b c d a' b' c' d' : ap a a' -> ap b b' -> ap c c' -> ap d d' ->
  ap (e0zp_of a b c d) (e0zp_of a' b' c' d').
Proof. intros. unfold e0zp_of. trs. Qed.
Lemma tr_a2sqrt a b c d e a' b' c' d' e' :
  ap a a' -> ap b b' -> ap c c' -> ap d d' -> ap e e' ->
  ap (a2sqrt_of a b c d e) (a2sqrt_of a' b' c' d' e').
Proof. intros. unfold a2sqrt_of. trs. Qed.
Hint Resolve tr_kr tr_e0zp tr_a2sqrt : tr.
Ltac trf := repeat (tr_num || tr_step || (progress cbn [fst snd]) || tr_ell ||
   match goal with
   | |- ap (ellippi _ _) _ => apply tr_ellippi
   | |- ap (ellippiinc _ _ _) _ => apply tr_ellippiinc
   | |- ap (ellipeinc_ _ _) _ => apply tr_ellipeinc_
   | |- ap (kr_of _ _ _ _) _ => apply tr_kr
   | |- ap (e0zp_of _ _ _ _) _ => apply tr_e0zp
   | |- ap (a2sqrt_of _ _ _ _ _) _ => apply tr_a2sqrt
   end); auto with tr nocore.
Lemma tr_r_freq E E' rr rr' : ap E E' -> ap4 rr rr' ->
  ap (r_freq_formula (X := CX) E rr) (r_freq_formula E' rr').
Proof. intros. unfold r_freq_formula. trf. Qed.
Lemma tr_theta_freq a a' E E' L L' zz zz' : ap a a' -> ap E E' -> ap L L' -> ap2 zz zz' ->
  ap (theta_freq_formula (X := CX) a E L zz) (theta_freq_formula a' E' L' zz').
Proof. intros. unfold theta_freq_formula. trf. Qed.
Lemma tr_phi_freq a a' E E' L L' rr rr' zz zz' u u' v v' :
  ap a a' -> ap E E' -> ap L L' -> ap4 rr rr' -> ap2 zz zz' -> ap u u' -> ap v v' ->
  ap (phi_freq_formula (X := CX) a E L rr zz u v) (phi_freq_formula a' E' L' rr' zz' u' v').
Proof. intros. unfold phi_freq_formula. trf. Qed.
Lemma tr_gamma_formula a a' E E' L L' rr rr' zz zz' u u' v v' :
  ap a a' -> ap E E' -> ap L L' -> ap4 rr rr' -> ap2 zz zz' -> ap u u' -> ap v v' ->
  ap (gamma_formula (X := CX) a E L rr zz u v) (gamma_formula a' E' L' rr' zz' u' v').
Proof. intros. unfold gamma_formula. trf. Qed.
Hint Resolve tr_r_freq tr_theta_freq tr_phi_freq tr_gamma_formula : tr.
Ltac trq := repeat (tr_num || tr_step || (progress cbn [fst snd]) || tr_ell ||
   match goal with
   | |- ap (ellippi _ _) _ => apply tr_ellippi
   | |- ap (ellippiinc _ _ _) _ => apply tr_ellippiinc
   | |- ap (ellipeinc_ _ _) _ => apply tr_ellipeinc_
   | |- ap (kr_of _ _ _ _) _ => apply tr_kr
   | |- ap (e0zp_of _ _ _ _) _ => apply tr_e0zp
   | |- ap (a2sqrt_of _ _ _ _ _) _ => apply tr_a2sqrt
   | |- ap (r_freq_formula _ _) _ => apply tr_r_freq
   | |- ap (theta_freq_formula _ _ _ _) _ => apply tr_theta_freq
   | |- ap (phi_freq_formula _ _ _ _ _ _ _) _ => apply tr_phi_freq
   | |- ap (gamma_formula _ _ _ _ _ _ _) _ => apply tr_gamma_formula
   end); auto with tr nocore.
(* keep tuples whole while following binds *)
Ltac trb := eapply oap_bind; [ solve [ eauto 8 with tr nocore ] | intros ].
Lemma tr_r_frequency a a' p p' e e' x x' c c' :
  ap a a' -> ap p p' -> ap e e' -> ap x x' -> optap ap3 c c' ->
  oap ap (r_frequency (X := CX) a p e x c) (r_frequency a' p' e' x' c').
Proof.
  intros. unfold r_frequency, standardize_params.
  eapply oap_bind; [apply tr_checkf; trq|intros].
  eapply oap_bind with (S := ap3); [apply oap_default; [assumption | apply tr_constants; trq]|intros].
  destruct x1 as [[? ?] ?], y0 as [[? ?] ?].
  assert (G := H5). destruct G as [[? ?] ?]; cbn [fst snd] in *.
  eapply oap_bind with (S := ap4); [apply tr_stable_radial_roots; trq; split; trq|intros]. trq.
Qed.
Hint Resolve tr_r_frequency : tr.
Ltac c3 H := let G := fresh in assert (G := H);
  match type of H with ap3 ?x ?y => destruct x as [[? ?] ?], y as [[? ?] ?] end;
  destruct G as [[? ?] ?]; cbn [fst snd] in *.
Lemma tr_theta_frequency a a' p p' e e' x x' c c' :
  ap a a' -> ap p p' -> ap e e' -> ap x x' -> optap ap3 c c' ->
  oap ap (theta_frequency (X := CX) a p e x c) (theta_frequency a' p' e' x' c').
Proof.
  intros. unfold theta_frequency, standardize_params.
  eapply oap_bind; [apply tr_checkf; trq|intros]. apply oap_ifo; [trq | trq |].
  eapply oap_bind with (S := ap3); [apply oap_default; [assumption | apply tr_constants; trq]|intros].
  c3 H5. eapply oap_bind with (S := ap2); [apply tr_stable_polar_roots; trq; split; trq|intros]. trq.
Qed.
Hint Resolve tr_theta_frequency : tr.
Lemma tr_phi_frequency a a' p p' e e' x x' c c' u u' v v' :
  ap a a' -> ap p p' -> ap e e' -> ap x x' -> optap ap3 c c' -> optap ap u u' -> optap ap v v' ->
  oap ap (phi_frequency (X := CX) a p e x c u v) (phi_frequency a' p' e' x' c' u' v').
Proof.
  intros. unfold phi_frequency, standardize_params.
  eapply oap_bind; [apply tr_checkf; trq|intros]. apply oap_ifo; [trq | trq |].
  eapply oap_bind with (S := ap3); [apply oap_default; [assumption | apply tr_constants; trq]|intros].
  c3 H7. eapply oap_bind with (S := ap4); [apply tr_stable_radial_roots; trq; split; trq|intros].
  eapply oap_bind with (S := ap2); [apply tr_stable_polar_roots; trq; split; trq|intros].
  eapply oap_bind with (S := ap);
    [apply oap_default; [assumption | apply tr_r_frequency; trq; split; trq]|intros].
  eapply oap_bind with (S := ap);
    [apply oap_default; [assumption | apply tr_theta_frequency; trq; split; trq]|intros].
  trq.
Qed.
Lemma tr_gamma a a' p p' e e' x x' c c' u u' v v' :
  ap a a' -> ap p p' -> ap e e' -> ap x x' -> optap ap3 c c' -> optap ap u u' -> optap ap v v' ->
  oap ap (gamma (X := CX) a p e x c u v) (gamma a' p' e' x' c' u' v').
Proof.
  intros. unfold gamma, standardize_params.
  eapply oap_bind; [apply tr_checkf; trq|intros].
  eapply oap_bind with (S := ap3); [apply oap_default; [assumption | apply tr_constants; trq]|intros].
  c3 H7. eapply oap_bind with (S := ap4); [apply tr_stable_radial_roots; trq; split; trq|intros].
  eapply oap_bind with (S := ap2); [apply tr_stable_polar_roots; trq; split; trq|intros].
  eapply oap_bind with (S := ap);
    [apply oap_default; [assumption | apply tr_r_frequency; trq; split; trq]|intros].
  eapply oap_bind with (S := ap);
    [apply oap_default; [assumption | apply tr_theta_frequency; trq; split; trq]|intros].
  trq.
Qed.
Hint Resolve tr_phi_frequency tr_gamma : tr.
Lemma tr_mino a a' p p' e e' x x' : ap a a' -> ap p p' -> ap e e' -> ap x x' ->
  oap ap4 (mino_frequencies (X := CX) a p e x) (mino_frequencies a' p' e' x').
Proof.
  intros. unfold mino_frequencies. do 5 trb. trq.
Qed.
Lemma tr_fundamental a a' p p' e e' x x' : ap a a' -> ap p p' -> ap e e' -> ap x x' ->
  oap ap3 (fundamental_frequencies (X := CX) a p e x) (fundamental_frequencies a' p' e' x').
Proof.
  intros. unfold fundamental_frequencies. do 5 trb. trq.
Qed.
Hint Resolve tr_mino tr_fundamental : tr.

(** stable.py *)
Lemma tr_radial_r rr rr' q q' : ap4 rr rr' -> ap q q' ->
  ap (radial_r (X := CX) rr q) (radial_r rr' q').
Proof. intros. unfold radial_r. trq. Qed.
Lemma tr_radial_t a a' E E' L L' rr rr' q q' :
  ap a a' -> ap E E' -> ap L L' -> ap4 rr rr' -> ap q q' ->
  ap (radial_t (X := CX) a E L rr q) (radial_t a' E' L' rr' q').
Proof. intros. unfold radial_t. trq. Qed.
Lemma tr_radial_phi a a' E E' L L' rr rr' q q' :
  ap a a' -> ap E E' -> ap L L' -> ap4 rr rr' -> ap q q' ->
  ap (radial_phi (X := CX) a E L rr q) (radial_phi a' E' L' rr' q').
Proof. intros. unfold radial_phi. trq. Qed.
Lemma tr_polar_theta a a' zz zz' q q' : ap a a' -> ap2 zz zz' -> ap q q' ->
  ap (polar_theta (X := CX) a zz q) (polar_theta a' zz' q').
Proof. intros. unfold polar_theta, u_theta_of, ktheta_of. trq. Qed.
Lemma tr_polar_t a a' E E' L L' zz zz' q q' :
  ap a a' -> ap E E' -> ap L L' -> ap2 zz zz' -> ap q q' ->
  ap (polar_t (X := CX) a E L zz q) (polar_t a' E' L' zz' q').
Proof. intros. unfold polar_t, u_theta_of, ktheta_of. trq. Qed.
Lemma tr_polar_phi a a' E E' L L' zz zz' q q' :
  ap a a' -> ap E E' -> ap L L' -> ap2 zz zz' -> ap q q' ->
  ap (polar_phi (X := CX) a E L zz q) (polar_phi a' E' L' zz' q').
Proof. intros. unfold polar_phi, u_theta_of, ktheta_of. trq. Qed.
End F.

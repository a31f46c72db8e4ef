(** * Primitive-float instance with which the model can be RUN (by hand, in a scratch file).

    Nothing in the property theorems depends on this file: it exists so that the
    transcription of the Python formulas can be tested against the repository's
    own reference data.  The special functions are textbook algorithms (AGM,
    Landen, Carlson duplication, bisection, Durand-Kerner) and are NOT verified. *)

From Coq Require Import ZArith List String Bool.
From Coq Require Uint63.
From Coq Require Import Floats.
From Verif Require Import Num Outcome External.
Import ListNotations.
Open Scope float_scope.

Definition Zf (z : Z) : float :=
  (* exact for |z| < 2^53, otherwise by splitting *)
  let fix go (fuel : nat) (n : Z) : float :=
    match fuel with
    | O => 0
    | S k => if Z.ltb n 1125899906842624 then of_uint63 (Uint63.of_Z n)
             else go k (Z.div n 1048576) * 1048576 + of_uint63 (Uint63.of_Z (Z.modulo n 1048576))
    end in
  if Z.ltb z 0 then - go 20%nat (Z.opp z) else go 20%nat z.

Definition fpi := 0x1.921fb54442d18p+1.
Fixpoint fpow (x : float) (n : nat) : float :=
  match n with O => 1 | S k => x * fpow x k end.
Definition ffloor (x : float) : float :=
  let big := 4503599627370496 in
  let r := if 0 <=? x then (x + big) - big else (x - big) + big in
  if x <? r then r - 1 else r.

(* Taylor kernels on |x| <= pi *)
Fixpoint fsin_ser (n : nat) (k x2 term acc : float) : float :=
  match n with
  | O => acc
  | S n' => let term' := - term * x2 / ((k + 1) * (k + 2)) in
            fsin_ser n' (k + 2) x2 term' (acc + term')
  end.
Definition fred (x : float) : float :=
  x - 2 * fpi * ffloor ((x + fpi) / (2 * fpi)).
Definition fsin (x : float) : float := let y := fred x in fsin_ser 18 1 (y * y) y y.
Definition fcos (x : float) : float := let y := fred x in fsin_ser 18 0 (y * y) 1 1.
Fixpoint fatan_ser (n : nat) (k x2 pw acc : float) : float :=
  match n with
  | O => acc
  | S n' => let pw' := - pw * x2 in fatan_ser n' (k + 2) x2 pw' (acc + pw' / (k + 2))
  end.
Definition fhalf (x : float) : float := x / (1 + sqrt (1 + x * x)).
Definition fatan (x : float) : float :=
  let y := fhalf (fhalf (fhalf x)) in 8 * fatan_ser 20 1 (y * y) y y.
Definition fatan2 (y x : float) : float :=
  if 0 <? x then fatan (y / x)
  else if x <? 0 then (if 0 <=? y then fatan (y / x) + fpi else fatan (y / x) - fpi)
  else if 0 <? y then fpi / 2 else if y <? 0 then - (fpi / 2) else 0.
Definition fasin (x : float) : float := fatan2 x (sqrt ((1 - x) * (1 + x))).
Definition facos (x : float) : float := fatan2 (sqrt ((1 - x) * (1 + x))) x.
Fixpoint fexp_ser (n : nat) (k x term acc : float) : float :=
  match n with O => acc | S n' => let t := term * x / k in fexp_ser n' (k + 1) x t (acc + t) end.
Definition fexp (x : float) : float := let y := fexp_ser 20 1 (x / 64) 1 1 in fpow y 64.
(* log x = 2 artanh((x-1)/(x+1)), after taking square roots *)
Fixpoint fartanh (n : nat) (k x2 pw acc : float) : float :=
  match n with O => acc | S n' => let pw' := pw * x2 in fartanh n' (k + 2) x2 pw' (acc + pw' / (k + 2)) end.
Definition flog (x : float) : float :=
  let y := sqrt (sqrt (sqrt (sqrt (sqrt x)))) in
  let u := (y - 1) / (y + 1) in 64 * fartanh 40 1 (u * u) u u.
Definition fsign (x : float) : float := if 0 <? x then 1 else if x <? 0 then -1 else 0.

#[global] Instance FNum : Num float := {
  nZ := Zf;
  nQ n d := Zf n / Zf (Zpos d);
  nadd := PrimFloat.add; nsub := PrimFloat.sub; nmul := PrimFloat.mul; ndiv := PrimFloat.div;
  nopp := PrimFloat.opp; npow := fpow; nabs := PrimFloat.abs; nsqrt := PrimFloat.sqrt;
  nsign := fsign;
  ncopysign1 x := if x <? 0 then -1 else 1;
  nsin := fsin; ncos := fcos; nasin := fasin; nacos := facos; natan := fatan; natan2 := fatan2;
  nlog := flog; nexp := fexp; nfloor := ffloor; npi := fpi; nundef := nan;
  neqb x y := Some (x =? y); nltb x y := Some (x <? y); nleb x y := Some (x <=? y)
}.

(* AGM: K = pi/(2 agm(1,k')), E = K (1 - sum 2^(n-1) c_n^2) *)
Fixpoint fagm (n : nat) (a b p s : float) : float * float :=
  match n with
  | O => (a, s)
  | S n' => let a' := (a + b) / 2 in let b' := sqrt (a * b) in let c := (a - b) / 2 in
            fagm n' a' b' (2 * p) (s + p * c * c)
  end.
Definition fellipk (m : float) : float := let '(a, _) := fagm 8 1 (sqrt (1 - m)) 1 0 in fpi / (2 * a).
Definition fellipe (m : float) : float :=
  let '(a, s) := fagm 8 1 (sqrt (1 - m)) 1 0 in fpi / (2 * a) * (1 - m / 2 - s).
(* Landen: amplitude *)
Fixpoint fam_up (n : nat) (a b : float) (cs : list (float * float)) : float * list (float * float) :=
  match n with
  | O => (a, cs)
  | S n' => let a' := (a + b) / 2 in let c' := (a - b) / 2 in
            fam_up n' a' (sqrt (a * b)) ((c', a') :: cs)
  end.
Definition fellipj (u m : float) : float * float * float * float :=
  let '(a, cs) := fam_up 8 1 (sqrt (1 - m)) [] in
  let phi := fold_left (fun ph '(c, a') => (ph + fasin (c / a' * fsin ph)) / 2) cs (256 * a * u) in
  (fsin phi, fcos phi, sqrt (1 - m * fsin phi * fsin phi), phi).
(* Carlson duplication *)
Fixpoint frf (n : nat) (x y z : float) : float :=
  match n with
  | O => 1 / sqrt ((x + y + z) / 3)
  | S n' => let l := sqrt x * sqrt y + sqrt y * sqrt z + sqrt z * sqrt x in
            frf n' ((x + l) / 4) ((y + l) / 4) ((z + l) / 4)
  end.
Definition frc (x y : float) : float :=
  if x =? y then 1 / sqrt x
  else if x <? y then fatan (sqrt ((y - x) / x)) / sqrt (y - x)
  else flog ((sqrt x + sqrt (x - y)) / sqrt y) / sqrt (x - y).
Fixpoint frj (n : nat) (x y z p f s : float) : float :=
  match n with
  | O => let mu := (x + y + z + 2 * p) / 5 in s + f / (mu * sqrt mu)
  | S n' =>
      let sx := sqrt x in let sy := sqrt y in let sz := sqrt z in let sp := sqrt p in
      let l := sx * sy + sy * sz + sz * sx in
      let d := (sp + sx) * (sp + sy) * (sp + sz) in
      let e0 := (p - x) * (p - y) * (p - z) / (d * d) in
      frj n' ((x + l) / 4) ((y + l) / 4) ((z + l) / 4) ((p + l) / 4) (f / 4)
          (s + 6 * f / d * frc 1 (1 + e0))
  end.
Definition felliprf x y z := frf 26 x y z.
Definition felliprj x y z p := frj 26 x y z p 1 0.
Definition felliprd x y z := frj 26 x y z z 1 0.
Definition fellipkinc (phi m : float) : float :=
  let s := fsin phi in let c := fcos phi in s * felliprf (c * c) (1 - m * s * s) 1.
Definition fellipeinc (phi m : float) : float :=
  (* valid for every phi by quarter-period reduction *)
  let k := ffloor (phi / fpi + 1 / 2) in
  let ph := phi - k * fpi in
  let s := fsin ph in let c := fcos ph in
  2 * k * fellipe m
  + s * felliprf (c * c) (1 - m * s * s) 1 - m * s * s * s / 3 * felliprd (c * c) (1 - m * s * s) 1.

Fixpoint fbisect (n : nat) (f : float -> float) (lo hi flo : float) : float :=
  match n with
  | O => (lo + hi) / 2
  | S n' => let mid := (lo + hi) / 2 in let fm := f mid in
            if fm =? 0 then mid
            else if 0 <? flo * fm then fbisect n' f mid hi fm else fbisect n' f lo mid flo
  end.
Definition froot_scalar (f : float -> float) (lo hi : float) : outcome float :=
  if 0 <? f lo * f hi then Raise (ValueError "f(a) and f(b) must have different signs")
  else if f lo =? 0 then Ret lo else if f hi =? 0 then Ret hi
  else Ret (fbisect 80 f lo hi (f lo)).

(* Durand-Kerner on complex pairs *)
Definition cpx := (float * float)%type.
Definition cadd (u v : cpx) : cpx := (fst u + fst v, snd u + snd v).
Definition csub (u v : cpx) : cpx := (fst u - fst v, snd u - snd v).
Definition cmul (u v : cpx) : cpx := (fst u * fst v - snd u * snd v, fst u * snd v + snd u * fst v).
Definition cdivf (u v : cpx) : cpx :=
  let d := fst v * fst v + snd v * snd v in
  ((fst u * fst v + snd u * snd v) / d, (snd u * fst v - fst u * snd v) / d).
Definition peval (cs : list float) (z : cpx) : cpx :=
  fold_right (fun c acc => cadd (c, 0) (cmul acc z)) (0, 0) cs.
Fixpoint dk_sweep (cs : list float) (done todo : list cpx) : list cpx :=
  match todo with
  | [] => rev done
  | z :: tl =>
      let den := fold_left (fun acc w => cmul acc (csub z w)) (done ++ tl) (1, 0) in
      dk_sweep cs (csub z (cdivf (peval cs z) den) :: done) tl
  end.
Fixpoint iter {A} (n : nat) (f : A -> A) (x : A) : A :=
  match n with O => x | S k => iter k f (f x) end.
Definition trim (cs : list float) : list float :=
  let fix go (l : list float) := match l with c :: tl => if c =? 0 then go tl else l | [] => [] end in
  rev (go (rev cs)).
Definition cle (u v : cpx) : bool := (fst u <? fst v) || ((fst u =? fst v) && (snd u <=? snd v)).
Fixpoint insert (z : cpx) (l : list cpx) : list cpx :=
  match l with [] => [z] | w :: tl => if cle z w then z :: l else w :: insert z tl end.
Definition clean (z : cpx) : cpx := if PrimFloat.abs (snd z) <? 0x1p-30 then (fst z, 0) else z.
Definition fpolyroots (cs0 : list float) : list (float * float) :=
  let cs1 := trim cs0 in
  let lead := List.last cs1 1 in
  let cs := map (fun c => c / lead) cs1 in
  let n := (List.length cs - 1)%nat in
  let start := map (fun k => iter k (fun z => cmul z (0x1.8p-2, 0x1.dp-1)) (1, 0)) (seq 0 n) in
  fold_right insert [] (map clean (iter 200 (dk_sweep cs []) start)).

#[global] Instance FExternal : External float := {
  ellipk := fellipk; ellipe := fellipe; ellipkinc := fellipkinc; ellipeinc := fellipeinc;
  ellipj := fellipj; elliprf := felliprf; elliprd := felliprd; elliprj := felliprj;
  root_scalar := froot_scalar; polyroots := fpolyroots
}.

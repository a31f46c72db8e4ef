(** * C84: the constants of motion depend continuously on the orbital parameters *)
From Coq Require Import Reals Lra Lia ZArith String List.
From Coquelicot Require Import Coquelicot.
From Verif Require Import Num Outcome External Checked ExternalSpec Spec SpecElliptic Elliptic.
From Verif Require Import Model_Constants P_Validation Props_Validation P_Bounds P_Schmidt P_Constants Props_Constants Props_Stability Props_Finite Props_Future Props_Restart P_Continuity.
Open Scope R_scope.

(** the periapsis equation alone, for nearly parabolic orbits *)
Definition qb (a x v E : R) : R := 2 * (a * x) * v^3 * E.
Definition qc (a x v E : R) : R := tf (a^2) (1 - x^2) v * E^2 - td (a^2) (1 - x^2) v.
Definition qq (a x v E : R) : R := (- qb a x v E + sqrt (qb a x v E ^2 + th (a^2) (1 - x^2) v * qc a x v E)) / th (a^2) (1 - x^2) v.
Lemma lim_pow (u : nat -> R) (l : R) k : is_lim_seq u l -> is_lim_seq (fun n => u n ^ k) (l ^ k).
Proof.
  intros H. induction k as [|k IH]; cbn [pow]; [apply is_lim_seq_const|]. exact (is_lim_seq_mult' u (fun n => u n ^ k) l (l ^ k) H IH).
Qed.
Lemma lim_sqrt (u : nat -> R) (l : R) : is_lim_seq u l -> is_lim_seq (fun n => sqrt (u n)) (sqrt l).
Proof. intros H. apply (is_lim_seq_continuous sqrt u l); [|exact H]. apply continuity_pt_filterlim. apply continuous_sqrt. Qed.
Lemma lim_opp (u : nat -> R) (l : R) : is_lim_seq u l -> is_lim_seq (fun n => - u n) (- l).
Proof. intros H. exact (proj1 (is_lim_seq_opp u l) H). Qed.
Ltac lim := cbv beta; match goal with
  | H : is_lim_seq ?u ?l |- is_lim_seq (fun n => ?u n) ?l => exact H
  | H : is_lim_seq ?u ?l |- is_lim_seq ?u ?l => exact H
  | |- is_lim_seq (fun _ => ?c) (Finite ?c) => exact (is_lim_seq_const c)
  | |- is_lim_seq (fun n => @?f n + @?g n) (Finite (?l + ?m)) => refine (is_lim_seq_plus' f g l m _ _); lim
  | |- is_lim_seq (fun n => @?f n - @?g n) (Finite (?l - ?m)) => refine (is_lim_seq_minus' f g l m _ _); lim
  | |- is_lim_seq (fun n => @?f n * @?g n) (Finite (?l * ?m)) => refine (is_lim_seq_mult' f g l m _ _); lim
  | |- is_lim_seq (fun n => @?f n ^ ?k) (Finite (?l ^ ?k)) => refine (lim_pow f l k _); lim
  | |- is_lim_seq (fun n => - @?f n) (Finite (- ?l)) => refine (lim_opp f l _); lim
  | |- is_lim_seq (fun n => sqrt (@?f n)) (Finite (sqrt ?l)) => refine (lim_sqrt f l _); lim
  end.
(** the building blocks are continuous *)
Section LimP.
Context (An Zn un vn : nat -> R) (A Z u v : R).
Context (LA : is_lim_seq An A) (LZ : is_lim_seq Zn Z) (Lu : is_lim_seq un u) (Lv : is_lim_seq vn v).
Lemma lim_kap : is_lim_seq (fun n => pkap (An n) (Zn n) (un n) (vn n)) (pkap A Z u v).
Proof. unfold pkap. lim. Qed.
Lemma lim_rho : is_lim_seq (fun n => prho (An n) (Zn n) (un n) (vn n)) (prho A Z u v).
Proof. unfold prho. lim. Qed.
Lemma lim_sig : is_lim_seq (fun n => psig (An n) (Zn n) (un n) (vn n)) (psig A Z u v).
Proof. unfold psig. lim. Qed.
Lemma lim_eps : is_lim_seq (fun n => peps (An n) (Zn n) (un n) (vn n)) (peps A Z u v).
Proof. unfold peps. lim. Qed.
Lemma lim_eta : is_lim_seq (fun n => peta (An n) (Zn n) (un n) (vn n)) (peta A Z u v).
Proof. unfold peta. lim. Qed.
Lemma lim_th : is_lim_seq (fun n => th (An n) (Zn n) (vn n)) (th A Z v).
Proof. unfold th. lim. Qed.
Lemma lim_tf : is_lim_seq (fun n => tf (An n) (Zn n) (vn n)) (tf A Z v).
Proof. unfold tf. lim. Qed.
Lemma lim_td : is_lim_seq (fun n => td (An n) (Zn n) (vn n)) (td A Z v).
Proof. unfold td. lim. Qed.
End LimP.
Section Lim.
Context (an xn un vn En : nat -> R) (a x u v E : R).
Context (La : is_lim_seq an a) (Lx : is_lim_seq xn x) (Lu : is_lim_seq un u) (Lv : is_lim_seq vn v) (LE : is_lim_seq En E).
Let LA : is_lim_seq (fun n => an n ^2) (a^2) := lim_pow an a 2 La.
Let LZ : is_lim_seq (fun n => 1 - xn n ^2) (1 - x^2) := is_lim_seq_minus' (fun _ => 1) (fun n => xn n ^2) 1 (x^2) (is_lim_seq_const 1) (lim_pow xn x 2 Lx).
Let Lkap := lim_kap (fun n => an n ^2) (fun n => 1 - xn n ^2) un vn _ _ _ _ LA LZ Lu Lv.
Let Lrho := lim_rho (fun n => an n ^2) (fun n => 1 - xn n ^2) un vn _ _ _ _ LA LZ Lu Lv.
Let Lsig := lim_sig (fun n => an n ^2) (fun n => 1 - xn n ^2) un vn _ _ _ _ LA LZ Lu Lv.
Let Leps := lim_eps (fun n => an n ^2) (fun n => 1 - xn n ^2) un vn _ _ _ _ LA LZ Lu Lv.
Let Leta := lim_eta (fun n => an n ^2) (fun n => 1 - xn n ^2) un vn _ _ _ _ LA LZ Lu Lv.
Lemma lim_eden : is_lim_seq (fun n => eden (an n) (xn n) (un n) (vn n)) (eden a x u v).
Proof. unfold eden. lim. Qed.
Lemma lim_enum : is_lim_seq (fun n => enum (an n) (xn n) (un n) (vn n)) (enum a x u v).
Proof. unfold enum, erad. cbv zeta. lim. Qed.
Lemma lim_ysq : psig (a^2) (1 - x^2) u v <> 0 -> is_lim_seq (fun n => ysq (an n) (xn n) (un n) (vn n) (En n)) (ysq a x u v E).
Proof. intros N. unfold ysq. apply is_lim_seq_div'; [lim|lim|exact N]. Qed.
Let Lth := lim_th (fun n => an n ^2) (fun n => 1 - xn n ^2) vn _ _ _ LA LZ Lv.
Let Ltf := lim_tf (fun n => an n ^2) (fun n => 1 - xn n ^2) vn _ _ _ LA LZ Lv.
Let Ltd := lim_td (fun n => an n ^2) (fun n => 1 - xn n ^2) vn _ _ _ LA LZ Lv.
Lemma lim_h : is_lim_seq (fun n => th (an n ^2) (1 - xn n ^2) (vn n)) (th (a^2) (1 - x^2) v).
Proof. exact Lth. Qed.
Lemma lim_qc : is_lim_seq (fun n => qc (an n) (xn n) (vn n) (En n)) (qc a x v E).
Proof. unfold qc. lim. Qed.
Lemma lim_qq : th (a^2) (1 - x^2) v <> 0 -> is_lim_seq (fun n => qq (an n) (xn n) (vn n) (En n)) (qq a x v E).
Proof. intros N. unfold qq. apply is_lim_seq_div'; [unfold qb, qc; lim|exact Lth|exact N]. Qed.
End Lim.

Section S.
Context {X : External R} (HR : root_spec X).
Lemma psig_pos a p e x E L Q : 0 <= a -> e < 1 ->
  constants_of_motion (Some a) (Some p) (Some e) (Some x) = Ret (Some E, Some L, Some Q) ->
  0 < psig (a^2) (1 - x^2) ((1 - e) / p) ((1 + e) / p).
Proof.
  intros Ha He1 HC. destruct (constants_inv _ _ _ _ _ _ _ Ha HC) as (HCK & _).
  destruct (accepted_bounds HR a p e x Ha HCK) as (Ha1 & He & Hx & Hr & HD & _ & _).
  assert (Pp : 0 < p). { replace p with (p / (1 + e) * (1 + e)) by (field; lra). apply Rmult_lt_0_compat; lra. }
  set (u := (1 - e) / p). set (v := (1 + e) / p).
  assert (Hu : 0 < u) by (apply Rdiv_lt_0_compat; lra). assert (Hv : 0 < v) by (apply Rdiv_lt_0_compat; lra).
  assert (UV : u <= v) by (unfold u, v; apply Rmult_le_compat_r; [left; apply Rinv_0_lt_compat; lra | lra]).
  assert (V1 : v < 1) by (unfold v; apply Rlt_div_l; [lra|]; apply Rlt_div_r in Hr; lra).
  unfold psig. assert (0 < u^2 * v^2) by (apply Rmult_lt_0_compat; apply pow_lt; assumption).
  assert (0 < u * v < 1) by nra. assert (0 <= x^2 <= 1) by nra. assert (0 <= a^2 < 1) by nra.
  assert (0 <= (1 - x^2) * a^2 < 1) by nra. apply Rmult_lt_0_compat; nra.
Qed.
Lemma unified_LQ a p e x E L Q : 0 <= a -> e < 1 ->
  constants_of_motion (Some a) (Some p) (Some e) (Some x) = Ret (Some E, Some L, Some Q) ->
  let y := ysq a x ((1 - e) / p) ((1 + e) / p) E in
  L = x * sqrt y /\ Q = (1 - x^2) * (a^2 * (1 - E^2) + y).
Proof.
  intros Ha He1 HC. pose proof (psig_pos _ _ _ _ _ _ _ Ha He1 HC) as PS.
  destruct (rows HR a p e x E L Q Ha He1 HC) as (y & Y1 & Y2 & Y3 & _).
  destruct (constants_correct HR a p e x E L Q Ha HC) as (_ & _ & _ & _ & _ & T6 & T7 & T8 & _).
  set (u := (1 - e) / p) in *. set (v := (1 + e) / p) in *. cbv zeta.
  assert (YE : ysq a x u v E = y). { unfold ysq. rewrite <- Y3. field. lra. }
  rewrite YE. split; [|exact Y2].
  destruct (Rtotal_order x 0) as [N|[N|N]].
  - assert (y = L^2 / x^2) as -> by (rewrite Y1; field; lra). specialize (T7 N). replace (L^2 / x^2) with ((L / x)^2) by (field; lra).
    rewrite sqrt_pow2; [field; lra|]. replace (L / x) with ((- L) / (- x)) by (field; lra). left. apply Rdiv_lt_0_compat; lra.
  - rewrite (T8 N), N. ring.
  - assert (y = L^2 / x^2) as -> by (rewrite Y1; field; lra). specialize (T6 N). replace (L^2 / x^2) with ((L / x)^2) by (field; lra).
    rewrite sqrt_pow2; [field; lra|]. left. apply Rdiv_lt_0_compat; lra.
Qed.
Lemma unified_periapsis a p e x E L Q : 0 <= a ->
  constants_of_motion (Some a) (Some p) (Some e) (Some x) = Ret (Some E, Some L, Some Q) ->
  let v := (1 + e) / p in th (a^2) (1 - x^2) v <> 0 -> 0 < qc a x v E ->
  L = x * qq a x v E /\ Q = (1 - x^2) * (a^2 * (1 - E^2) + qq a x v E ^2).
Proof.
  intros Ha HC v T0 C0. destruct (constants_inv _ _ _ _ _ _ _ Ha HC) as (HCK & HE & HL & HQ).
  destruct (accepted_bounds HR a p e x Ha HCK) as (Ha1 & He & Hx & Hr & HD & HP & _).
  destruct (constants_correct HR a p e x E L Q Ha HC) as (T1 & T2 & T3 & T4 & T5 & T6 & T7 & T8 & EP).
  assert (Pp : 0 < p). { replace p with (p / (1 + e) * (1 + e)) by (field; lra). apply Rmult_lt_0_compat; lra. }
  assert (Hv : 0 < v) by (apply Rdiv_lt_0_compat; lra).
  assert (RV : p / (1 + e) = 1 / v) by (unfold v; field; lra).
  set (h := th (a^2) (1 - x^2) v) in *. set (c := qc a x v E) in *. set (b := qb a x v E) in *.
  (* a root q of h q^2 + 2 b q - c with h q + b >= 0 *)
  assert (SOLVE : forall q, h * q^2 + 2 * b * q = c -> 0 <= h * q + b -> qq a x v E = q).
  { intros q K S. unfold qq. fold h c b. replace (b^2 + h * c) with ((h * q + b)^2) by (rewrite <- K; ring). rewrite sqrt_pow2 by exact S. field. exact T0. }
  assert (ROW : forall y, L^2 = x^2 * y -> Q = (1 - x^2) * (a^2 * (1 - E^2) + y) -> h * y + 4 * a * v^3 * (E * L) = c).
  { intros y Y1 Y2. pose proof (row_R a x E L Q y v ltac:(lra) Y1 Y2) as K. rewrite <- RV, T2 in K. unfold c, qc, h. lra. }
  assert (HPOS : x <= 0 -> 0 < h).
  { intros X0. specialize (HP X0). unfold h, th. assert (v < 2/5) by (unfold v; apply Rlt_div_l; lra).
    replace (v^2 - 2 * v^3 + (1 - x^2) * a^2 * v^4) with (v^2 * (1 - 2 * v + (1 - x^2) * (a * v)^2)) by ring.
    apply Rmult_lt_0_compat; [apply pow_lt; lra|]. assert (0 <= (1 - x^2) * (a * v)^2) by (apply Rmult_le_pos; [nra | apply pow2_ge_0]). lra. }
  destruct (Req_dec x 0) as [X0|X0].
  { specialize (HPOS ltac:(lra)). pose proof (ROW (Q - a^2 * (1 - E^2))) as K.
    rewrite (T8 X0) in *. rewrite X0 in K. specialize (K ltac:(ring) ltac:(ring)).
    assert (B0 : b = 0) by (unfold b, qb; rewrite X0; ring).
    assert (Y0 : 0 < Q - a^2 * (1 - E^2)). { apply (Rmult_lt_reg_l h); [exact HPOS|]. lra. }
    assert (QE : qq a x v E = sqrt (Q - a^2 * (1 - E^2))).
    { apply SOLVE; [rewrite pow2_sqrt by lra; rewrite B0; lra | rewrite B0, Rplus_0_r; apply Rmult_le_pos; [lra | apply sqrt_pos]]. }
    rewrite QE. rewrite pow2_sqrt by lra. rewrite X0. split; ring. }
  assert (QL : Q = (1 - x^2) * (a^2 * (1 - E^2) + L^2 / x^2)).
  { unfold polar_polynomial in T5. assert (x^2 <> 0) by now apply pow_nonzero.
    apply (Rmult_eq_reg_r (x^2)); [|assumption]. replace ((1 - x^2) * (a^2 * (1 - E^2) + L^2 / x^2) * x^2) with ((1 - x^2) * (a^2 * (1 - E^2) * x^2 + L^2)) by (field; exact X0). lra. }
  pose proof (ROW (L^2 / x^2) ltac:(field; exact X0) QL) as K.
  assert (QQ : qq a x v E = L / x).
  { apply SOLVE.
    - rewrite <- K. unfold b, qb. field. exact X0.
    - assert (LX : 0 < L / x).
      { destruct (Rtotal_order x 0) as [N|[N|N]]; [|contradiction|apply Rdiv_lt_0_compat; auto].
        replace (L / x) with ((- L) / (- x)) by (field; lra). apply Rdiv_lt_0_compat; [specialize (T7 N)|]; lra. }
      destruct (Rlt_le_dec 0 h) as [H0|H0].
      + (* one positive root *)
        destruct (Rlt_le_dec (h * (L / x) + b) 0) as [N|N]; [exfalso|exact N].
        assert (K2 : L / x * (h * (L / x) + 2 * b) = c) by (rewrite <- K; unfold b, qb; field; exact X0).
        assert (h * (L / x) + 2 * b < 0). { assert (0 < h * (L / x)) by (apply Rmult_lt_0_compat; assumption). lra. }
        assert (L / x * (h * (L / x) + 2 * b) < 0) by nra. lra.
      + (* inside the ergosphere *)
        assert (XP : 0 < x) by (destruct (Rle_lt_dec x 0) as [N|N]; [specialize (HPOS N); lra | exact N]).
        assert (HN : h < 0) by lra. specialize (T6 XP). set (r := p / (1 + e)) in *.
        assert (HB : x * (h * (L / x) + b) = v^4 * (x^2 * (ch a (x^2) r * L + cg a r * E))).
        { rewrite RV. destruct (coef_u a x v ltac:(lra) X0) as (_ & -> & -> & _). fold h. unfold b, qb, tg. field. split; lra. }
        assert (G : 0 <= ch a (x^2) r * L + cg a r * E).
        { destruct (Req_dec e 1) as [E1|E1].
          - rewrite angular_momentum_run in HL by assumption. apply Ret_inj in HL. rewrite (Reqb_false x 0 X0), (Reqb_true e 1 E1) in HL.
            rewrite cdiv_some in HL by lra. rewrite coefficients_some in HL by assumption. apply schmidt_L_inv in HL as (Hh & _ & LE). fold r in Hh, LE.
            match type of LE with context [sqrt ?t] => assert (SQ : 0 <= sqrt t) by apply sqrt_pos; replace (ch a (x^2) r * L + cg a r * E) with (Rsgn x * sqrt t) by (rewrite LE; field; exact Hh) end.
            rewrite Rsgn_pos by exact XP. lra.
          - assert (He1 : e < 1) by lra.
            pose proof (orbit_quad HR a p e x E L Q Ha He1 HC) as OQ. cbv zeta in OQ.
            destruct (orbit_bound HR a p e x E L Q Ha He1 HC) as (HE1 & Q0 & _).
            destruct (orbit_roots HR a p e x E L Q Ha He1 HC) as (_ & R4 & R3 & R21 & SM & PR).
            assert (PP : 0 < E * (r^2 + a^2) - a * L).
            { fold r in OQ, R4, R3, R21, SM, PR.
              set (r3 := (2 / (1 - E^2) - p / (1 - e) - r + sqrt ((2 / (1 - E^2) - p / (1 - e) - r)^2 - 4 * (a^2 * Q / (p / (1 - e) * r * (1 - E^2))))) / 2) in *.
              set (r4 := (2 / (1 - E^2) - p / (1 - e) - r - sqrt ((2 / (1 - E^2) - p / (1 - e) - r)^2 - 4 * (a^2 * Q / (p / (1 - e) * r * (1 - E^2))))) / 2) in *.
              clearbody r3 r4. assert (0 <= sqrt (1 - a^2)) by apply sqrt_pos.
              apply (P_pos_r2 a E L Q (p / (1 - e)) r r3 r4); try lra; try assumption; try nra.
              intros s. rewrite OQ, <- SM, <- PR. ring. }
            assert (IDN : ch a (x^2) r * L + cg a r * E = (L / x^2 - a * E) * Delta a r + a * (E * (r^2 + a^2) - a * L)) by (unfold ch, cg, Delta; field; exact X0).
            rewrite IDN. destruct (Rle_lt_dec (a * E) (L / x^2)) as [M|M].
            + assert (0 <= (L / x^2 - a * E) * Delta a r) by (apply Rmult_le_pos; lra). assert (0 <= a * (E * (r^2 + a^2) - a * L)) by (apply Rmult_le_pos; lra). lra.
            + set (m := a * E - L / x^2) in *. assert (M0 : 0 < m) by (unfold m; lra).
              assert (LLX : L <= L / x^2). { apply Rle_div_r; [apply pow_lt; lra|]. assert (x^2 <= 1) by nra. nra. }
              assert (RZ : radial_potential a E L Q r = 0) by exact T2.
              set (P := E * (r^2 + a^2) - a * L) in *. unfold radial_potential in RZ. fold P in RZ.
              assert (P2 : Delta a r * m^2 <= P^2).
              { replace (P^2) with (Delta a r * (r^2 + (L - a * E)^2 + Q)) by lra. apply Rmult_le_compat_l; [lra|].
                assert (m^2 <= (L - a * E)^2) by (replace ((L - a * E)^2) with ((a * E - L)^2) by ring; apply pow_incr; unfold m; split; lra). pose proof (pow2_ge_0 r). lra. }
              assert (DA : Delta a r <= a^2).
              { assert (VR : v = 1 / r) by (rewrite RV; field; lra). assert (HH : h = (r^2 - 2 * r + (1 - x^2) * a^2) / r^4) by (unfold h, th; rewrite VR; field; lra).
                assert (0 < r^4) by (apply pow_lt; lra). assert (N2 : r^2 - 2 * r + (1 - x^2) * a^2 < 0).
                { apply Rnot_le_lt. intros N. assert (0 <= h); [|lra]. rewrite HH. apply Rmult_le_pos; [exact N | left; apply Rinv_0_lt_compat; assumption]. }
                unfold Delta. assert (0 <= (1 - x^2) * a^2) by (apply Rmult_le_pos; [nra | apply pow2_ge_0]). lra. }
              assert (DM : Delta a r * m <= a * P).
              { apply Rsqr_incr_0_var; [|apply Rmult_le_pos; lra]. unfold Rsqr.
                assert (K3 : (Delta a r * m) * (Delta a r * m) <= a^2 * (Delta a r * m^2)) by (replace ((Delta a r * m) * (Delta a r * m)) with (Delta a r * (Delta a r * m^2)) by ring; apply Rmult_le_compat_r; [apply Rmult_le_pos; [lra | apply pow2_ge_0] | exact DA]).
                assert (K4 : a^2 * (Delta a r * m^2) <= a^2 * P^2) by (apply Rmult_le_compat_l; [apply pow2_ge_0 | exact P2]). lra. }
              replace ((L / x^2 - a * E) * Delta a r) with (- (Delta a r * m)) by (unfold m; ring). lra. }
        apply (Rmult_le_reg_l x); [exact XP|]. rewrite Rmult_0_r, HB. apply Rmult_le_pos; [apply pow_le; lra|]. apply Rmult_le_pos; [apply pow2_ge_0 | exact G]. }
  rewrite QQ. split; [field; exact X0|]. rewrite QL. field. exact X0.
Qed.
(** both signs of the spin: E and Q depend on a^2, x^2 and a x only, L changes sign with a *)
Lemma std_products a x : Rabs a ^2 = a^2 /\ (x * spin_sign a)^2 = x^2 /\ Rabs a * (x * spin_sign a) = a * x.
Proof.
  split; [apply pow2_abs|]. unfold spin_sign. destruct (Rlt_dec a 0).
  - rewrite Rabs_left by assumption. split; ring.
  - rewrite Rabs_pos_eq by lra. split; ring.
Qed.
Lemma general a p e x E L Q : constants_of_motion (Some a) (Some p) (Some e) (Some x) = Ret (Some E, Some L, Some Q) ->
  let u := (1 - e) / p in let v := (1 + e) / p in
  0 < p /\ e <= 1 /\ 0 < E /\ eden a x u v <> 0 /\ E^2 * eden a x u v = enum a x u v /\
  (e < 1 -> psig (a^2) (1 - x^2) u v <> 0 /\ L = x * spin_sign a * sqrt (ysq a x u v E) /\ Q = (1 - x^2) * (a^2 * (1 - E^2) + ysq a x u v E)) /\
  (th (a^2) (1 - x^2) v <> 0 -> 0 < qc a x v E -> L = x * spin_sign a * qq a x v E /\ Q = (1 - x^2) * (a^2 * (1 - E^2) + qq a x v E ^2)) /\
  (e = 1 -> E = 1 /\ th (a^2) (1 - x^2) v <> 0 /\ 0 < qc a x v 1).
Proof.
  rewrite constants_std. intros HC u v. destruct (std_products a x) as (S1 & S2 & S3).
  pose proof (unified_E HR _ _ _ _ _ _ _ (Rabs_pos a) HC) as (P0 & E0 & N0 & EE).
  destruct (constants_inv _ _ _ _ _ _ _ (Rabs_pos a) HC) as (HCK & HE & HL & _).
  destruct (accepted_bounds HR _ p e _ (Rabs_pos a) HCK) as (Ha1 & He & Hx & _).
  split; [exact P0|]. split; [lra|]. split; [exact E0|].
  fold u v in N0, EE. unfold eden, enum, erad in N0, EE. rewrite S1, S2, S3 in N0, EE.
  split; [exact N0|]. split; [exact EE|]. split; [|split].
  - intros He1. pose proof (psig_pos _ _ _ _ _ _ _ (Rabs_pos a) He1 HC) as PS. rewrite S1, S2 in PS. fold u v in PS.
    destruct (unified_LQ _ _ _ _ _ _ _ (Rabs_pos a) He1 HC) as [K1 K2]. cbv zeta in K1, K2. unfold ysq in K1, K2. rewrite S1, S2 in K1, K2. fold u v in K1, K2.
    refine (conj _ (conj K1 K2)). lra.
  - intros T0 C0. pose proof (unified_periapsis _ _ _ _ _ _ _ (Rabs_pos a) HC) as K. cbv zeta in K. unfold qq, qb, qc in K. rewrite S1, S2, S3 in K. exact (K T0 C0).
  - intros E1. destruct (constants_correct HR _ p e _ E L Q (Rabs_pos a) HC) as (_ & _ & _ & T4 & _). specialize (T4 E1). split; [exact T4|].
    assert (V0 : 0 < v) by (apply Rdiv_lt_0_compat; lra). split.
    + intros Z. apply N0. assert (U0 : u = 0) by (unfold u; rewrite E1; field; lra). rewrite U0.
      replace (prho (a^2) (1 - x^2) 0 v) with (- (th (a^2) (1 - x^2) v) / v) by (unfold prho, th; field; lra). rewrite Z.
      replace (psig (a^2) (1 - x^2) 0 v) with 0 by (unfold psig; ring). unfold Rdiv. ring.
    + unfold qc. replace (tf (a^2) (1 - x^2) v * 1^2 - td (a^2) (1 - x^2) v) with (2 * v * (1 + (a * v)^2)) by (unfold tf, td; ring).
      pose proof (pow2_ge_0 (a * v)). apply Rmult_lt_0_compat; lra.
Qed.
Lemma eventually_close (u : nat -> R) (l d : R) : is_lim_seq u l -> 0 < d -> Hierarchy.eventually (fun n => Rabs (u n - l) < d).
Proof. intros H D. apply is_lim_seq_spec in H. exact (H (mkposreal d D)). Qed.

Theorem C84_constants_continuous (an pn en xn En Ln Qn : nat -> R) (a p e x E L Q : R) :
  is_lim_seq an a -> is_lim_seq pn p -> is_lim_seq en e -> is_lim_seq xn x ->
  (forall n, constants_of_motion (Some (an n)) (Some (pn n)) (Some (en n)) (Some (xn n)) = Ret (Some (En n), Some (Ln n), Some (Qn n))) ->
  constants_of_motion (Some a) (Some p) (Some e) (Some x) = Ret (Some E, Some L, Some Q) ->
  is_lim_seq En E /\ is_lim_seq Qn Q /\
  (a <> 0 \/ (forall n, 0 <= an n) -> is_lim_seq Ln L) /\
  (* from below, zero spin is approached with the orbit reversed *)
  (a = 0 -> (forall n, an n < 0) -> is_lim_seq Ln (- L)).
Proof.
  intros La Lp Le Lx Hn H0. destruct (general _ _ _ _ _ _ _ H0) as (P0 & E1 & EP & N0 & EE & EL & QL & PL).
  assert (GN : forall n, _) by exact (fun n => general _ _ _ _ _ _ _ (Hn n)). cbv zeta in GN.
  set (u := (1 - e) / p) in *. set (v := (1 + e) / p) in *.
  set (un := fun n => (1 - en n) / pn n). set (vn := fun n => (1 + en n) / pn n).
  assert (Lu : is_lim_seq un u). { unfold un, u. apply is_lim_seq_div'; [lim | exact Lp | lra]. }
  assert (Lv : is_lim_seq vn v). { unfold vn, v. apply is_lim_seq_div'; [lim | exact Lp | lra]. }
  assert (LE : is_lim_seq En E).
  { assert (ES : E = sqrt (enum a x u v / eden a x u v)). { rewrite <- EE. replace (E^2 * eden a x u v / eden a x u v) with (E^2) by (field; exact N0). rewrite sqrt_pow2 by lra. reflexivity. }
    rewrite ES. apply (is_lim_seq_ext (fun n => sqrt (enum (an n) (xn n) (un n) (vn n) / eden (an n) (xn n) (un n) (vn n)))).
    - intros n. destruct (GN n) as (_ & _ & EPn & N0n & EEn & _). unfold un, vn. rewrite <- EEn.
      match goal with |- sqrt (_ * ?d / _) = _ => replace (En n ^2 * d / d) with (En n ^2) by (field; exact N0n) end. apply sqrt_pow2. lra.
    - apply lim_sqrt. apply is_lim_seq_div'; [apply lim_enum | apply lim_eden | exact N0]; assumption. }
  split; [exact LE|].
  (* L = x spin_sign(a) W and Q = (1-x^2)(a^2(1-E^2)+V) with W and V continuous *)
  assert (WV : exists (Wn Vn : nat -> R) (W V : R), is_lim_seq Wn W /\ is_lim_seq Vn V /\
    L = x * spin_sign a * W /\ Q = (1 - x^2) * (a^2 * (1 - E^2) + V) /\
    Hierarchy.eventually (fun n => Ln n = xn n * spin_sign (an n) * Wn n /\ Qn n = (1 - xn n ^2) * (an n ^2 * (1 - En n ^2) + Vn n))).
  { destruct (Rle_lt_or_eq_dec _ _ E1) as [He1|He1].
    - destruct (EL He1) as (S0 & K1 & K2).
      exists (fun n => sqrt (ysq (an n) (xn n) (un n) (vn n) (En n))), (fun n => ysq (an n) (xn n) (un n) (vn n) (En n)), (sqrt (ysq a x u v E)), (ysq a x u v E).
      assert (LY : is_lim_seq (fun n => ysq (an n) (xn n) (un n) (vn n) (En n)) (ysq a x u v E)) by (apply lim_ysq; assumption).
      refine (conj (lim_sqrt _ _ LY) (conj LY (conj K1 (conj K2 _)))).
      destruct (eventually_close en e (1 - e) Le ltac:(lra)) as [n0 B]. exists n0. intros n Hnn. specialize (B n Hnn). apply Rabs_def2 in B.
      destruct (GN n) as (_ & _ & _ & _ & _ & ELn & _). destruct (ELn ltac:(lra)) as (_ & K3 & K4). exact (conj K3 K4).
    - destruct (PL He1) as (EV & T0 & C0). rewrite <- EV in C0. destruct (QL T0 C0) as [K1 K2].
      assert (LQ : is_lim_seq (fun n => qq (an n) (xn n) (vn n) (En n)) (qq a x v E)) by (apply lim_qq; assumption).
      exists (fun n => qq (an n) (xn n) (vn n) (En n)), (fun n => qq (an n) (xn n) (vn n) (En n) ^2), (qq a x v E), (qq a x v E ^2).
      refine (conj LQ (conj (lim_pow _ _ 2 LQ) (conj K1 (conj K2 _)))).
      assert (LH : is_lim_seq (fun n => th (an n ^2) (1 - xn n ^2) (vn n)) (th (a^2) (1 - x^2) v)) by (apply lim_h; assumption).
      assert (LC : is_lim_seq (fun n => qc (an n) (xn n) (vn n) (En n)) (qc a x v E)) by (apply lim_qc; assumption).
      destruct (eventually_close _ _ _ LH (Rabs_pos_lt _ T0)) as [n1 B1]. destruct (eventually_close _ _ _ LC C0) as [n2 B2].
      exists (Nat.max n1 n2). intros n Hnn. specialize (B1 n ltac:(lia)). specialize (B2 n ltac:(lia)). cbv beta in B1, B2. apply Rabs_def2 in B2.
      destruct (GN n) as (_ & _ & _ & _ & _ & _ & QLn & _). apply QLn.
      + intros Z. unfold vn in B1. rewrite Z in B1. rewrite Rminus_0_l, Rabs_Ropp in B1. lra.
      + fold (vn n). lra. }
  destruct WV as (Wn & Vn & W & V & LW & LV & KL & KQ & [n0 EV]).
  assert (LQ : is_lim_seq Qn Q).
  { rewrite KQ. apply (is_lim_seq_ext_loc (fun n => (1 - xn n ^2) * (an n ^2 * (1 - En n ^2) + Vn n))); [|lim].
    exists n0. intros n Hnn. symmetry. apply EV. exact Hnn. }
  split; [exact LQ|]. split.
  - intros [A0|A0].
    + rewrite KL. apply (is_lim_seq_ext_loc (fun n => xn n * spin_sign a * Wn n)); [|lim].
      destruct (eventually_close an a (Rabs a) La (Rabs_pos_lt _ A0)) as [n1 B]. exists (Nat.max n0 n1). intros n Hnn.
      destruct (EV n ltac:(lia)) as [-> _]. specialize (B n ltac:(lia)).
      assert (SS : spin_sign (an n) = spin_sign a). { revert B. unfold spin_sign. unfold Rabs at 2. destruct (Rcase_abs a); intros B; apply Rabs_def2 in B; destruct (Rlt_dec (an n) 0), (Rlt_dec a 0); lra. }
      rewrite SS. reflexivity.
    + assert (A1 : 0 <= a). { pose proof (is_lim_seq_le (fun _ => 0) an 0 a A0 (is_lim_seq_const 0) La) as K. exact K. }
      assert (SP : forall t, 0 <= t -> spin_sign t = 1) by (intros t Ht; unfold spin_sign; destruct (Rlt_dec t 0); lra).
      rewrite KL, (SP a A1). apply (is_lim_seq_ext_loc (fun n => xn n * 1 * Wn n)); [|lim].
      exists n0. intros n Hnn. destruct (EV n Hnn) as [-> _]. rewrite (SP _ (A0 n)). reflexivity.
  - intros A0 AN. assert (SP : spin_sign a = 1) by (unfold spin_sign; destruct (Rlt_dec a 0); lra).
    rewrite KL, SP. replace (- (x * 1 * W)) with (x * -1 * W) by ring. apply (is_lim_seq_ext_loc (fun n => xn n * -1 * Wn n)); [|lim].
    exists n0. intros n Hnn. destruct (EV n Hnn) as [-> _]. specialize (AN n). unfold spin_sign. destruct (Rlt_dec (an n) 0); [reflexivity|lra].
Qed.
(** Non-vacuity, and the reversal at zero spin: a_n = -1/(n+2) -> 0, e_n = 1/(n+2) -> 0 (so the general formulas tend to the special cases), p = 20, x = 1/2 *)
Theorem C84_refuted_across_zero_spin (HX : special_spec X) : exists an en En Ln Qn (E L Q : R),
  is_lim_seq an 0 /\ is_lim_seq en 0 /\
  (forall n, constants_of_motion (Some (an n)) (Some 20) (Some (en n)) (Some (1/2)) = Ret (Some (En n), Some (Ln n), Some (Qn n))) /\
  constants_of_motion (Some 0) (Some 20) (Some 0) (Some (1/2)) = Ret (Some E, Some L, Some Q) /\
  0 < L /\ is_lim_seq En E /\ is_lim_seq Qn Q /\ is_lim_seq Ln (- L).
Proof.
  set (w := fun n : nat => / (INR n + 2)).
  assert (W0 : forall n, 0 < w n <= 1/2). { intros n. unfold w. pose proof (pos_INR n). split; [apply Rinv_0_lt_compat; lra|]. replace (1/2) with (/ 2) by field. apply Rinv_le_contravar; lra. }
  assert (LW : is_lim_seq w 0).
  { unfold w. replace (Finite 0) with (Rbar_inv p_infty) by reflexivity. apply is_lim_seq_inv; [|discriminate].
    apply (is_lim_seq_plus INR (fun _ => 2) p_infty 2 p_infty); [apply is_lim_seq_INR | apply is_lim_seq_const | reflexivity]. }
  set (cn := fun n => constants_of_motion (Some (- w n)) (Some 20) (Some (w n)) (Some (1/2))).
  assert (CN : forall n, exists E L Q, cn n = Ret (Some E, Some L, Some Q)).
  { intros n. specialize (W0 n). unfold cn. rewrite constants_std. assert (S1 : spin_sign (- w n) = -1) by (unfold spin_sign; destruct (Rlt_dec (- w n) 0); lra).
    rewrite S1, Rabs_Ropp, Rabs_pos_eq by lra. replace (1/2 * -1) with (-1/2) by field.
    destruct (far_retrograde HX HR (w n) 20 (w n) (-1/2)) as (E & L & Q & _ & _ & _ & _ & HC & _); try lra. eauto. }
  set (get := fun (f : R -> R -> R -> R) n => match cn n with Ret (Some E, Some L, Some Q) => f E L Q | _ => 0 end).
  assert (CS : exists E L Q, constants_of_motion (Some 0) (Some 20) (Some 0) (Some (1/2)) = Ret (Some E, Some L, Some Q)).
  { rewrite (schwarzschild_constants 20 0 (1/2)) by lra. do 3 eexists. reflexivity. }
  destruct CS as (E & L & Q & HC).
  assert (GE : forall n, constants_of_motion (Some (- w n)) (Some 20) (Some (w n)) (Some (1/2)) = Ret (Some (get (fun E _ _ => E) n), Some (get (fun _ L _ => L) n), Some (get (fun _ _ Q => Q) n))).
  { intros n. fold (cn n). unfold get. destruct (CN n) as (En & Ln & Qn & ->). reflexivity. }
  assert (LN : is_lim_seq (fun n => - w n) 0). { replace 0 with (- 0) by ring. apply lim_opp. exact LW. }
  destruct (C84_constants_continuous (fun n => - w n) (fun _ => 20) w (fun _ => 1/2) _ _ _ 0 20 0 (1/2) E L Q LN (is_lim_seq_const 20) LW (is_lim_seq_const (1/2)) GE HC) as (K1 & K2 & _ & K3).
  exists (fun n => - w n), w, (get (fun E _ _ => E)), (get (fun _ L _ => L)), (get (fun _ _ Q => Q)), E, L, Q.
  refine (conj LN (conj LW (conj GE (conj HC (conj _ (conj K1 (conj K2 (K3 eq_refl _)))))))).
  - destruct (constants_correct HR 0 20 0 (1/2) E L Q ltac:(lra) HC) as (_ & _ & _ & _ & _ & T6 & _). apply T6. lra.
  - intros n. specialize (W0 n). lra.
Qed.
End S.
Print Assumptions C84_refuted_across_zero_spin.
Print Assumptions C84_constants_continuous.

(** * Properties C32-C35: units and frequencies in physical units *)
From Coq Require Import Reals Lra ZArith String List Lia Bool.
From Verif Require Import Num Outcome External Checked Model_Units Model_Constants
  Model_Frequencies Model_Stable Model_Plunge Model_Orbit.
Import ListNotations.
Open Scope R_scope.

(** ** SI constants, independently of the model *)
Definition c_SI : R := 299792458.                      (* m / s *)
Definition G_SI : R := 667408 / 10 ^ 16.               (* 6.67408e-11 m^3 / kg s^2 *)
Definition Msun_SI : R := 198847 * 10 ^ 25.            (* 1.98847e30 kg *)

Lemma c_SI_nz : c_SI <> 0. Proof. unfold c_SI. lra. Qed.
Lemma G_SI_nz : G_SI <> 0. Proof. unfold G_SI. lra. Qed.
Lemma Msun_SI_nz : Msun_SI <> 0. Proof. unfold Msun_SI. lra. Qed.
Lemma c_light_R : c_light = Some c_SI. Proof. reflexivity. Qed.
Lemma G_newton_R : G_newton = Some G_SI.
Proof. unfold G_newton, G_SI. simpl. f_equal. lra. Qed.
Lemma solar_mass_R : solar_mass = Some Msun_SI.
Proof. unfold solar_mass, Msun_SI. simpl. f_equal. lra. Qed.

Ltac units_unfold :=
  unfold distance_in_cm, distance_in_km, distance_in_lightyears, distance_in_au,
    time_in_days, energy_in_ergs, angular_momentum_in_cgs, carter_constant_in_cgs,
    frequency_in_mHz;
  unfold distance_in_meters, time_in_seconds, time2_in_seconds2, energy_in_joules,
    angular_momentum_in_mks, carter_constant_in_mks, frequency_in_Hz;
  unfold mass_in_kg; rewrite ?solar_mass_R, ?c_light_R, ?G_newton_R; cnum.
Ltac units :=
  units_unfold;
  repeat (rewrite cdiv_some by
    (first [ apply c_SI_nz | apply G_SI_nz | apply pow_nonzero; apply c_SI_nz
           | apply Rmult_integral_contrapositive_currified; [assumption | apply Msun_SI_nz]
           | lra ]); cnum).

(** ** C32: every conversion is the textbook one, is defined for all inputs
    (frequencies: M <> 0) and linear *)
Theorem C32_conversions :
  forall x M,
  let kg := M * Msun_SI in
  mass_in_kg (Some M) = Some kg /\
  distance_in_meters (Some x) (Some M) = Some (x * (G_SI * kg / c_SI ^ 2)) /\
  distance_in_cm (Some x) (Some M) = Some (100 * (x * (G_SI * kg / c_SI ^ 2))) /\
  distance_in_km (Some x) (Some M) = Some (x * (G_SI * kg / c_SI ^ 2) / 1000) /\
  distance_in_lightyears (Some x) (Some M) = Some (x * (G_SI * kg / c_SI ^ 2) / (9461 * 10 ^ 12)) /\
  distance_in_au (Some x) (Some M) = Some (x * (G_SI * kg / c_SI ^ 2) / (1496 * 10 ^ 8)) /\
  time_in_seconds (Some x) (Some M) = Some (x * (G_SI * kg / c_SI ^ 3)) /\
  time_in_days (Some x) (Some M) = Some (x * (G_SI * kg / c_SI ^ 3) / (24 * 60 * 60)) /\
  time2_in_seconds2 (Some x) (Some M) = Some (x * (G_SI * kg / c_SI ^ 3) ^ 2) /\
  energy_in_joules (Some x) (Some M) = Some (x * (kg * c_SI ^ 2)) /\
  energy_in_ergs (Some x) (Some M) = Some (10 ^ 7 * (x * (kg * c_SI ^ 2))) /\
  angular_momentum_in_mks (Some x) (Some M) = Some (x * (G_SI * kg ^ 2 / c_SI)) /\
  angular_momentum_in_cgs (Some x) (Some M) = Some (10 ^ 7 * (x * (G_SI * kg ^ 2 / c_SI))) /\
  carter_constant_in_mks (Some x) (Some M) = Some (x * (G_SI * kg ^ 2 / c_SI) ^ 2) /\
  carter_constant_in_cgs (Some x) (Some M) = Some (10 ^ 14 * (x * (G_SI * kg ^ 2 / c_SI) ^ 2)) /\
  (M <> 0 ->
   frequency_in_Hz (Some x) (Some M) = Some (x / (G_SI * kg / c_SI ^ 3)) /\
   frequency_in_mHz (Some x) (Some M) = Some (1000 * (x / (G_SI * kg / c_SI ^ 3)))).
Proof.
  intros x M. cbv zeta.
  assert (H1 := c_SI_nz). assert (H2 := G_SI_nz). assert (H3 := Msun_SI_nz).
  repeat split; intros; units; try (f_equal; field; auto);
    try (f_equal; field_simplify; auto; fail).
Qed.
Print Assumptions C32_conversions.

(** mutual consistency, stated between the conversion functions themselves *)
Definition omul (x y : option R) : option R := nmul x y.
Theorem C32_consistency :
  forall x y M, M <> 0 ->
  let X := Some x in let Y := Some y in let m := Some M in
  (* linearity *)
  distance_in_meters (Some (x + y)) m = nadd (distance_in_meters X m) (distance_in_meters Y m) /\
  time_in_seconds (Some (x + y)) m = nadd (time_in_seconds X m) (time_in_seconds Y m) /\
  energy_in_joules (Some (x + y)) m = nadd (energy_in_joules X m) (energy_in_joules Y m) /\
  angular_momentum_in_mks (Some (x + y)) m
    = nadd (angular_momentum_in_mks X m) (angular_momentum_in_mks Y m) /\
  carter_constant_in_mks (Some (x + y)) m
    = nadd (carter_constant_in_mks X m) (carter_constant_in_mks Y m) /\
  frequency_in_Hz (Some (x + y)) m = nadd (frequency_in_Hz X m) (frequency_in_Hz Y m) /\
  (* unit systems *)
  distance_in_cm X m = omul (Some 100) (distance_in_meters X m) /\
  omul (Some 1000) (distance_in_km X m) = distance_in_meters X m /\
  energy_in_ergs X m = omul (Some (10 ^ 7)) (energy_in_joules X m) /\
  angular_momentum_in_cgs X m = omul (Some (10 ^ 7)) (angular_momentum_in_mks X m) /\
  carter_constant_in_cgs X m = omul (Some (10 ^ 14)) (carter_constant_in_mks X m) /\
  frequency_in_mHz X m = omul (Some 1000) (frequency_in_Hz X m) /\
  omul (Some 86400) (time_in_days X m) = time_in_seconds X m /\
  (* dimensions *)
  distance_in_meters X m = omul (Some c_SI) (time_in_seconds X m) /\
  omul (frequency_in_Hz X m) (time_in_seconds Y m) = Some (x * y) /\
  omul (energy_in_joules X m) (time_in_seconds Y m) = angular_momentum_in_mks (Some (x * y)) m /\
  omul (angular_momentum_in_mks X m) (angular_momentum_in_mks Y m)
    = carter_constant_in_mks (Some (x * y)) m /\
  omul (time_in_seconds X m) (time_in_seconds Y m) = time2_in_seconds2 (Some (x * y)) m.
Proof.
  intros x y M HM. cbv zeta. unfold omul.
  assert (H1 := c_SI_nz). assert (H2 := G_SI_nz). assert (H3 := Msun_SI_nz).
  repeat split; units; f_equal; field; auto.
Qed.
Print Assumptions C32_consistency.
Example C32_example : (10 : R) <> 0. Proof. lra. Qed.

(** ** C33: physical units *)
Section C33.
Context {T : Type} {N : Num T} {X : External T}.

Theorem C33_stable_trajectory_needs_M :
  forall (a p e x : T) ph du tu, (du <> "natural" \/ tu <> "natural")%string ->
  stable_trajectory a p e x ph None du tu = Raise (ValueError msg_traj_M).
Proof.
  intros a p e x ph du tu H. unfold stable_trajectory, check_units.
  assert (E : (negb (du =? "natural")%string || negb (tu =? "natural")%string)%bool = true).
  { apply orb_true_iff. destruct H as [H|H]; [left|right]; apply negb_true_iff;
    now apply String.eqb_neq. }
  now rewrite E.
Qed.

(** the plunging front end looks at the roots first; when they are found the same
    error is raised *)
Theorem C33_plunging_trajectory_needs_M :
  forall (a E L Q : T) ph du tu rts, (du <> "natural" \/ tu <> "natural")%string ->
  plunging_radial_roots a E L Q = Ret rts ->
  plunging_trajectory a E L Q ph None du tu = Raise (ValueError msg_traj_M).
Proof.
  intros a E L Q ph du tu rts H Hr. unfold plunging_trajectory. rewrite Hr. cbn [bind].
  assert (Ec : check_units (T := T) None du tu = Raise (ValueError msg_traj_M)).
  { unfold check_units.
    assert (Eb : (negb (du =? "natural")%string || negb (tu =? "natural")%string)%bool = true).
    { apply orb_true_iff. destruct H as [H|H]; [left|right]; apply negb_true_iff;
      now apply String.eqb_neq. }
    now rewrite Eb. }
  unfold complex_plunge_trajectory, real_plunge_trajectory. rewrite Ec.
  destruct rts; reflexivity.
Qed.

(** with M given (or natural units) the unit check never fires *)
Theorem C33_units_with_M :
  forall (M : option T) du tu,
  (M <> None \/ (du = "natural" /\ tu = "natural")%string) -> check_units M du tu = Ret tt.
Proof.
  intros M du tu [H | [-> ->]]; unfold check_units; [|reflexivity].
  destruct M; [|congruence].
  destruct (_ || _)%bool; reflexivity.
Qed.

Definition known_distance_unit (u : string) : Prop :=
  In u ["natural"; "mks"; "cgs"; "au"; "km"]%string.
Definition known_time_unit (u : string) : Prop :=
  In u ["natural"; "mks"; "cgs"; "days"]%string.

Lemma time_conversion_unknown u : ~ known_time_unit u -> @time_conversion T N u = Raise KeyError.
Proof.
  unfold known_time_unit, time_conversion. intros H. simpl in H.
  repeat match goal with |- context [(u =? ?s)%string] =>
    destruct (String.eqb_spec u s); [exfalso; subst; tauto|] end. reflexivity.
Qed.
Lemma distance_conversion_unknown u :
  ~ known_distance_unit u -> @distance_conversion T N u = Raise KeyError.
Proof.
  unfold known_distance_unit, distance_conversion. intros H. simpl in H.
  repeat match goal with |- context [(u =? ?s)%string] =>
    destruct (String.eqb_spec u s); [exfalso; subst; tauto|] end. reflexivity.
Qed.
Lemma time_conversion_known u : known_time_unit u -> exists f, @time_conversion T N u = Ret f.
Proof.
  intros H. simpl in H. unfold time_conversion.
  destruct H as [<-|[<-|[<-|[<-|[]]]]]; simpl; eauto.
Qed.
Lemma distance_conversion_known u :
  known_distance_unit u -> exists f, @distance_conversion T N u = Ret f.
Proof.
  intros H. simpl in H. unfold distance_conversion.
  destruct H as [<-|[<-|[<-|[<-|[<-|[]]]]]]; simpl; eauto.
Qed.

(** an unknown unit is only detected when the returned coordinate function is
    called: t raises KeyError iff the time unit is unknown, r iff the distance
    unit is unknown, theta and phi never *)
Theorem C33_trajectory_unknown_units :
  forall (a p e x : T) ph M du tu t r theta phi,
  stable_trajectory a p e x ph M du tu = Ret (t, r, theta, phi) ->
  forall lam,
  (~ known_time_unit tu -> t lam = Raise KeyError) /\
  (known_time_unit tu -> exists v, t lam = Ret v) /\
  (~ known_distance_unit du -> r lam = Raise KeyError) /\
  (known_distance_unit du -> exists v, r lam = Ret v) /\
  (exists v, theta lam = Ret v) /\ (exists v, phi lam = Ret v).
Proof.
  intros a p e x ph M du tu t r theta phi H lam.
  unfold stable_trajectory in H.
  destruct (check_units M du tu); [|discriminate..]. cbn [bind] in H.
  destruct (mino_frequencies a p e x) as [[[[ur ut] up] g]| |]; [|discriminate..]. cbn [bind] in H.
  destruct (constants_of_motion a p e x) as [[[E L] Q]| |]; [|discriminate..]. cbn [bind] in H.
  destruct (stable_radial_roots a p e x (Some (E, L, Q))) as [rr| |]; [|discriminate..].
  cbn [bind] in H.
  destruct (stable_polar_roots a p e x (Some (E, L, Q))) as [[z1 z2]| |]; [|discriminate..].
  cbn in H. destruct ph as [[[q0 q1] q2] q3]. injection H as <- <- <- <-.
  split; [intros K; now rewrite time_conversion_unknown|].
  split; [intros K; destruct (time_conversion_known _ K) as [f ->]; cbn; eauto|].
  split; [intros K; now rewrite distance_conversion_unknown|].
  split; [intros K; destruct (distance_conversion_known _ K) as [f ->]; cbn; eauto|].
  split; eauto.
Qed.

(** frequencies *)
Theorem C33_mino_frequency_units :
  forall o ur ut uphi g, o_mino o = Some (uphi, g) -> o_upsilon_r o = ur -> o_upsilon_theta o = ut ->
  StableOrbit_mino_frequencies o "natural" = Ret (ur, ut, uphi, g) /\
  (forall u, u <> "natural"%string -> o_M o = None ->
     StableOrbit_mino_frequencies o u = Raise (ValueError msg_freq_M)) /\
  (forall u M, u <> "natural"%string -> u <> "mks"%string -> u <> "cgs"%string -> o_M o = Some M ->
     is_ValueError (StableOrbit_mino_frequencies o u)) /\
  (forall u M, u = "mks"%string \/ u = "cgs"%string -> o_M o = Some M ->
     StableOrbit_mino_frequencies o u
     = Ret (time_in_seconds ur M, time_in_seconds ut M, time_in_seconds uphi M,
            time2_in_seconds2 g M)).
Proof.
  intros o ur ut uphi g H1 <- <-. unfold StableOrbit_mino_frequencies. rewrite H1.
  split; [reflexivity|]. split; [|split].
  - intros u Hu HM. rewrite HM. apply String.eqb_neq in Hu. now rewrite Hu.
  - intros u M Hu Hu1 Hu2 HM. rewrite HM.
    apply String.eqb_neq in Hu, Hu1, Hu2. rewrite Hu, Hu1, Hu2. simpl. eexists; reflexivity.
  - intros u M [-> | ->] HM; rewrite HM; reflexivity.
Qed.

Theorem C33_fundamental_frequency_units :
  forall o uphi g, o_mino o = Some (uphi, g) ->
  let f := (ndiv (o_upsilon_r o) g, ndiv (o_upsilon_theta o) g, ndiv uphi g) in
  StableOrbit_fundamental_frequencies o "natural" = Ret f /\
  (forall u, u <> "natural"%string -> o_M o = None ->
     StableOrbit_fundamental_frequencies o u = Raise (ValueError msg_freq_M)) /\
  (forall u M, ~ In u ["natural"; "mks"; "cgs"; "mHz"]%string -> o_M o = Some M ->
     is_ValueError (StableOrbit_fundamental_frequencies o u)) /\
  (forall u M, u = "mks"%string \/ u = "cgs"%string -> o_M o = Some M ->
     StableOrbit_fundamental_frequencies o u
     = Ret (frequency_in_Hz (fst (fst f)) M, frequency_in_Hz (snd (fst f)) M,
            frequency_in_Hz (snd f) M)) /\
  (forall M, o_M o = Some M ->
     StableOrbit_fundamental_frequencies o "mHz"
     = Ret (frequency_in_mHz (fst (fst f)) M, frequency_in_mHz (snd (fst f)) M,
            frequency_in_mHz (snd f) M)).
Proof.
  intros o uphi g H1. unfold StableOrbit_fundamental_frequencies. rewrite H1.
  split; [reflexivity|]. split; [|split; [|split]].
  - intros u Hu HM. rewrite HM. apply String.eqb_neq in Hu. now rewrite Hu.
  - intros u M Hu HM. rewrite HM. simpl in Hu.
    repeat match goal with |- context [(u =? ?s)%string] =>
      destruct (String.eqb_spec u s); [exfalso; subst; tauto|] end. eexists; reflexivity.
  - intros u M [-> | ->] HM; rewrite HM; reflexivity.
  - intros M HM; rewrite HM; reflexivity.
Qed.

Theorem C33_constants_units_errors :
  forall o u, u <> "natural"%string ->
  (o_M o = None \/ o_mu o = None ->
     Orbit_constants_of_motion o u = Raise (ValueError msg_const_units)) /\
  (u <> "mks"%string -> u <> "cgs"%string -> is_ValueError (Orbit_constants_of_motion o u)).
Proof.
  intros o u Hu. unfold Orbit_constants_of_motion. apply String.eqb_neq in Hu. rewrite Hu.
  split.
  - intros [-> | H]; [reflexivity|]. rewrite H. destruct (o_M o); reflexivity.
  - intros H1 H2. apply String.eqb_neq in H1, H2. rewrite H1, H2.
    destruct (o_M o), (o_mu o); eexists; reflexivity.
Qed.
End C33.
Print Assumptions C33_stable_trajectory_needs_M.
Print Assumptions C33_trajectory_unknown_units.
Print Assumptions C33_mino_frequency_units.

(** Mino frequencies in mks divided by Gamma in mks are the fundamental frequencies
    in Hz (each component, for every mass and every value) *)
Theorem C33_mks_consistency :
  forall (o : @orbit (option R)) M ur ut up g,
  o_mino o = Some (Some up, Some g) -> o_upsilon_r o = Some ur -> o_upsilon_theta o = Some ut ->
  o_M o = Some (Some M) -> M <> 0 -> g <> 0 ->
  exists f1 f2 f3 h1 h2 h3 h4,
    StableOrbit_fundamental_frequencies o "mks" = Ret (Some f1, Some f2, Some f3) /\
    StableOrbit_mino_frequencies o "mks" = Ret (Some h1, Some h2, Some h3, Some h4) /\
    h4 <> 0 /\ f1 = h1 / h4 /\ f2 = h2 / h4 /\ f3 = h3 / h4.
Proof.
  intros o M ur ut up g H1 H2 H3 H4 HM Hg.
  unfold StableOrbit_fundamental_frequencies, StableOrbit_mino_frequencies.
  rewrite H1, H2, H3, H4. cbn [String.eqb Ascii.eqb Bool.eqb orb].
  assert (K1 := c_SI_nz). assert (K2 := G_SI_nz). assert (K3 := Msun_SI_nz).
  change (ndiv (Some ur) (Some g)) with (cdiv (Some ur) (Some g)).
  change (ndiv (Some ut) (Some g)) with (cdiv (Some ut) (Some g)).
  change (ndiv (Some up) (Some g)) with (cdiv (Some up) (Some g)).
  rewrite !(cdiv_some _ g) by assumption.
  units. do 7 eexists. split; [reflexivity|]. split; [reflexivity|].
  split.
  { repeat apply Rmult_integral_contrapositive_currified; auto; try apply pow_nonzero;
    try apply Rmult_integral_contrapositive_currified; auto;
    try apply Rinv_neq_0_compat; try apply pow_nonzero; auto; try lra. }
  repeat split; field; auto.
Qed.
Print Assumptions C33_mks_consistency.
Example C33_example : exists o : @orbit (option R),
  o_mino o = Some (Some 1, Some 2) /\ o_M o = Some (Some 10) /\ (2 : R) <> 0.
Proof.
  exists (mkOrbit (Some 0) (Some (Some 10)) None (Some 0) (Some 0) (Some 0) true None
    (Some 1) (Some 1) (Some (Some 1, Some 2)) None (Some 0, Some 0, Some 0, Some 0)).
  repeat split; lra.
Qed.

(** how many physical units one geometric unit (M = 1) is worth *)
Definition distance_unit_size (u : string) (M : R) : option R :=
  let metres := G_SI * (M * Msun_SI) / c_SI ^ 2 in
  if (u =? "natural")%string then Some 1 else
  if (u =? "mks")%string then Some metres else
  if (u =? "cgs")%string then Some (100 * metres) else
  if (u =? "km")%string then Some (metres / 1000) else
  if (u =? "au")%string then Some (metres / (1496 * 10 ^ 8)) else None.
Definition time_unit_size (u : string) (M : R) : option R :=
  let seconds := G_SI * (M * Msun_SI) / c_SI ^ 3 in
  if (u =? "natural")%string then Some 1 else
  if (u =? "mks")%string then Some seconds else
  if (u =? "cgs")%string then Some seconds else
  if (u =? "days")%string then Some (seconds / (24 * 60 * 60)) else None.

Lemma distance_conversion_value u M f : distance_unit_size u M = Some f ->
  exists conv, distance_conversion u = Ret conv /\
    forall v, conv (Some v) (Some (Some M)) = Some (v * f).
Proof.
  unfold distance_unit_size, distance_conversion.
  repeat match goal with |- context [(u =? ?s)%string] => destruct (String.eqb_spec u s) end;
  try congruence; intros H; injection H as <-; eexists; (split; [reflexivity|]); intros v;
  destruct (C32_conversions v M) as (_ & Km & Kc & Kk & _ & Ka & _); cbv zeta beta iota;
  rewrite ?Km, ?Kc, ?Kk, ?Ka; f_equal; field; try apply c_SI_nz; lra.
Qed.
Lemma time_conversion_value u M f : time_unit_size u M = Some f ->
  exists conv, time_conversion u = Ret conv /\
    forall v, conv (Some v) (Some (Some M)) = Some (v * f).
Proof.
  unfold time_unit_size, time_conversion.
  repeat match goal with |- context [(u =? ?s)%string] => destruct (String.eqb_spec u s) end;
  try congruence; intros H; injection H as <-; eexists; (split; [reflexivity|]); intros v;
  destruct (C32_conversions v M) as (_ & _ & _ & _ & _ & _ & Ks & Kd & _); cbv zeta beta iota;
  rewrite ?Ks, ?Kd; f_equal; field; try apply c_SI_nz; lra.
Qed.
Lemma check_units_M {T} (M : T) du tu : check_units (Some M) du tu = Ret tt.
Proof. unfold check_units. destruct (_ || _)%bool; reflexivity. Qed.

(** the trajectory in physical units is the trajectory in natural units, t and r
    multiplied by the size of the unit for a mass of M suns, the angles unchanged *)
Definition scaled_trajectory (ft fr : R)
    (nat phys : outcome (@traj (option R) * @traj (option R) * @traj (option R) * @traj (option R))) :=
  forall t r th ph, nat = Ret (t, r, th, ph) ->
  exists t' r', phys = Ret (t', r', th, ph) /\
  forall lam v, (t lam = Ret (Some v) -> t' lam = Ret (Some (v * ft))) /\
                (r lam = Ret (Some v) -> r' lam = Ret (Some (v * fr))).

Ltac scaled Ht Hr :=
  let cv := fresh "conv" in let Hc := fresh "Hc" in let Hv := fresh "Hv" in
  destruct (time_conversion_value _ _ _ Ht) as (cv & Hc & Hv);
  let cv' := fresh "conv" in let Hc' := fresh "Hc" in let Hv' := fresh "Hv" in
  destruct (distance_conversion_value _ _ _ Hr) as (cv' & Hc' & Hv');
  intros lam v; rewrite Hc, Hc'; cbn [bind];
  change (time_conversion "natural") with (Ret (fun (d : option R) (_ : option (option R)) => d));
  change (distance_conversion "natural") with (Ret (fun (d : option R) (_ : option (option R)) => d));
  cbn [bind]; split;
  (let K := fresh in intros K;
   match type of K with _ = Ret (Some ?w) =>
     match goal with |- Ret (_ ?B (Some _)) = _ =>
       change (Ret B = Ret (Some w)) in K; replace B with (Some w) by congruence end end);
  now rewrite ?Hv, ?Hv'.

Lemma assemble_scaled M du tu ft fr ph ur ut up g rp tr pr thp tth pth :
  time_unit_size tu M = Some ft -> distance_unit_size du M = Some fr ->
  scaled_trajectory ft fr
    (Ret (assemble_trajectory None "natural" "natural" ph ur ut up g rp tr pr thp tth pth))
    (Ret (assemble_trajectory (Some (Some M)) du tu ph ur ut up g rp tr pr thp tth pth)).
Proof.
  intros Ht Hr t r th phi H. destruct ph as [[[q0 q1] q2] q3]. unfold assemble_trajectory in *.
  injection H as <- <- <- <-. do 2 eexists. split; [reflexivity|]. scaled Ht Hr.
Qed.

Theorem C33_stable_trajectory_physical :
  forall (X : External (option R)) (a p e x : option R) ph M du tu ft fr,
  time_unit_size tu M = Some ft -> distance_unit_size du M = Some fr ->
  scaled_trajectory ft fr (stable_trajectory a p e x ph None "natural" "natural")
    (stable_trajectory a p e x ph (Some (Some M)) du tu).
Proof.
  intros X a p e x ph M du tu ft fr Ht Hr t r th phi H. unfold stable_trajectory in *.
  rewrite check_units_M. change (check_units None "natural" "natural") with (Ret tt) in H.
  cbn [bind] in *.
  destruct (mino_frequencies a p e x) as [[[[ur ut] up] g]| |]; [|discriminate..]. cbn [bind] in *.
  destruct (constants_of_motion a p e x) as [[[E L] Q]| |]; [|discriminate..]. cbn [bind] in *.
  destruct (stable_radial_roots a p e x (Some (E, L, Q))) as [rr| |]; [|discriminate..].
  cbn [bind] in *.
  destruct (stable_polar_roots a p e x (Some (E, L, Q))) as [[z1 z2]| |]; [|discriminate..].
  cbn [bind radial_solutions polar_solutions unpack2] in *.
  revert H. now apply assemble_scaled.
Qed.
Print Assumptions C33_stable_trajectory_physical.

Theorem C33_plunging_trajectory_physical :
  forall (X : External (option R)) (a E L Q : option R) ph M du tu ft fr,
  time_unit_size tu M = Some ft -> distance_unit_size du M = Some fr ->
  scaled_trajectory ft fr (plunging_trajectory a E L Q ph None "natural" "natural")
    (plunging_trajectory a E L Q ph (Some (Some M)) du tu).
Proof.
  intros X a E L Q ph M du tu ft fr Ht Hr t r th phi H. unfold plunging_trajectory in *.
  destruct (plunging_radial_roots a E L Q) as [rts| |] eqn:Hroots; [|discriminate..].
  cbn [bind] in *. destruct rts as [r1 r2 r3 r4|r1 r2 r3 r4].
  all: unfold complex_plunge_trajectory, real_plunge_trajectory in *;
    rewrite check_units_M; change (check_units None "natural" "natural") with (Ret tt) in H;
    cbn [bind] in *.
  - rewrite Hroots in *. cbn [bind] in *.
    destruct (polar_roots_of a E L Q) as [[z1 z2]| |]; [|discriminate..]. cbn [bind] in *.
    destruct (mino_frequencies_from_constants a (E, L, Q) (r1, r2, r3, r4) (z1, z2))
      as [[[[ur ut] up] g]| |]; [|discriminate..].
    cbn [bind radial_solutions polar_solutions unpack2 fst snd] in *.
    revert H. now apply assemble_scaled.
  - destruct (plunging_mino_frequencies a E L Q) as [[ur ut]| |]; [|discriminate..]. cbn [bind] in *.
    destruct (plunging_radial_solutions_complex a E L Q) as [[[rp tp] pp]| |]; [|discriminate..].
    cbn [bind] in *.
    destruct (plunging_polar_solutions a E L Q) as [[[thp tth] pth]| |]; [|discriminate..].
    destruct ph as [[[q0 q1] q2] q3]. cbn [bind] in *.
    injection H as <- <- <- <-. do 2 eexists. split; [reflexivity|]. scaled Ht Hr.
Qed.
Print Assumptions C33_plunging_trajectory_physical.
Theorem C33_unit_sizes :
  time_unit_size "days" 10 = Some (G_SI * (10 * Msun_SI) / c_SI ^ 3 / (24 * 60 * 60)) /\
  distance_unit_size "au" 10 = Some (G_SI * (10 * Msun_SI) / c_SI ^ 2 / (1496 * 10 ^ 8)) /\
  distance_unit_size "furlong" 10 = None.
Proof. repeat split. Qed.

(** ** C34: constants of motion in physical units.
    The energy is right, L and Q are too large by one resp. two powers of the solar
    mass in kg. *)
Lemma Ret3_eq (a b c a' b' c' : R) : a = a' -> b = b' -> c = c' ->
  Ret (Some a, Some b, Some c) = Ret (Some a', Some b', Some c').
Proof. congruence. Qed.

Theorem C34_actual_values_partial :
  forall (o : @orbit (option R)) E L Q M mu,
  o_E o = Some E -> o_L o = Some L -> o_Q o = Some Q ->
  o_M o = Some (Some M) -> o_mu o = Some (Some mu) -> M <> 0 ->
  let Mkg := M * Msun_SI in let mukg := mu * Msun_SI in
  Orbit_constants_of_motion o "mks"
  = Ret (Some (E * (mukg * c_SI ^ 2)),
         Some (Msun_SI * (L * (G_SI * mukg * Mkg / c_SI))),
         Some (Msun_SI ^ 2 * (Q * (G_SI * mukg * Mkg / c_SI) ^ 2))) /\
  Orbit_constants_of_motion o "cgs"
  = Ret (Some (10 ^ 7 * (E * (mukg * c_SI ^ 2))),
         Some (10 ^ 7 * (Msun_SI * (L * (G_SI * mukg * Mkg / c_SI)))),
         Some (10 ^ 14 * (Msun_SI ^ 2 * (Q * (G_SI * mukg * Mkg / c_SI) ^ 2)))).
Proof.
  intros o E L Q M mu HE HL HQ HM Hmu HM0. cbv zeta.
  unfold Orbit_constants_of_motion, scale_constants. rewrite HE, HL, HQ, HM, Hmu.
  cbn [String.eqb Ascii.eqb Bool.eqb].
  assert (K1 := c_SI_nz). assert (K2 := G_SI_nz). assert (K3 := Msun_SI_nz).
  change (ndiv (Some mu) (Some M)) with (cdiv (Some mu) (Some M)).
  rewrite !(cdiv_some _ M) by assumption.
  split; units; apply Ret3_eq; field; auto.
Qed.
Print Assumptions C34_actual_values_partial.

Theorem C34_refuted :
  exists (o : @orbit (option R)) M mu E L Q EJ LJ QJ,
    o_E o = Some E /\ o_L o = Some L /\ o_Q o = Some Q /\
    o_M o = Some (Some M) /\ o_mu o = Some (Some mu) /\ 0 < M /\ 0 < mu /\
    Orbit_constants_of_motion o "mks" = Ret (Some EJ, Some LJ, Some QJ) /\
    LJ <> L * (G_SI * (mu * Msun_SI) * (M * Msun_SI) / c_SI) /\
    QJ <> Q * (G_SI * (mu * Msun_SI) * (M * Msun_SI) / c_SI) ^ 2.
Proof.
  set (o := mkOrbit (Some 0) (Some (Some 1)) (Some (Some 1)) (Some (9/10)) (Some 3) (Some 1) true
    None (Some 1) (Some 1) None None (Some 0, Some 0, Some 0, Some 0) : @orbit (option R)).
  exists o, 1, 1, (9/10), 3, 1. do 3 eexists.
  repeat (split; [solve [reflexivity | lra]|]).
  assert (H := C34_actual_values_partial o (9/10) 3 1 1 1 eq_refl eq_refl eq_refl eq_refl eq_refl).
  destruct H as [H _]; [lra|]. split; [exact H|].
  split; unfold Msun_SI, G_SI, c_SI; lra.
Qed.
Print Assumptions C34_refuted.

(** ** C35 *)
Section C35.
Context {T : Type} {N : Num T} {X : External T}.
Theorem C35_fundamental_is_mino_over_gamma :
  forall a p e x : T,
  match mino_frequencies a p e x with
  | Ret (ur, ut, up, g) =>
      fundamental_frequencies a p e x = Ret (ndiv ur g, ndiv ut g, ndiv up g)
  | Raise err => fundamental_frequencies a p e x = Raise err
  | Undef => fundamental_frequencies a p e x = Undef
  end.
Proof.
  intros a p e x. unfold mino_frequencies, fundamental_frequencies.
  destruct (constants_of_motion a p e x) as [c| |]; cbn [bind]; auto.
  destruct (r_frequency a p e x (Some c)) as [ur| |]; cbn [bind]; auto.
  destruct (theta_frequency a p e x (Some c)) as [ut| |]; cbn [bind]; auto.
  destruct (phi_frequency a p e x (Some c) (Some ur) (Some ut)) as [up| |]; cbn [bind]; auto.
  destruct (gamma a p e x (Some c) (Some ur) (Some ut)) as [g| |]; cbn [bind]; auto.
Qed.

Theorem C35_from_constants :
  forall (a : T) c rr zz,
  match mino_frequencies_from_constants a c rr zz with
  | Ret (ur, ut, up, g) =>
      fundamental_frequencies_from_constants a c rr zz = Ret (ndiv ur g, ndiv ut g, ndiv up g)
  | Raise err => fundamental_frequencies_from_constants a c rr zz = Raise err
  | Undef => fundamental_frequencies_from_constants a c rr zz = Undef
  end.
Proof.
  intros a c rr zz.
  unfold mino_frequencies_from_constants, fundamental_frequencies_from_constants.
  set (ur := r_frequency_from_constants c rr).
  destruct (theta_frequency_from_constants a c rr zz) as [ut| |]; cbn [bind]; auto.
  destruct (phi_frequency_from_constants a c rr zz (Some ur) (Some ut)) as [up| |]; cbn [bind]; auto.
  destruct (gamma_from_constants a c rr zz (Some ur) (Some ut)) as [g| |]; cbn [bind]; auto.
Qed.

(** the attributes and methods of a StableOrbit agree with the functions *)
Theorem C35_stable_orbit_methods :
  forall (a p e x : T) ph M mu o, StableOrbit_init a p e x ph M mu = Ret o ->
  let '(a', x') := standardize_params a x in
  StableOrbit_mino_frequencies o "natural" = mino_frequencies a' p e x' /\
  StableOrbit_fundamental_frequencies o "natural" = fundamental_frequencies a' p e x' /\
  constants_of_motion a' p e x' = Orbit_constants_of_motion o "natural" /\
  (exists w, o_omega o = Some w /\ fundamental_frequencies a' p e x' = Ret w).
Proof.
  intros a p e x ph M mu o H. unfold StableOrbit_init in H.
  destruct (standardize_params a x) as [a' x'].
  destruct (constants_of_motion a' p e x') as [[[E L] Q]| |]; [|discriminate..]. cbn [bind] in H.
  pose proof (C35_fundamental_is_mino_over_gamma a' p e x') as P.
  destruct (mino_frequencies a' p e x') as [[[[ur ut] up] g]| |] eqn:Em; [|discriminate..].
  cbn [bind] in H. rewrite P in *. cbn [bind] in H.
  match type of H with bind ?m _ = _ => destruct m; [|discriminate..] end. cbn [bind] in H.
  match type of H with bind ?m _ = _ => destruct m; [|discriminate..] end. cbn [bind] in H.
  injection H as <-. unfold StableOrbit_mino_frequencies, StableOrbit_fundamental_frequencies,
    Orbit_constants_of_motion. cbn. repeat split; eauto.
Qed.
End C35.
Print Assumptions C35_fundamental_is_mino_over_gamma.
Print Assumptions C35_stable_orbit_methods.

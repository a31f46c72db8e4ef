(** * A polynomial inequality behind the growth of the separatrix with the eccentricity (auxiliary for C107) *)
From Coq Require Import Reals Lra Lia.
From Verif Require Import P_Stability.
Open Scope R_scope.

Ltac nn := repeat first [assumption | apply Rplus_le_le_0_compat | apply Rmult_le_pos | apply pow_le | lra].

Definition QQ (c t : R) : R :=
  c^0 * ((-6) * t^4 + 14 * t^5 + (-10) * t^6 + 2 * t^7)
  + c^1 * (2 * t^3 + (-46) * t^4 + 50 * t^5 + (-2) * t^6 + (-4) * t^7)
  + c^2 * (26 * t^3 + (-86) * t^4 + (-38) * t^5 + 38 * t^6 + (-4) * t^7)
  + c^3 * ((-2) * t^2 + 58 * t^3 + 86 * t^4 + (-110) * t^5 + 28 * t^6 + 4 * t^7)
  + c^4 * ((-2) * t^2 + (-62) * t^3 + 74 * t^4 + (-50) * t^5 + (-24) * t^6)
  + c^5 * ((-2) * t^1 + 54 * t^2 + (-2) * t^3 + (-30) * t^4 + 52 * t^5 + (-8) * t^6)
  + c^6 * ((-18) * t^1 + 6 * t^2 + 38 * t^3 + (-54) * t^4 + 28 * t^5)
  + c^7 * (2 + (-2) * t^1 + (-6) * t^2 + 14 * t^3 + (-12) * t^4 + 4 * t^5).
Definition qa0 (t : R) : R := 2 + (-22) * t^1 + 50 * t^2 + 74 * t^3 + (-74) * t^4 + (-50) * t^5 + 22 * t^6 + (-2) * t^7.
Lemma qa0_pos t : 0 <= t -> 0 <= 7 - 40 * t -> 0 <= 1 - 6 * t + t^2 -> 0 <= qa0 t.
Proof.
  intros H1 H2 H3. replace (qa0 t) with ((1 - 6 * t + t^2)^2 * (2 * t^0 * (7 - 40 * t)^3 + 254 * t^1 * (7 - 40 * t)^2 + 10622 * t^2 * (7 - 40 * t)^1 + 145794 * t^3 * (7 - 40 * t)^0) / 7^3) by (unfold qa0; field).
  apply Rmult_le_pos; [|lra]. nn.
Qed.
Definition qa1 (t : R) : R := 14 + (-132) * t^1 + 250 * t^2 + 296 * t^3 + (-222) * t^4 + (-100) * t^5 + 22 * t^6.
Lemma qa1_pos t : 0 <= t -> 0 <= 7 - 40 * t -> 0 <= 1 - 6 * t + t^2 -> 0 <= qa1 t.
Proof.
  intros H1 H2 H3. replace (qa1 t) with ((1 - 6 * t + t^2)^1 * (14 * t^0 * (7 - 40 * t)^4 + 1904 * t^1 * (7 - 40 * t)^3 + 91532 * t^2 * (7 - 40 * t)^2 + 1778336 * t^3 * (7 - 40 * t)^1 + 10751062 * t^4 * (7 - 40 * t)^0) / 7^4) by (unfold qa1; field).
  apply Rmult_le_pos; [|lra]. nn.
Qed.
Definition qa2 (t : R) : R := 42 + (-332) * t^1 + 486 * t^2 + 672 * t^3 + (-746) * t^4 + 356 * t^5 + (-102) * t^6 + 8 * t^7.
Lemma qa2_pos t : 0 <= t -> 0 <= 7 - 40 * t -> 0 <= 1 - 6 * t + t^2 -> 0 <= qa2 t.
Proof.
  intros H1 H2 H3. replace (qa2 t) with ((1 - 6 * t + t^2)^0 * (42 * t^0 * (7 - 40 * t)^7 + 9436 * t^1 * (7 - 40 * t)^6 + 877254 * t^2 * (7 - 40 * t)^5 + 43297296 * t^3 * (7 - 40 * t)^4 + 1204592214 * t^4 * (7 - 40 * t)^3 + 18319967372 * t^5 * (7 - 40 * t)^2 + 132053738362 * t^6 * (7 - 40 * t)^1 + 285265863624 * t^7 * (7 - 40 * t)^0) / 7^7) by (unfold qa2; field).
  apply Rmult_le_pos; [|lra]. nn.
Qed.
Definition qa3 (t : R) : R := 70 + (-450) * t^1 + 440 * t^2 + 1040 * t^3 + (-1418) * t^4 + 910 * t^5 + (-148) * t^6 + 4 * t^7.
Lemma qa3_pos t : 0 <= t -> 0 <= 7 - 40 * t -> 0 <= 1 - 6 * t + t^2 -> 0 <= qa3 t.
Proof.
  intros H1 H2 H3. replace (qa3 t) with ((1 - 6 * t + t^2)^0 * (70 * t^0 * (7 - 40 * t)^7 + 16450 * t^1 * (7 - 40 * t)^6 + 1617560 * t^2 * (7 - 40 * t)^5 + 85868720 * t^3 * (7 - 40 * t)^4 + 2638630582 * t^4 * (7 - 40 * t)^3 + 46397652210 * t^5 * (7 - 40 * t)^2 + 423832291148 * t^6 * (7 - 40 * t)^1 + 1493229452092 * t^7 * (7 - 40 * t)^0) / 7^7) by (unfold qa3; field).
  apply Rmult_le_pos; [|lra]. nn.
Qed.
Definition qa4 (t : R) : R := 70 + (-350) * t^1 + 148 * t^2 + 988 * t^3 + (-1306) * t^4 + 770 * t^5 + (-64) * t^6.
Lemma qa4_pos t : 0 <= t -> 0 <= 7 - 40 * t -> 0 <= 1 - 6 * t + t^2 -> 0 <= qa4 t.
Proof.
  intros H1 H2 H3. replace (qa4 t) with ((1 - 6 * t + t^2)^0 * (70 * t^0 * (7 - 40 * t)^6 + 14350 * t^1 * (7 - 40 * t)^5 + 1197252 * t^2 * (7 - 40 * t)^4 + 51899204 * t^3 * (7 - 40 * t)^3 + 1227149574 * t^4 * (7 - 40 * t)^2 + 14893240110 * t^5 * (7 - 40 * t)^1 + 71586692464 * t^6 * (7 - 40 * t)^0) / 7^6) by (unfold qa4; field).
  apply Rmult_le_pos; [|lra]. nn.
Qed.
Definition qa5 (t : R) : R := 42 + (-152) * t^1 + (-36) * t^2 + 520 * t^3 + (-606) * t^4 + 304 * t^5 + (-8) * t^6.
Lemma qa5_pos t : 0 <= t -> 0 <= 7 - 40 * t -> 0 <= 1 - 6 * t + t^2 -> 0 <= qa5 t.
Proof.
  intros H1 H2 H3. replace (qa5 t) with ((1 - 6 * t + t^2)^0 * (42 * t^0 * (7 - 40 * t)^6 + 9016 * t^1 * (7 - 40 * t)^5 + 793436 * t^2 * (7 - 40 * t)^4 + 36632120 * t^3 * (7 - 40 * t)^3 + 934853794 * t^4 * (7 - 40 * t)^2 + 12478852848 * t^5 * (7 - 40 * t)^1 + 67853022328 * t^6 * (7 - 40 * t)^0) / 7^6) by (unfold qa5; field).
  apply Rmult_le_pos; [|lra]. nn.
Qed.
Definition qa6 (t : R) : R := 14 + (-32) * t^1 + (-36) * t^2 + 136 * t^3 + (-138) * t^4 + 56 * t^5.
Lemma qa6_pos t : 0 <= t -> 0 <= 7 - 40 * t -> 0 <= 1 - 6 * t + t^2 -> 0 <= qa6 t.
Proof.
  intros H1 H2 H3. replace (qa6 t) with ((1 - 6 * t + t^2)^0 * (14 * t^0 * (7 - 40 * t)^5 + 2576 * t^1 * (7 - 40 * t)^4 + 186396 * t^2 * (7 - 40 * t)^3 + 6644568 * t^3 * (7 - 40 * t)^2 + 116789302 * t^4 * (7 - 40 * t)^1 + 809588472 * t^5 * (7 - 40 * t)^0) / 7^5) by (unfold qa6; field).
  apply Rmult_le_pos; [|lra]. nn.
Qed.
Definition qa7 (t : R) : R := 2 + (-2) * t^1 + (-6) * t^2 + 14 * t^3 + (-12) * t^4 + 4 * t^5.
Lemma qa7_pos t : 0 <= t -> 0 <= 7 - 40 * t -> 0 <= 1 - 6 * t + t^2 -> 0 <= qa7 t.
Proof.
  intros H1 H2 H3. replace (qa7 t) with ((1 - 6 * t + t^2)^0 * (2 * t^0 * (7 - 40 * t)^5 + 386 * t^1 * (7 - 40 * t)^4 + 29466 * t^2 * (7 - 40 * t)^3 + 1115122 * t^3 * (7 - 40 * t)^2 + 20960148 * t^4 * (7 - 40 * t)^1 + 156741948 * t^5 * (7 - 40 * t)^0) / 7^5) by (unfold qa7; field).
  apply Rmult_le_pos; [|lra]. nn.
Qed.
Definition qb0 (t : R) : R := 72 * t^5 + (-732) * t^6 + 1148 * t^7 + 4472 * t^8 + (-3872) * t^9 + (-1268) * t^10 + 26116 * t^11 + 22096 * t^12 + (-9304) * t^13 + (-9476) * t^14 + 2820 * t^15 + 1208 * t^16 + (-592) * t^17 + 84 * t^18 + (-4) * t^19.
Lemma qb0_pos t : 0 <= 35 * t - 6 -> 0 <= 1 - 3 * t -> 0 <= - (1 - 6 * t + t^2) -> 0 <= qb0 t.
Proof.
  intros H1 H2 H3. replace (qb0 t) with ((- (1 - 6 * t + t^2))^2 * (2079005731072032761856 * (35 * t - 6)^0 * (1 - 3 * t)^15 + 3567970443860784643968 * (35 * t - 6)^1 * (1 - 3 * t)^14 + 2837148977963835408960 * (35 * t - 6)^2 * (1 - 3 * t)^13 + 1386863825128209146304 * (35 * t - 6)^3 * (1 - 3 * t)^12 + 466173853321765878432 * (35 * t - 6)^4 * (1 - 3 * t)^11 + 114166983697680692952 * (35 * t - 6)^5 * (1 - 3 * t)^10 + 21050669303779293780 * (35 * t - 6)^6 * (1 - 3 * t)^9 + 2976713558088808400 * (35 * t - 6)^7 * (1 - 3 * t)^8 + 325588054772934400 * (35 * t - 6)^8 * (1 - 3 * t)^7 + 27556473382225920 * (35 * t - 6)^9 * (1 - 3 * t)^6 + 1790656181351424 * (35 * t - 6)^10 * (1 - 3 * t)^5 + 87768171794432 * (35 * t - 6)^11 * (1 - 3 * t)^4 + 3142289489920 * (35 * t - 6)^12 * (1 - 3 * t)^3 + 77608124416 * (35 * t - 6)^13 * (1 - 3 * t)^2 + 1182793728 * (35 * t - 6)^14 * (1 - 3 * t)^1 + 8388608 * (35 * t - 6)^15 * (1 - 3 * t)^0) / 17^15) by (unfold qb0; field).
  apply Rmult_le_pos; [|lra]. nn.
Qed.
Definition qb1 (t : R) : R := 2 * t^3 + 20 * t^4 + (-536) * t^5 + 680 * t^6 + 6894 * t^7 + 5212 * t^8 + 1452 * t^9 + 23536 * t^10 + 31774 * t^11 + (-436) * t^12 + (-12912) * t^13 + 104 * t^14 + 1970 * t^15 + (-444) * t^16 + 28 * t^17.
Lemma qb1_pos t : 0 <= 35 * t - 6 -> 0 <= 1 - 3 * t -> 0 <= - (1 - 6 * t + t^2) -> 0 <= qb1 t.
Proof.
  intros H1 H2 H3. replace (qb1 t) with ((- (1 - 6 * t + t^2))^1 * (8305823609804474287632 * (35 * t - 6)^0 * (1 - 3 * t)^15 + 15235991786817875779848 * (35 * t - 6)^1 * (1 - 3 * t)^14 + 12862370326029667938108 * (35 * t - 6)^2 * (1 - 3 * t)^13 + 6637058730403321120174 * (35 * t - 6)^3 * (1 - 3 * t)^12 + 2343452579134766712908 * (35 * t - 6)^4 * (1 - 3 * t)^11 + 600281579645890936822 * (35 * t - 6)^5 * (1 - 3 * t)^10 + 115330893478777496568 * (35 * t - 6)^6 * (1 - 3 * t)^9 + 16936162770873228560 * (35 * t - 6)^7 * (1 - 3 * t)^8 + 1917852762423082816 * (35 * t - 6)^8 * (1 - 3 * t)^7 + 167578469517624832 * (35 * t - 6)^9 * (1 - 3 * t)^6 + 11212909956774912 * (35 * t - 6)^10 * (1 - 3 * t)^5 + 564526790742016 * (35 * t - 6)^11 * (1 - 3 * t)^4 + 20711731871744 * (35 * t - 6)^12 * (1 - 3 * t)^3 + 523024596992 * (35 * t - 6)^13 * (1 - 3 * t)^2 + 8132493312 * (35 * t - 6)^14 * (1 - 3 * t)^1 + 58720256 * (35 * t - 6)^15 * (1 - 3 * t)^0) / 17^15) by (unfold qb1; field).
  apply Rmult_le_pos; [|lra]. nn.
Qed.
Definition qb2 (t : R) : R := 8 * t^3 + (-380) * t^4 + 1276 * t^5 + 4604 * t^6 + 7468 * t^7 + 7464 * t^8 + 6296 * t^9 + 11640 * t^10 + 7904 * t^11 + (-3820) * t^12 + (-2388) * t^13 + 972 * t^14 + (-84) * t^15.
Lemma qb2_pos t : 0 <= 35 * t - 6 -> 0 <= 1 - 3 * t -> 0 <= - (1 - 6 * t + t^2) -> 0 <= qb2 t.
Proof.
  intros H1 H2 H3. replace (qb2 t) with ((- (1 - 6 * t + t^2))^0 * (8263286912551225556736 * (35 * t - 6)^0 * (1 - 3 * t)^15 + 19255846237130511569376 * (35 * t - 6)^1 * (1 - 3 * t)^14 + 19271240531875104229872 * (35 * t - 6)^2 * (1 - 3 * t)^13 + 11313728226483860432360 * (35 * t - 6)^3 * (1 - 3 * t)^12 + 4423714256053150118852 * (35 * t - 6)^4 * (1 - 3 * t)^11 + 1231197619650147916816 * (35 * t - 6)^5 * (1 - 3 * t)^10 + 253430127643563308896 * (35 * t - 6)^6 * (1 - 3 * t)^9 + 39444429039275183488 * (35 * t - 6)^7 * (1 - 3 * t)^8 + 4693980670923447936 * (35 * t - 6)^8 * (1 - 3 * t)^7 + 428051721474309632 * (35 * t - 6)^9 * (1 - 3 * t)^6 + 29720671617699840 * (35 * t - 6)^10 * (1 - 3 * t)^5 + 1545194898513920 * (35 * t - 6)^11 * (1 - 3 * t)^4 + 58299547254784 * (35 * t - 6)^12 * (1 - 3 * t)^3 + 1508490608640 * (35 * t - 6)^13 * (1 - 3 * t)^2 + 23956291584 * (35 * t - 6)^14 * (1 - 3 * t)^1 + 176160768 * (35 * t - 6)^15 * (1 - 3 * t)^0) / 17^15) by (unfold qb2; field).
  apply Rmult_le_pos; [|lra]. nn.
Qed.
Definition qb3 (t : R) : R := (-2) * t^2 + (-122) * t^3 + 772 * t^4 + 3268 * t^5 + 2132 * t^6 + 2788 * t^7 + 3424 * t^8 + 224 * t^9 + 2494 * t^10 + 1382 * t^11 + (-1140) * t^12 + 140 * t^13.
Lemma qb3_pos t : 0 <= 35 * t - 6 -> 0 <= 1 - 3 * t -> 0 <= - (1 - 6 * t + t^2) -> 0 <= qb3 t.
Proof.
  intros H1 H2 H3. replace (qb3 t) with ((- (1 - 6 * t + t^2))^0 * (64582798003435850040 * (35 * t - 6)^0 * (1 - 3 * t)^13 + 106006066616812533720 * (35 * t - 6)^1 * (1 - 3 * t)^12 + 78285766646937852758 * (35 * t - 6)^2 * (1 - 3 * t)^11 + 34578321484084998196 * (35 * t - 6)^3 * (1 - 3 * t)^10 + 10221484110806415674 * (35 * t - 6)^4 * (1 - 3 * t)^9 + 2140244031915628768 * (35 * t - 6)^5 * (1 - 3 * t)^8 + 327174970867327072 * (35 * t - 6)^6 * (1 - 3 * t)^7 + 37026953069300416 * (35 * t - 6)^7 * (1 - 3 * t)^6 + 3106242911207552 * (35 * t - 6)^8 * (1 - 3 * t)^5 + 190993668992000 * (35 * t - 6)^9 * (1 - 3 * t)^4 + 8374441693184 * (35 * t - 6)^10 * (1 - 3 * t)^3 + 248172707840 * (35 * t - 6)^11 * (1 - 3 * t)^2 + 4458577920 * (35 * t - 6)^12 * (1 - 3 * t)^1 + 36700160 * (35 * t - 6)^13 * (1 - 3 * t)^0) / 17^13) by (unfold qb3; field).
  apply Rmult_le_pos; [|lra]. nn.
Qed.
Definition qb4 (t : R) : R := (-32) * t^2 + 416 * t^3 + 1028 * t^4 + 284 * t^5 + (-412) * t^6 + 1628 * t^7 + 172 * t^8 + (-652) * t^9 + 780 * t^10 + (-140) * t^11.
Lemma qb4_pos t : 0 <= 35 * t - 6 -> 0 <= 1 - 3 * t -> 0 <= - (1 - 6 * t + t^2) -> 0 <= qb4 t.
Proof.
  intros H1 H2 H3. replace (qb4 t) with ((- (1 - 6 * t + t^2))^0 * (201007204886093760 * (35 * t - 6)^0 * (1 - 3 * t)^11 + 253261888149972480 * (35 * t - 6)^1 * (1 - 3 * t)^10 + 142873535255709632 * (35 * t - 6)^2 * (1 - 3 * t)^9 + 47684115581445152 * (35 * t - 6)^3 * (1 - 3 * t)^8 + 10472193232466212 * (35 * t - 6)^4 * (1 - 3 * t)^7 + 1590634968866480 * (35 * t - 6)^5 * (1 - 3 * t)^6 + 170674446010384 * (35 * t - 6)^6 * (1 - 3 * t)^5 + 12948887359808 * (35 * t - 6)^7 * (1 - 3 * t)^4 + 681341629952 * (35 * t - 6)^8 * (1 - 3 * t)^3 + 23698872320 * (35 * t - 6)^9 * (1 - 3 * t)^2 + 490782720 * (35 * t - 6)^10 * (1 - 3 * t)^1 + 4587520 * (35 * t - 6)^11 * (1 - 3 * t)^0) / 17^11) by (unfold qb4; field).
  apply Rmult_le_pos; [|lra]. nn.
Qed.
Definition qb5 (t : R) : R := (-2) * t^1 + 120 * t^2 + 214 * t^3 + (-372) * t^4 + 430 * t^5 + (-320) * t^6 + 426 * t^7 + (-324) * t^8 + 84 * t^9.
Lemma qb5_pos t : 0 <= 35 * t - 6 -> 0 <= 1 - 3 * t -> 0 <= - (1 - 6 * t + t^2) -> 0 <= qb5 t.
Proof.
  intros H1 H2 H3. replace (qb5 t) with ((- (1 - 6 * t + t^2))^0 * (315079195625124 * (35 * t - 6)^0 * (1 - 3 * t)^9 + 300102120634534 * (35 * t - 6)^1 * (1 - 3 * t)^8 + 125228147765652 * (35 * t - 6)^2 * (1 - 3 * t)^7 + 30081998431798 * (35 * t - 6)^3 * (1 - 3 * t)^6 + 4589859530256 * (35 * t - 6)^4 * (1 - 3 * t)^5 + 461829770728 * (35 * t - 6)^5 * (1 - 3 * t)^4 + 30678342176 * (35 * t - 6)^6 * (1 - 3 * t)^3 + 1298659584 * (35 * t - 6)^7 * (1 - 3 * t)^2 + 31818240 * (35 * t - 6)^8 * (1 - 3 * t)^1 + 344064 * (35 * t - 6)^9 * (1 - 3 * t)^0) / 17^9) by (unfold qb5; field).
  apply Rmult_le_pos; [|lra]. nn.
Qed.
Definition qb6 (t : R) : R := 24 * t^1 + 4 * t^2 + (-92) * t^3 + 168 * t^4 + (-160) * t^5 + 84 * t^6 + (-28) * t^7.
Lemma qb6_pos t : 0 <= 35 * t - 6 -> 0 <= 1 - 3 * t -> 0 <= - (1 - 6 * t + t^2) -> 0 <= qb6 t.
Proof.
  intros H1 H2 H3. replace (qb6 t) with ((- (1 - 6 * t + t^2))^0 * (250393302432 * (35 * t - 6)^0 * (1 - 3 * t)^7 + 168115391976 * (35 * t - 6)^1 * (1 - 3 * t)^6 + 47570112644 * (35 * t - 6)^2 * (1 - 3 * t)^5 + 7376275336 * (35 * t - 6)^3 * (1 - 3 * t)^4 + 678537312 * (35 * t - 6)^4 * (1 - 3 * t)^3 + 37097984 * (35 * t - 6)^5 * (1 - 3 * t)^2 + 1117824 * (35 * t - 6)^6 * (1 - 3 * t)^1 + 14336 * (35 * t - 6)^7 * (1 - 3 * t)^0) / 17^7) by (unfold qb6; field).
  apply Rmult_le_pos; [|lra]. nn.
Qed.
Definition qb7 (t : R) : R := 2 + (-2) * t^1 + (-6) * t^2 + 14 * t^3 + (-12) * t^4 + 4 * t^5.
Lemma qb7_pos t : 0 <= 35 * t - 6 -> 0 <= 1 - 3 * t -> 0 <= - (1 - 6 * t + t^2) -> 0 <= qb7 t.
Proof.
  intros H1 H2 H3. replace (qb7 t) with ((- (1 - 6 * t + t^2))^0 * (80966434 * (35 * t - 6)^0 * (1 - 3 * t)^5 + 32478724 * (35 * t - 6)^1 * (1 - 3 * t)^4 + 5179782 * (35 * t - 6)^2 * (1 - 3 * t)^3 + 411080 * (35 * t - 6)^3 * (1 - 3 * t)^2 + 16248 * (35 * t - 6)^4 * (1 - 3 * t)^1 + 256 * (35 * t - 6)^5 * (1 - 3 * t)^0) / 17^5) by (unfold qb7; field).
  apply Rmult_le_pos; [|lra]. nn.
Qed.
Lemma QQ_a c t : QQ c t = (c - 1)^0 * qa0 t + (c - 1)^1 * qa1 t + (c - 1)^2 * qa2 t + (c - 1)^3 * qa3 t + (c - 1)^4 * qa4 t + (c - 1)^5 * qa5 t + (c - 1)^6 * qa6 t + (c - 1)^7 * qa7 t.
Proof. unfold QQ, qa0, qa1, qa2, qa3, qa4, qa5, qa6, qa7. ring. Qed.
Lemma QQ_b c t : (1 - 3 * t)^7 * QQ c t = (vg c t)^0 * qb0 t + (vg c t)^1 * qb1 t + (vg c t)^2 * qb2 t + (vg c t)^3 * qb3 t + (vg c t)^4 * qb4 t + (vg c t)^5 * qb5 t + (vg c t)^6 * qb6 t + (vg c t)^7 * qb7 t.
Proof. unfold QQ, vg, qb0, qb1, qb2, qb3, qb4, qb5, qb6, qb7. ring. Qed.
Lemma QQ_nonneg c t : dom c t -> 0 <= QQ c t.
Proof.
  intros H. pose proof (dom_third c t H) as T3. destruct H as (C & T & G).
  destruct (Rle_lt_dec 0 (1 - 6 * t + t^2)) as [W|W].
  - assert (0 <= 7 - 40 * t) by nra. rewrite QQ_a. assert (0 <= c - 1) by lra.
    repeat apply Rplus_le_le_0_compat; (apply Rmult_le_pos; [apply pow_le; lra|]).
    + apply qa0_pos; lra. + apply qa1_pos; lra. + apply qa2_pos; lra. + apply qa3_pos; lra. + apply qa4_pos; lra. + apply qa5_pos; lra. + apply qa6_pos; lra. + apply qa7_pos; lra.
  - assert (0 <= 35 * t - 6) by nra. assert (P7 : 0 < (1 - 3 * t)^7) by (apply pow_lt; lra).
    apply (Rmult_le_reg_l _ _ _ P7). rewrite Rmult_0_r, QQ_b.
    repeat apply Rplus_le_le_0_compat; (apply Rmult_le_pos; [apply pow_le; lra|]).
    + apply qb0_pos; lra. + apply qb1_pos; lra. + apply qb2_pos; lra. + apply qb3_pos; lra. + apply qb4_pos; lra. + apply qb5_pos; lra. + apply qb6_pos; lra. + apply qb7_pos; lra.
Qed.

(** the slope of the separatrix function at fixed p is [K0 + K1 * y] up to a positive factor *)
Definition NN (c t : R) : R := 2*c^3 - t*(6*c^4 + 6*c^3 + 2*c^2 - 2*c) + t^2*(8*c^4 + 14*c^3 - 2*c^2 - 14*c - 6)
  + t^3*(-2*c^4 - 10*c^3 + 2*c^2 + 14*c + 8) + t^4*(2*c^2 - 2*c - 2).
Lemma QQ_eq c t : 2*(c-1)*vg c t*(1-t)*(1+t)^2*(c^2+t)^2*dd c t + 2*(c-1)*vg c t*t*(1-t)*(c^2+t)*dd c t^2
   - 2*NN c t*(1-t)*(c^2+t)*((1+t)^2*(c^2+t) - (1-t)*dd c t) - NN c t^2 = (1 - t) * (c + 1) * QQ c t.
Proof. unfold QQ, NN, vg, dd. ring. Qed.

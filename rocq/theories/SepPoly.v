(** * Sign of the separatrix polynomials at the ends of the search brackets

    Lemmas for property C19.  The polynomials are those of the model
    (constants.py:491-589) at exact reals.  The nested integer lists are the same
    polynomials on a unit box; [vm_compute] checks their Bernstein coefficients
    and [ring] checks that they are the right polynomials. *)
From Coq Require Import Reals Lra Lia ZArith List Psatz.
From Verif Require Import Num Outcome External Checked Model_Constants Bernstein.
Import ListNotations.
Open Scope R_scope.

Definition b_polar8 : mp 2 := ([[65536; (-65536); 0; 0; 0; 0; 0]; [0; 0; 0; 0; 0; 0; 0]; [14336; 10240; 10240; (-2048); 0; 0;
0]; [0; 0; 0; 0; 0; 0; 0]; [144; 176; 160; 352; 208; (-16); 0]; [0; 0; 0; 0; 0; 0; 0]; [1; 2;
(-1); (-4); (-1); 2; 1]])%Z.

Definition b_polar_lo_e : mp 2 := ([[0; 4448; (-1444); 344; (-84); 8; (-1)]; [0; 4920; (-1224); 248; (-32); 2; 0]; [0; 2136;
(-392); 56; (-3); 0; 0]; [0; 456; (-56); 4; 0; 0; 0]; [0; 48; (-3); 0; 0; 0; 0]; [0; 2; 0; 0;
0; 0; 0]])%Z.

Definition b_polar_lo_a : mp 3 := ([[[2421; 1802; 1444; (-344); 84; (-8); 1]; [0; 0; 0; 0; 0; 0; 0]; [(-2375); (-1750); (-1375);
500; 0; 0; 0]; [0; 0; 0; 0; 0; 0; 0]; [(-45); (-50); (-70); (-160); (-85); 10; 0]; [0; 0; 0; 0;
0; 0; 0]; [(-1); (-2); 1; 4; 1; (-2); (-1)]]; [[1824; 1330; 1224; (-248); 32; (-2); 0]; [0; 0;
0; 0; 0; 0; 0]; [(-1800); (-1300); (-1200); 300; 0; 0; 0]; [0; 0; 0; 0; 0; 0; 0]; [(-24);
(-30); (-24); (-52); (-32); 2; 0]; [0; 0; 0; 0; 0; 0; 0]; [0; 0; 0; 0; 0; 0; 0]]; [[513; 364;
392; (-56); 3; 0; 0]; [0; 0; 0; 0; 0; 0; 0]; [(-510); (-360); (-390); 60; 0; 0; 0]; [0; 0; 0;
0; 0; 0; 0]; [(-3); (-4); (-2); (-4); (-3); 0; 0]; [0; 0; 0; 0; 0; 0; 0]; [0; 0; 0; 0; 0; 0;
0]]; [[64; 44; 56; (-4); 0; 0; 0]; [0; 0; 0; 0; 0; 0; 0]; [(-64); (-44); (-56); 4; 0; 0; 0];
[0; 0; 0; 0; 0; 0; 0]; [0; 0; 0; 0; 0; 0; 0]; [0; 0; 0; 0; 0; 0; 0]; [0; 0; 0; 0; 0; 0; 0]];
[[3; 2; 3; 0; 0; 0; 0]; [0; 0; 0; 0; 0; 0; 0]; [(-3); (-2); (-3); 0; 0; 0; 0]; [0; 0; 0; 0; 0;
0; 0]; [0; 0; 0; 0; 0; 0; 0]; [0; 0; 0; 0; 0; 0; 0]; [0; 0; 0; 0; 0; 0; 0]]])%Z.

Definition b_eq_hi : mp 2 := ([[0; 0; 0; 0; 0]; [0; 0; 0; 0; 0]; [384; 512; 128; 0; 0]; [0; 0; 0; 0; 0]; [(-9); (-12); 2; 4;
(-1)]])%Z.

Definition b_eq_retro : mp 2 := ([[186624; 0; (-2304)]; [248832; 0; (-3072)]; [103680; 0; (-256)]; [6912; 0; 1280]; [(-4896); 0;
544]; [(-960); 0; (-64)]; [16; 0; (-80)]; [16; 0; (-16)]; [1; 0; (-1)]])%Z.

Definition b_NE : mp 4 := ([[[[1375; 0; 0]; [125; 0; 0]; [(-750); 0; 0]; [500; 0; 0]; [0; 0; 0]; [0; 0; 0]; [0; 0; 0]];
[[(-240); 240; 0]; [(-300); 300; 0]; [(-40); 40; 0]; [(-120); 120; 0]; [(-120); 120; 0]; [20;
(-20); 0]; [0; 0; 0]]; [[(-2); 4; (-2)]; [(-4); 8; (-4)]; [2; (-4); 2]; [8; (-16); 8]; [2;
(-4); 2]; [(-4); 8; (-4)]; [(-2); 4; (-2)]]]; [[[3600; 0; 0]; [600; 0; 0]; [(-2100); 0; 0];
[900; 0; 0]; [0; 0; 0]; [0; 0; 0]; [0; 0; 0]]; [[(-324); 324; 0]; [(-420); 420; 0]; [(-24); 24;
0]; [(-72); 72; 0]; [(-132); 132; 0]; [12; (-12); 0]; [0; 0; 0]]; [[0; 0; 0]; [0; 0; 0]; [0; 0;
0]; [0; 0; 0]; [0; 0; 0]; [0; 0; 0]; [0; 0; 0]]]; [[[3510; 0; 0]; [810; 0; 0]; [(-2160); 0; 0];
[540; 0; 0]; [0; 0; 0]; [0; 0; 0]; [0; 0; 0]]; [[(-108); 108; 0]; [(-144); 144; 0]; [0; 0; 0];
[0; 0; 0]; [(-36); 36; 0]; [0; 0; 0]; [0; 0; 0]]; [[0; 0; 0]; [0; 0; 0]; [0; 0; 0]; [0; 0; 0];
[0; 0; 0]; [0; 0; 0]; [0; 0; 0]]]; [[[1512; 0; 0]; [432; 0; 0]; [(-972); 0; 0]; [108; 0; 0];
[0; 0; 0]; [0; 0; 0]; [0; 0; 0]]; [[0; 0; 0]; [0; 0; 0]; [0; 0; 0]; [0; 0; 0]; [0; 0; 0]; [0;
0; 0]; [0; 0; 0]]; [[0; 0; 0]; [0; 0; 0]; [0; 0; 0]; [0; 0; 0]; [0; 0; 0]; [0; 0; 0]; [0; 0;
0]]]; [[[243; 0; 0]; [81; 0; 0]; [(-162); 0; 0]; [0; 0; 0]; [0; 0; 0]; [0; 0; 0]; [0; 0; 0]];
[[0; 0; 0]; [0; 0; 0]; [0; 0; 0]; [0; 0; 0]; [0; 0; 0]; [0; 0; 0]; [0; 0; 0]]; [[0; 0; 0]; [0;
0; 0]; [0; 0; 0]; [0; 0; 0]; [0; 0; 0]; [0; 0; 0]; [0; 0; 0]]]])%Z.

Definition b_Nl : mp 4 := ([[[[3125; 0]; [6250; 0]; [0; 0]; [0; 0]; [0; 0]; [0; 0]]; [[(-500); 250]; [(-500); 250]; [500;
(-250)]; [500; (-250)]; [0; 0]; [0; 0]]; [[30; (-30)]; [50; (-50)]; [(-20); 20]; [(-60); 60];
[(-10); 10]; [10; (-10)]]]; [[[9375; 0]; [18750; 0]; [0; 0]; [0; 0]; [0; 0]; [0; 0]]; [[(-900);
450]; [(-900); 450]; [900; (-450)]; [900; (-450)]; [0; 0]; [0; 0]]; [[18; (-18)]; [30; (-30)];
[(-12); 12]; [(-36); 36]; [(-6); 6]; [6; (-6)]]]; [[[11250; 0]; [22500; 0]; [0; 0]; [0; 0]; [0;
0]; [0; 0]]; [[(-540); 270]; [(-540); 270]; [540; (-270)]; [540; (-270)]; [0; 0]; [0; 0]]; [[0;
0]; [0; 0]; [0; 0]; [0; 0]; [0; 0]; [0; 0]]]; [[[6750; 0]; [13500; 0]; [0; 0]; [0; 0]; [0; 0];
[0; 0]]; [[(-108); 54]; [(-108); 54]; [108; (-54)]; [108; (-54)]; [0; 0]; [0; 0]]; [[0; 0]; [0;
0]; [0; 0]; [0; 0]; [0; 0]; [0; 0]]]; [[[2025; 0]; [4050; 0]; [0; 0]; [0; 0]; [0; 0]; [0; 0]];
[[0; 0]; [0; 0]; [0; 0]; [0; 0]; [0; 0]; [0; 0]]; [[0; 0]; [0; 0]; [0; 0]; [0; 0]; [0; 0]; [0;
0]]]; [[[243; 0]; [486; 0]; [0; 0]; [0; 0]; [0; 0]; [0; 0]]; [[0; 0]; [0; 0]; [0; 0]; [0; 0];
[0; 0]; [0; 0]]; [[0; 0]; [0; 0]; [0; 0]; [0; 0]; [0; 0]; [0; 0]]]])%Z.

Definition b_wp : mp 4 := ([[[[2500; 0]; [5000; 0]; [(-2500); 0]; [0; 0]; [0; 0]; [0; 0]; [0; 0]]; [[0; (-90)]; [0;
(-100)]; [(-200); 60]; [(-400); 80]; [(-200); 30]; [0; 20]; [0; 0]]; [[(-4); 2]; [(-8); 4]; [4;
(-2)]; [16; (-8)]; [4; (-2)]; [(-8); 4]; [(-4); 2]]]; [[[6000; 0]; [12000; 0]; [(-6000); 0];
[0; 0]; [0; 0]; [0; 0]; [0; 0]]; [[0; (-144)]; [0; (-180)]; [(-240); 96]; [(-480); 168];
[(-240); 48]; [0; 12]; [0; 0]]; [[0; 0]; [0; 0]; [0; 0]; [0; 0]; [0; 0]; [0; 0]; [0; 0]]];
[[[5400; 0]; [10800; 0]; [(-5400); 0]; [0; 0]; [0; 0]; [0; 0]; [0; 0]]; [[0; (-54)]; [0;
(-72)]; [(-72); 36]; [(-144); 72]; [(-72); 18]; [0; 0]; [0; 0]]; [[0; 0]; [0; 0]; [0; 0]; [0;
0]; [0; 0]; [0; 0]; [0; 0]]]; [[[2160; 0]; [4320; 0]; [(-2160); 0]; [0; 0]; [0; 0]; [0; 0]; [0;
0]]; [[0; 0]; [0; 0]; [0; 0]; [0; 0]; [0; 0]; [0; 0]; [0; 0]]; [[0; 0]; [0; 0]; [0; 0]; [0; 0];
[0; 0]; [0; 0]; [0; 0]]]; [[[324; 0]; [648; 0]; [(-324); 0]; [0; 0]; [0; 0]; [0; 0]; [0; 0]];
[[0; 0]; [0; 0]; [0; 0]; [0; 0]; [0; 0]; [0; 0]; [0; 0]]; [[0; 0]; [0; 0]; [0; 0]; [0; 0]; [0;
0]; [0; 0]; [0; 0]]]])%Z.

Definition b_wm : mp 4 := ([[[[7500; 0]; [5000; 0]; [2500; 0]; [0; 0]; [0; 0]; [0; 0]; [0; 0]]; [[0; 90]; [0; 100]; [200;
(-60)]; [400; (-80)]; [200; (-30)]; [0; (-20)]; [0; 0]]; [[4; (-2)]; [8; (-4)]; [(-4); 2];
[(-16); 8]; [(-4); 2]; [8; (-4)]; [4; (-2)]]]; [[[18000; 0]; [12000; 0]; [6000; 0]; [0; 0]; [0;
0]; [0; 0]; [0; 0]]; [[0; 144]; [0; 180]; [240; (-96)]; [480; (-168)]; [240; (-48)]; [0;
(-12)]; [0; 0]]; [[0; 0]; [0; 0]; [0; 0]; [0; 0]; [0; 0]; [0; 0]; [0; 0]]]; [[[16200; 0];
[10800; 0]; [5400; 0]; [0; 0]; [0; 0]; [0; 0]; [0; 0]]; [[0; 54]; [0; 72]; [72; (-36)]; [144;
(-72)]; [72; (-18)]; [0; 0]; [0; 0]]; [[0; 0]; [0; 0]; [0; 0]; [0; 0]; [0; 0]; [0; 0]; [0;
0]]]; [[[6480; 0]; [4320; 0]; [2160; 0]; [0; 0]; [0; 0]; [0; 0]; [0; 0]]; [[0; 0]; [0; 0]; [0;
0]; [0; 0]; [0; 0]; [0; 0]; [0; 0]]; [[0; 0]; [0; 0]; [0; 0]; [0; 0]; [0; 0]; [0; 0]; [0; 0]]];
[[[972; 0]; [648; 0]; [324; 0]; [0; 0]; [0; 0]; [0; 0]; [0; 0]]; [[0; 0]; [0; 0]; [0; 0]; [0;
0]; [0; 0]; [0; 0]; [0; 0]]; [[0; 0]; [0; 0]; [0; 0]; [0; 0]; [0; 0]; [0; 0]; [0; 0]]]])%Z.

Definition b_full12 : mp 3 := ([[[2229025112064; 0; 0; 0; 0]; [(-1486016741376); 0; 0; 0; 0]; [247669456896; 0; 0; 0; 0]; [0;
0; 0; 0; 0]; [0; 0; 0; 0; 0]; [0; 0; 0; 0; 0]; [0; 0; 0; 0; 0]; [0; 0; 0; 0; 0]; [0; 0; 0; 0;
0]; [0; 0; 0; 0; 0]; [0; 0; 0; 0; 0]; [0; 0; 0; 0; 0]; [0; 0; 0; 0; 0]]; [[206391214080;
(-722369249280); 0; 0; 0]; [75676778496; (-467820085248); 0; 0; 0]; [116955021312;
(-13759414272); 0; 0; 0]; [(-75676778496); 55037657088; 0; 0; 0]; [6879707136; (-6879707136);
0; 0; 0]; [0; 0; 0; 0; 0]; [0; 0; 0; 0; 0]; [0; 0; 0; 0; 0]; [0; 0; 0; 0; 0]; [0; 0; 0; 0; 0];
[0; 0; 0; 0; 0]; [0; 0; 0; 0; 0]; [0; 0; 0; 0; 0]]; [[5852528640; (-10845093888); 8862400512;
0; 0]; [7691894784; (-13090553856); 10558439424; 0; 0]; [10534551552; (-27948810240);
16554295296; 0; 0]; [6210846720; (-16434855936); 8504082432; 0; 0]; [3033759744; (-2341011456);
(-262766592); 0; 0]; [(-1289945088); 2006581248; (-716636160); 0; 0]; [71663616; (-143327232);
71663616; 0; 0]; [0; 0; 0; 0; 0]; [0; 0; 0; 0; 0]; [0; 0; 0; 0; 0]; [0; 0; 0; 0; 0]; [0; 0; 0;
0; 0]; [0; 0; 0; 0; 0]]; [[52752384; (-128397312); (-8957952); 84602880; 0]; [102850560;
(-258785280); (-5971968); 161906688; 0]; [125411328; (-270729216); 105504768; 39813120; 0];
[166551552; (-398131200); 344383488; (-112803840); 0]; [164560896; (-491692032); 453869568;
(-126738432); 0]; [122757120; (-322486272); 252813312; (-53084160); 0]; [39149568; (-63700992);
21897216; 2654208; 0]; [(-9953280); 23887872; (-17915904); 3981312; 0]; [331776; (-995328);
995328; (-331776); 0]; [0; 0; 0; 0; 0]; [0; 0; 0; 0; 0]; [0; 0; 0; 0; 0]; [0; 0; 0; 0; 0]];
[[267840; (-324864); (-10368); (-76032); 143424]; [701568; (-815616); (-103680); (-152064);
369792]; [615744; (-555264); (-701568); 605952; 35136]; [382464; 156672; (-2101248); 2202624;
(-640512)]; [434304; 115200; (-2039040); 1995264; (-505728)]; [633600; (-1732608); 1728000;
(-792576); 163584]; [1079424; (-3902976); 4900608; (-2409984); 332928]; [972288; (-3032064);
3262464; (-1317888); 115200]; [256320; (-638208); 501120; (-112896); (-6336)]; [(-35712);
115200; (-131328); 59904; (-8064)]; [576; (-2304); 3456; (-2304); 576]; [0; 0; 0; 0; 0]; [0; 0;
0; 0; 0]]; [[720; (-1152); (-864); 2304; (-1008)]; [2352; (-3648); (-3168); 7872; (-3408)];
[1776; (-4224); 2016; 1536; (-1104)]; [(-1008); (-5184); 21600; (-23616); 8208]; [(-1248);
(-5376); 23616; (-26112); 9120]; [(-1824); 9600; (-17856); 14208; (-4128)]; [(-4896); 25344;
(-46656); 36864; (-10656)]; [(-2784); 11136; (-16704); 11136; (-2784)]; [2832; (-11904); 18720;
(-13056); 3408]; [3312; (-12096); 16416; (-9792); 2160]; [816; (-2688); 3168; (-1536); 240];
[(-48); 192; (-288); 192; (-48)]; [0; 0; 0; 0; 0]]; [[1; (-4); 6; (-4); 1]; [4; (-16); 24;
(-16); 4]; [2; (-8); 12; (-8); 2]; [(-12); 48; (-72); 48; (-12)]; [(-17); 68; (-102); 68;
(-17)]; [8; (-32); 48; (-32); 8]; [28; (-112); 168; (-112); 28]; [8; (-32); 48; (-32); 8];
[(-17); 68; (-102); 68; (-17)]; [(-12); 48; (-72); 48; (-12)]; [2; (-8); 12; (-8); 2]; [4;
(-16); 24; (-16); 4]; [1; (-4); 6; (-4); 1]]])%Z.

Definition b_full_eq : mp 3 := ([[[256; (-128); 0; 0]; [(-512); 640; (-192); 0]; [256; (-640); 384; (-64)]; [0; 128; (-192);
64]; [0; 0; 0; 0]; [0; 0; 0; 0]; [0; 0; 0; 0]]; [[1280; (-384); 0; 0]; [(-512); 128; 192; 0];
[(-1280); 2176; (-1536); 320]; [512; (-1408); 1344; (-448)]; [0; 0; 0; 0]; [0; 0; 0; 0]; [0; 0;
0; 0]]; [[2880; (-192); 0; 0]; [2432; (-1984); 512; 0]; [(-1984); 192; 1424; (-592)]; [(-1280);
3264; (-3680); 1312]; [256; (-256); 16; (-16)]; [0; 0; 0; 0]; [0; 0; 0; 0]]; [[3968; 512; 0;
0]; [6912; (-1024); (-448); 0]; [1664; (-3968); 1184; 416]; [(-1536); (-2048); 4480; (-2048)];
[(-256); 384; (-224); 96]; [0; 0; 0; 0]; [0; 0; 0; 0]]; [[3776; 704; 0; 0]; [9344; 1728;
(-512); 0]; [6208; (-192); (-1936); 80]; [(-256); (-1408); (-1632); 1760]; [(-640); (-384);
496; (-240)]; [256; (-192); (-64); 0]; [0; 0; 0; 0]]; [[2560; 128; 0; 0]; [8192; 1664; 320; 0];
[8704; 2432; (-320); (-256)]; [2560; 640; (-960); (-704)]; [(-1024); 0; (-64); 320]; [(-512);
256; 256; 0]; [0; 0; 0; 0]]; [[1216; (-320); 0; 0]; [4736; (-64); 256; 0]; [6848; 1344; 880;
80]; [4352; 1472; 224; (-32)]; [1088; 192; (-784); (-240)]; [128; (-256); (-384); 0]; [64;
(-64); 0; 0]]; [[384; (-256); 0; 0]; [1792; (-768); (-64); 0]; [3200; (-640); 160; 32]; [2560;
256; 768; 128]; [640; 768; 800; 96]; [(-256); 512; 256; 0]; [(-128); 128; 0; 0]]; [[64; (-64);
0; 0]; [384; (-320); (-64); 0]; [960; (-704); (-240); (-16)]; [1280; (-896); (-352); (-32)];
[960; (-704); (-240); (-16)]; [384; (-320); (-64); 0]; [64; (-64); 0; 0]]])%Z.

Lemma unit_sq a : 0 <= a <= 1 -> 0 <= a ^ 2 <= 1.
Proof. intros. split; nra. Qed.

(** ** polar bracket [lo, 8] *)
Definition polar_lo : R := 1 + sqrt 3 + sqrt (3 + 2 * sqrt 3).
Lemma polar_lo_quartic : polar_lo^4 - 4*polar_lo^3 - 6*polar_lo^2 - 4*polar_lo + 1 = 0.
Proof.
  unfold polar_lo. set (u := sqrt 3). set (v := sqrt (3 + 2 * u)).
  assert (Hu : u * u = 3) by (apply sqrt_sqrt; lra).
  assert (Hu0 : 0 <= u) by apply sqrt_pos.
  assert (Hv : v * v = 3 + 2 * u) by (apply sqrt_sqrt; lra).
  replace ((1 + u + v)^4 - 4*(1 + u + v)^3 - 6*(1 + u + v)^2 - 4*(1 + u + v) + 1)
    with ((u + v) ^ 4 - 12 * (1 + u + v) ^ 2) by ring.
  assert (H2 : (u + v)^2 = 6 + 2*u + 2*u*v) by (replace ((u+v)^2) with (u*u + v*v + 2*u*v) by ring; lra).
  replace ((u+v)^4) with ((u+v)^2*(u+v)^2) by ring. rewrite H2.
  replace ((1+u+v)^2) with (1 + 2*(u+v) + (u+v)^2) by ring. rewrite H2.
  replace ((6 + 2*u + 2*u*v) * (6 + 2*u + 2*u*v))
    with (36 + 4*(u*u) + 4*(u*u)*(v*v) + 24*u + 24*u*v + 8*(u*u)*v) by ring.
  rewrite Hv, Hu. ring.
Qed.
Lemma polar_lo_bounds : 5 <= polar_lo <= 6.
Proof.
  unfold polar_lo.
  assert (Hu : sqrt 3 * sqrt 3 = 3) by (apply sqrt_sqrt; lra).
  assert (Hu0 : 0 <= sqrt 3) by apply sqrt_pos.
  assert (H1 : 17/10 <= sqrt 3 <= 18/10) by (split; nra).
  set (w := 3 + 2 * sqrt 3). assert (Hw : 64/10 <= w <= 66/10) by (unfold w; lra).
  assert (Hv : sqrt w * sqrt w = w) by (apply sqrt_sqrt; lra).
  assert (Hv0 : 0 <= sqrt w) by apply sqrt_pos.
  assert (25/10 <= sqrt w <= 26/10) by (split; nra). lra.
Qed.

Lemma S_polar_lo a e : 0 <= a <= 1 -> 0 <= e <= 1 -> S_polar polar_lo a e <= 0.
Proof.
  intros Ha He. pose proof polar_lo_bounds as Hp. pose proof polar_lo_quartic as Hq.
  set (p := polar_lo) in *.
  assert (H1 : 0 <= ev 2 b_polar_lo_e [p - 5; e]) by (apply chk2; [vm_compute; reflexivity | lra | lra]).
  assert (H2 : 0 <= ev 3 b_polar_lo_a [p - 5; a; e]) by (apply chk3; [vm_compute; reflexivity | lra | lra | lra]).
  assert (E1 : ev 2 b_polar_lo_e [p - 5; e]
    = (p^4 - 4*p^3 - 6*p^2 - 4*p + 1) * (p - 1)^2 - S_polar p 1 e).
  { cbv [ev hd tl b_polar_lo_e]. unfold S_polar. rnum. ring. }
  assert (E2 : ev 3 b_polar_lo_a [p - 5; a; e] = S_polar p 1 e - S_polar p a e).
  { cbv [ev hd tl b_polar_lo_a]. unfold S_polar. rnum. ring. }
  rewrite E1 in H1. rewrite E2 in H2. rewrite Hq in H1. lra.
Qed.
Lemma S_polar_8 a e : 0 <= a <= 1 -> 0 <= e <= 1 -> 0 <= S_polar 8 a e.
Proof.
  intros Ha He.
  assert (H1 : 0 <= ev 2 b_polar8 [a; e]) by (apply chk2; [vm_compute; reflexivity | lra | lra]).
  replace (S_polar 8 a e) with (ev 2 b_polar8 [a; e]); [assumption|].
  cbv [ev hd tl b_polar8]. unfold S_polar. rnum. ring.
Qed.

(** ** equatorial brackets *)
Lemma S_equatorial_lo a e : 0 <= a <= 1 -> 0 <= e <= 1 -> 0 <= S_equatorial (1 + e) a e.
Proof.
  intros Ha He.
  replace (S_equatorial (1 + e) a e)
    with ((1 + e)^2 * ((1 - a^2) * ((5 + e)^2 - a^2 * (3 - e)^2)))
    by (unfold S_equatorial; rnum; ring).
  assert (0 <= 1 - a^2) by nra.
  assert (0 <= (5 + e)^2 - a^2 * (3 - e)^2).
  { replace ((5 + e)^2 - a^2 * (3 - e)^2) with ((5+e)^2 - (3-e)^2 + (1 - a^2)*(3-e)^2) by ring.
    assert (0 <= (1 - a^2)*(3-e)^2) by (apply Rmult_le_pos; [assumption | apply pow2_ge_0]).
    nra. }
  apply Rmult_le_pos; [apply pow2_ge_0|]. now apply Rmult_le_pos.
Qed.
Lemma S_equatorial_hi a e : 0 <= a <= 1 -> 0 <= e <= 1 -> S_equatorial (6 + 2*e) a e <= 0.
Proof.
  intros Ha He.
  assert (H1 : 0 <= ev 2 b_eq_hi [a; e]) by (apply chk2; [vm_compute; reflexivity | lra | lra]).
  replace (S_equatorial (6 + 2*e) a e) with (- ev 2 b_eq_hi [a; e]); [lra|].
  cbv [ev hd tl b_eq_hi]. unfold S_equatorial. rnum. ring.
Qed.
Lemma S_equatorial_retro a e : 0 <= a <= 1 -> 0 <= e <= 1 ->
  0 <= S_equatorial (5 + e + 4 * sqrt (1 + e)) a e.
Proof.
  intros Ha He. set (s := sqrt (1 + e)).
  assert (Hs : s * s = 1 + e) by (apply sqrt_sqrt; lra).
  assert (Hs0 : 0 <= s) by apply sqrt_pos.
  assert (Hb : 1 <= s <= 15/10) by (split; nra).
  assert (H1 : 0 <= ev 2 b_eq_retro [2 * (s - 1); a]) by (apply chk2; [vm_compute; reflexivity | lra | lra]).
  replace (5 + e + 4 * s) with ((s + 2)^2) by (simpl; nra).
  replace e with (s * s - 1) by lra.
  replace (S_equatorial ((s + 2)^2) a (s * s - 1))
    with ((1 - a^2) * (ev 2 b_eq_retro [2 * (s - 1); a] / 256)).
  - apply Rmult_le_pos; nra.
  - cbv [ev hd tl b_eq_retro]. unfold S_equatorial. rnum. field.
Qed.

(** ** the full polynomial as a difference of squares *)
Definition NE_ (p A e y : R) : R :=
  let k := 1 - e in let c := 1 + e in
  (2*A*p*k*c*c - 2*A*p*p*k*c*(1-y) - 2*A*p*k*c*c*y - A*p*p*c*c*(1-y) + 4*A*p*k*k*c*(1-y)
   - 3*A*p*p*k*k*(1-y) - A*A*(1-y)^2*k*k*c*c - 2*p^3*k + p^4)*c*c + 2*p^4*k*c.
Definition Nl_ (p A e y : R) : R :=
  let k := 1 - e in let c := 1 + e in
  -4*A*p^3*k*c*c + 2*A*p^3*k*c*c*y + 2*A*A*p*k*c^4*(1-y) + 4*A*A*p*k*k*c^3*(1-y) + 2*p^5*k + 4*p^5*c.
Definition w1_ (p A e : R) : R :=
  let k := 1 - e in let c := 1 + e in
  4*p^4*k*c + 6*p^4*c*c + 2*p^4*k*k - 4*A*p*p*k*c^3 + 2*A*p*p*c^4 + 2*A*p*p*k*k*c*c + 4*A^2*k*k*c^4.
Definition w2_ (p A e : R) : R :=
  let k := 1 - e in let c := 1 + e in
  4*A*p*p*k*c^3 - 4*A*p*k*c^4 - 8*A*p*k*k*c^3 + 2*A*p*p*k*k*c*c - 2*A^2*k*k*c^4.
Definition NW_ (p A e y : R) : R :=
  let k := 1 - e in let c := 1 + e in
  (-8*A*p^3*k*c*c - 4*A*p^4*c*c - 2*A*p^4*k*k + 4*A*A*p*k*c^4 - 2*A*A*p*p*c^4 + 8*A*A*p*k*k*c^3
   - 4*A*A*p*p*k*k*c*c - 2*A^3*k*k*c^4 + 4*p^5*k + 8*p^5*c - 2*p^6)
  + A * y * (w1_ p A e + y * w2_ p A e).

Lemma S_full_squares p a e x :
  4 * S_full p a e x
  = NW_ p (a^2) e (x^2) ^ 2 - 16 * a^2 * x^2 * NE_ p (a^2) e (x^2) * Nl_ p (a^2) e (x^2).
Proof. unfold S_full, NW_, NE_, Nl_, w1_, w2_. rnum. ring. Qed.
Lemma NW_polar p a e y :
  NW_ p (a^2) e y = - 2 * S_polar p a e + a^2 * y * (w1_ p (a^2) e + y * w2_ p (a^2) e).
Proof. unfold NW_, w1_, w2_, S_polar. rnum. ring. Qed.

(** at the polar separatrix *)
Lemma S_full_at_polar_both p a e x :
  0 <= a <= 1 -> 0 <= e <= 1 -> -1 <= x <= 1 -> 5 <= p <= 8 -> S_polar p a e = 0 ->
  S_full p a e x <= 0 /\ (0 < a -> x <> 0 -> S_full p a e x < 0).
Proof.
  intros Ha He Hx Hp Hz.
  pose proof (S_full_squares p a e x) as H. rewrite NW_polar, Hz in H.
  set (A := a^2) in *. set (y := x^2) in *.
  assert (HA : 0 <= A <= 1) by (apply unit_sq; lra).
  assert (Hy : 0 <= y <= 1) by (unfold y; split; nra).
  assert (Ht : 0 <= (p - 5) / 3 <= 1) by lra.
  assert (H1 : 0 <= ev 4 b_NE [(p - 5)/3; A; e; y]) by (apply chk4; [vm_compute; reflexivity | lra ..]).
  assert (H2 : 0 <= ev 4 b_Nl [(p - 5)/3; A; e; y]) by (apply chk4; [vm_compute; reflexivity | lra ..]).
  assert (H3 : 0 <= ev 4 b_wp [(p - 5)/3; A; e; y]) by (apply chk4; [vm_compute; reflexivity | lra ..]).
  assert (H4 : 0 <= ev 4 b_wm [(p - 5)/3; A; e; y]) by (apply chk4; [vm_compute; reflexivity | lra ..]).
  assert (E1 : ev 4 b_NE [(p - 5)/3; A; e; y] = 2 * NE_ p A e y - 3 * p^4 * (1 + e)).
  { cbv [ev hd tl b_NE]. unfold NE_. field. }
  assert (E2 : ev 4 b_Nl [(p - 5)/3; A; e; y] = Nl_ p A e y - 5 * p^5).
  { cbv [ev hd tl b_Nl]. unfold Nl_. field. }
  assert (E3 : ev 4 b_wp [(p - 5)/3; A; e; y] = 16 * p^4 * (1 + e) - (w1_ p A e + y * w2_ p A e)).
  { cbv [ev hd tl b_wp]. unfold w1_, w2_. field. }
  assert (E4 : ev 4 b_wm [(p - 5)/3; A; e; y] = w1_ p A e + y * w2_ p A e).
  { cbv [ev hd tl b_wm]. unfold w1_, w2_. field. }
  rewrite E1 in H1. rewrite E2 in H2. rewrite E3 in H3. rewrite E4 in H4. clear E1 E2 E3 E4.
  set (w := w1_ p A e + y * w2_ p A e) in *. set (n := NE_ p A e y) in *. set (l := Nl_ p A e y) in *.
  assert (Hq : 0 < p^4) by (apply pow_lt; lra).
  assert (Hq5 : 5 * p^4 <= p^5) by (replace (p^5) with (p * p^4) by ring; nra).
  assert (Hw : w * w <= 256 * (p^4 * p^4) * ((1+e)*(1+e))).
  { assert (Hw1 : w * w <= (16 * p^4 * (1 + e)) * (16 * p^4 * (1 + e))) by (apply Rmult_le_compat; lra).
    lra. }
  assert (Hn : 3/2 * p^4 * (1+e) <= n) by lra.
  assert (Hl : 25 * p^4 <= l) by lra.
  assert (Hnl : (3/2 * p^4 * (1+e)) * (25 * p^4) <= n * l) by (apply Rmult_le_compat; try nra).
  assert (K : w * w < 16 * (n * l)).
  { assert (0 < p^4 * p^4) by nra. nra. }
  assert (0 <= A * y) by nra.
  assert (G : 4 * S_full p a e x = A * y * (A * y * (w * w) - 16 * (n * l))) by (rewrite H; ring).
  assert (A * y <= 1) by nra.
  assert (0 <= w * w) by nra.
  assert (A * y * (w * w) - 16 * (n * l) < 0) by nra.
  split; [nra|]. intros Ha0 Hx0. assert (0 < A) by (unfold A; nra).
  assert (0 < y) by (unfold y; rewrite <- Rsqr_pow2; apply Rsqr_pos_lt; assumption).
  assert (0 < A * y) by (apply Rmult_lt_0_compat; assumption). nra.
Qed.
Lemma S_full_at_polar p a e x :
  0 <= a <= 1 -> 0 <= e <= 1 -> -1 <= x <= 1 -> 5 <= p <= 8 -> S_polar p a e = 0 ->
  S_full p a e x <= 0.
Proof. intros. now apply S_full_at_polar_both. Qed.

(** at p = 12 *)
Lemma S_full_12 a e x : 0 <= a <= 1 -> 0 <= e <= 1 -> -1 <= x <= 1 -> 0 <= S_full 12 a e x.
Proof.
  intros Ha He Hx.
  assert (H1 : 0 <= ev 3 b_full12 [a^2; e; x^2]).
  { apply chk3; [vm_compute; reflexivity | apply unit_sq; lra | lra | split; nra]. }
  replace (S_full 12 a e x) with (ev 3 b_full12 [a^2; e; x^2]); [assumption|].
  cbv [ev hd tl b_full12]. unfold S_full. rnum. ring.
Qed.

(** at the equatorial prograde separatrix: C = 1 - a/m with m^2 = p/(1+e), k = 1/(1+e) *)
Definition NE_eq (C k y : R) : R :=
   (16)*C*k + (8)*C*k*y + (-16)*C*k*y^2 + (-16)*C*k^2 + (16)*C*k^2*y^2 + (-4)*C*y + (4)*C*y^2 +
   (-16)*C^2*k + (4)*C^2*k*y + (24)*C^2*k*y^2 + (88)*C^2*k^2 + (-48)*C^2*k^2*y + (-24)*C^2*k^2*y^2
   + (-48)*C^2*k^3 + (48)*C^2*k^3*y + (2)*C^2*y + (-6)*C^2*y^2 + (-16)*C^3*k*y + (-16)*C^3*k*y^2 +
   (-32)*C^3*k^2 + (80)*C^3*k^2*y + (16)*C^3*k^2*y^2 + (96)*C^3*k^3 + (-96)*C^3*k^3*y +
   (4)*C^3*y^2 + (8)*C^4*k*y + (4)*C^4*k*y^2 + (-8)*C^4*k^2 + (-36)*C^4*k^2*y + (-4)*C^4*k^2*y^2 +
   (16)*C^4*k^3 + (48)*C^4*k^3*y + (-1)*C^4*y^2 + (-4)*k*y + (4)*k*y^2 + (4)*k^2*y + (-4)*k^2*y^2
   + (2)*y + (-1)*y^2.

Definition Nl_eq (C k y : R) : R :=
   (8) + (64)*C*k + (-48)*C*k*y + (-64)*C*k^2 + (64)*C*k^2*y + (8)*C*y + (48)*C^2*k*y +
   (96)*C^2*k^2 + (-80)*C^2*k^2*y + (-4)*C^2*y + (-16)*C^3*k*y + (64)*C^3*k^2 + (32)*C^3*k^2*y +
   (-16)*C^4*k^2 + (64)*C^4*k^3 + (-16)*k + (16)*k*y + (16)*k^2 + (-16)*k^2*y + (-4)*y.

Definition NW_eq (C k y : R) : R :=
   (64)*C*k + (96)*C*k*y + (-112)*C*k*y^2 + (-64)*C*k^2 + (-64)*C*k^2*y + (128)*C*k^2*y^2 +
   (-16)*C*y + (24)*C*y^2 + (-32)*C^2*k*y + (144)*C^2*k*y^2 + (224)*C^2*k^2 + (48)*C^2*k^2*y +
   (-208)*C^2*k^2*y^2 + (-128)*C^2*k^3 + (96)*C^2*k^3*y + (32)*C^2*k^3*y^2 + (-24)*C^2*y^2 +
   (-32)*C^3*k*y + (-80)*C^3*k*y^2 + (96)*C^3*k^2 + (48)*C^3*k^2*y + (176)*C^3*k^2*y^2 +
   (128)*C^3*k^3 + (-32)*C^3*k^3*y + (-96)*C^3*k^3*y^2 + (8)*C^3*y^2 + (16)*C^4*k*y^2 +
   (-48)*C^4*k^2*y + (-80)*C^4*k^2*y^2 + (256)*C^4*k^3 + (-96)*C^4*k^3*y + (96)*C^4*k^3*y^2 +
   (-128)*C^4*k^4 + (128)*C^4*k^4*y + (-16)*C^5*k^2*y + (16)*C^5*k^2*y^2 + (32)*C^5*k^3*y +
   (-32)*C^5*k^3*y^2 + (128)*C^5*k^4 + (-128)*C^5*k^4*y + (-32)*k*y + (32)*k*y^2 + (32)*k^2*y +
   (-32)*k^2*y^2 + (16)*y + (-8)*y^2.

Definition t_eq (C k y : R) : R :=
   (1024) + (7168)*C*k + (-16896)*C*k*y + (14592)*C*k*y^2 + (-3968)*C*k*y^3 + (-11264)*C*k^2 +
   (25600)*C*k^2*y + (-22272)*C*k^2*y^2 + (6656)*C*k^2*y^3 + (4096)*C*k^3 + (-11264)*C*k^3*y +
   (10752)*C*k^3*y^2 + (-3584)*C*k^3*y^3 + (3072)*C*y + (-3072)*C*y^2 + (768)*C*y^3 + (3072)*C^2*k
   + (16896)*C^2*k*y + (-26880)*C^2*k*y^2 + (10368)*C^2*k*y^3 + (13568)*C^2*k^2 +
   (-44544)*C^2*k^2*y + (50240)*C^2*k^2*y^2 + (-18496)*C^2*k^2*y^3 + (-18432)*C^2*k^3 +
   (34304)*C^2*k^3*y + (-29952)*C^2*k^3*y^2 + (11008)*C^2*k^3*y^3 + (4096)*C^2*k^4 +
   (-4096)*C^2*k^4*y + (256)*C^2*k^4*y^2 + (-256)*C^2*k^4*y^3 + (-1536)*C^2*y + (4608)*C^2*y^2 +
   (-1920)*C^2*y^3 + (-1536)*C^3*k*y + (23040)*C^3*k*y^2 + (-14720)*C^3*k*y^3 + (18944)*C^3*k^2 +
   (17920)*C^3*k^2*y + (-54400)*C^3*k^2*y^2 + (28544)*C^3*k^2*y^3 + (-4096)*C^3*k^3 +
   (-28672)*C^3*k^3*y + (43008)*C^3*k^3*y^2 + (-19456)*C^3*k^3*y^3 + (-4096)*C^3*k^4 +
   (6144)*C^3*k^4*y + (-3584)*C^3*k^4*y^2 + (1536)*C^3*k^4*y^3 + (-3072)*C^3*y^2 + (2560)*C^3*y^3
   + (-3072)*C^4*k*y + (-7680)*C^4*k*y^2 + (12160)*C^4*k*y^3 + (2304)*C^4*k^2 + (14592)*C^4*k^2*y
   + (26304)*C^4*k^2*y^2 + (-26560)*C^4*k^2*y^3 + (38912)*C^4*k^3 + (-14336)*C^4*k^3*y +
   (-34048)*C^4*k^3*y^2 + (21760)*C^4*k^3*y^3 + (-30720)*C^4*k^4 + (9216)*C^4*k^4*y +
   (13056)*C^4*k^4*y^2 + (-3840)*C^4*k^4*y^3 + (8192)*C^4*k^5 + (-6144)*C^4*k^5*y +
   (-2048)*C^4*k^5*y^2 + (768)*C^4*y^2 + (-1920)*C^4*y^3 + (-768)*C^5*k*y^2 + (-5760)*C^5*k*y^3 +
   (-8192)*C^5*k^2*y + (-1536)*C^5*k^2*y^2 + (15104)*C^5*k^2*y^3 + (12288)*C^5*k^3 +
   (25600)*C^5*k^3*y + (14848)*C^5*k^3*y^2 + (-15872)*C^5*k^3*y^3 + (24576)*C^5*k^4 +
   (-20480)*C^5*k^4*y + (-21504)*C^5*k^4*y^2 + (5120)*C^5*k^4*y^3 + (-16384)*C^5*k^5 +
   (8192)*C^5*k^5*y + (8192)*C^5*k^5*y^2 + (768)*C^5*y^3 + (768)*C^6*k*y^2 + (1408)*C^6*k*y^3 +
   (-1280)*C^6*k^2*y + (-2624)*C^6*k^2*y^2 + (-5056)*C^6*k^2*y^3 + (-4608)*C^6*k^3*y +
   (-3840)*C^6*k^3*y^2 + (7424)*C^6*k^3*y^3 + (22528)*C^6*k^4 + (8192)*C^6*k^4*y +
   (18176)*C^6*k^4*y^2 + (-3840)*C^6*k^4*y^3 + (-8192)*C^6*k^5 + (4096)*C^6*k^5*y +
   (-12288)*C^6*k^5*y^2 + (4096)*C^6*k^6 + (-4096)*C^6*k^6*y + (-128)*C^6*y^3 + (-128)*C^7*k*y^3 +
   (384)*C^7*k^2*y^2 + (896)*C^7*k^2*y^3 + (-2048)*C^7*k^3*y + (1024)*C^7*k^3*y^2 +
   (-2048)*C^7*k^3*y^3 + (2048)*C^7*k^4*y + (-7680)*C^7*k^4*y^2 + (1536)*C^7*k^4*y^3 +
   (16384)*C^7*k^5 + (-8192)*C^7*k^5*y + (8192)*C^7*k^5*y^2 + (-8192)*C^7*k^6 + (8192)*C^7*k^6*y +
   (64)*C^8*k^2*y^2 + (-64)*C^8*k^2*y^3 + (-256)*C^8*k^3*y^2 + (256)*C^8*k^3*y^3 +
   (-1024)*C^8*k^4*y + (1280)*C^8*k^4*y^2 + (-256)*C^8*k^4*y^3 + (2048)*C^8*k^5*y +
   (-2048)*C^8*k^5*y^2 + (4096)*C^8*k^6 + (-4096)*C^8*k^6*y + (-2048)*k + (4608)*k*y +
   (-3072)*k*y^2 + (640)*k*y^3 + (1024)*k^2 + (-4096)*k^2*y + (3840)*k^2*y^2 + (-1024)*k^2*y^3 +
   (1024)*k^3*y + (-1536)*k^3*y^2 + (512)*k^3*y^3 + (-1536)*y + (768)*y^2 + (-128)*y^3.

Lemma eq_factor C k y :
  NW_eq C k y ^ 2 - 16 * y * NE_eq C k y * Nl_eq C k y = 4 * (1 - y) * C^2 * k^2 * t_eq C k y.
Proof. unfold NW_eq, NE_eq, Nl_eq, t_eq. ring. Qed.
Definition M2 (C k : R) : R := 1 + 2*C - C^2 + 4*C^2*k.
Lemma eq_parts C k y : k <> 0 ->
  let p := M2 C k / k in let A := (1 - C)^2 * M2 C k in let e := 1 / k - 1 in
  k^6 * NE_ p A e y = M2 C k ^ 2 * NE_eq C k y /\
  k^6 * Nl_ p A e y = M2 C k ^ 3 * Nl_eq C k y /\
  k^6 * NW_ p A e y = M2 C k ^ 3 * (1 - C) * NW_eq C k y.
Proof.
  intros Hk. cbv zeta. unfold NE_, Nl_, NW_, w1_, w2_, NE_eq, Nl_eq, NW_eq, M2.
  repeat split; field; assumption.
Qed.
Lemma t_eq_nonneg C k y : 0 <= C <= 1 -> 1/2 <= k <= 1 -> 0 <= y <= 1 -> 0 <= t_eq C k y.
Proof.
  intros HC Hk Hy.
  assert (H1 : 0 <= ev 3 b_full_eq [C; 2*k - 1; y]) by (apply chk3; [vm_compute; reflexivity | lra ..]).
  replace (t_eq C k y) with (ev 3 b_full_eq [C; 2*k - 1; y]); [assumption|].
  cbv [ev hd tl b_full_eq]. unfold t_eq. ring.
Qed.

Lemma S_equatorial_param p a e :
  0 < a < 1 -> 0 <= e <= 1 -> 1 + e <= p <= 6 + 2*e -> S_equatorial p a e = 0 ->
  exists C, 0 <= C <= 1 /\ p = M2 C (/ (1 + e)) * (1 + e) /\ a^2 = (1 - C)^2 * M2 C (/ (1 + e)).
Proof.
  intros Ha He Hp Hz.
  set (m := sqrt (p / (1 + e))).
  assert (Hq : 1 <= p / (1 + e)).
  { apply Rmult_le_reg_r with (1 + e); [lra|]. unfold Rdiv. rewrite Rmult_assoc, Rinv_l by lra. lra. }
  assert (Hm2 : m * m = p / (1 + e)) by (apply sqrt_sqrt; lra).
  assert (Hm0 : 0 <= m) by apply sqrt_pos.
  assert (Hm : 1 <= m) by nra.
  assert (Hpm : p = (1 + e) * (m * m)) by (rewrite Hm2; field; lra).
  assert (HF : ((3 - e)*a^2 - 8*m*a + m*m*(6 + 2*e - p)) * ((3 - e)*a^2 + 8*m*a + m*m*(6 + 2*e - p)) = 0).
  { apply Rmult_eq_reg_l with ((1 + e)^2); [|apply pow_nonzero; lra].
    rewrite Rmult_0_r. rewrite <- Hz. rewrite Hpm. unfold S_equatorial. rnum. ring. }
  assert (Hpos : 0 < (3 - e)*a^2 + 8*m*a + m*m*(6 + 2*e - p)).
  { assert (0 < m * a) by nra. assert (0 <= (3 - e) * a^2) by nra.
    assert (0 <= m*m*(6+2*e-p)) by (apply Rmult_le_pos; nra). nra. }
  assert (H0 : (3 - e)*a^2 - 8*m*a + m*m*(6 + 2*e - p) = 0).
  { apply Rmult_integral in HF. destruct HF; lra. }
  exists (1 - a / m).
  assert (Ham : 0 < a / m <= 1).
  { split; [apply Rdiv_lt_0_compat; lra|]. apply Rmult_le_reg_r with m; [lra|].
    unfold Rdiv. rewrite Rmult_assoc, Rinv_l by lra. lra. }
  split; [lra|].
  assert (HM : M2 (1 - a / m) (/ (1 + e)) = m * m).
  { assert (Ha' : a = (a / m) * m) by (field; lra). set (b := a / m) in *.
    rewrite Ha', Hpm in H0.
    assert (K : (3 - e) * b^2 - 8 * b + (6 + 2*e - (1 + e) * (m * m)) = 0).
    { apply Rmult_eq_reg_l with (m * m); [|nra]. rewrite Rmult_0_r, <- H0. ring. }
    unfold M2. apply Rmult_eq_reg_l with (1 + e); [|lra].
    replace ((1 + e) * (1 + 2 * (1 - b) - (1 - b) ^ 2 + 4 * (1 - b) ^ 2 * / (1 + e)))
      with ((3 - e) * b^2 - 8 * b + (6 + 2*e)) by (field; lra). lra. }
  rewrite HM. split; [rewrite Hpm; ring|]. field. lra.
Qed.

Lemma S_full_at_equatorial p a e x :
  0 < a < 1 -> 0 <= e <= 1 -> -1 <= x <= 1 -> 1 + e <= p <= 6 + 2*e -> S_equatorial p a e = 0 ->
  0 <= S_full p a e x.
Proof.
  intros Ha He Hx Hp Hz.
  destruct (S_equatorial_param p a e Ha He Hp Hz) as [C [HC [Hp' Ha']]].
  set (k := / (1 + e)) in *.
  assert (Hk : 1/2 <= k <= 1).
  { unfold k. split.
    - apply Rmult_le_reg_r with (1 + e); [lra|]. rewrite Rinv_l by lra. lra.
    - apply Rmult_le_reg_r with (1 + e); [lra|]. rewrite Rinv_l by lra. lra. }
  assert (Hk0 : k <> 0) by lra.
  assert (Hke : e = 1 / k - 1) by (unfold k; field; lra).
  assert (Hpk : p = M2 C k / k) by (rewrite Hp' at 1; replace (1 + e) with (/ k) by (unfold k; field; lra); reflexivity).
  destruct (eq_parts C k (x^2) Hk0) as [P1 [P2 P3]].
  rewrite <- Hpk, <- Ha', <- Hke in P1, P2, P3.
  pose proof (S_full_squares p a e x) as H.
  assert (Hy : 0 <= x^2 <= 1) by (split; nra).
  pose proof (t_eq_nonneg C k (x^2) HC Hk Hy) as Ht.
  pose proof (eq_factor C k (x^2)) as Hf.
  assert (HM : 0 <= M2 C k) by (unfold M2; nra).
  assert (G : k^12 * (4 * S_full p a e x)
    = M2 C k ^ 6 * (1 - C)^2 * (4 * (1 - x^2) * C^2 * k^2 * t_eq C k (x^2))).
  { rewrite H, <- Hf.
    replace (k^12 * (NW_ p (a ^ 2) e (x ^ 2) ^ 2 -
      16 * a ^ 2 * x ^ 2 * NE_ p (a ^ 2) e (x ^ 2) * Nl_ p (a ^ 2) e (x ^ 2)))
    with ((k^6 * NW_ p (a ^ 2) e (x ^ 2)) ^ 2
      - 16 * a ^ 2 * x ^ 2 * (k^6 * NE_ p (a ^ 2) e (x ^ 2)) * (k^6 * Nl_ p (a ^ 2) e (x ^ 2))) by ring.
    rewrite P1, P2, P3. rewrite Ha'. ring. }
  assert (0 <= k^12 * (4 * S_full p a e x)).
  { rewrite G. repeat apply Rmult_le_pos; try apply pow2_ge_0; try apply pow_le; lra. }
  assert (0 < k^12) by (apply pow_lt; lra).
  apply Rmult_le_reg_l with (k^12 * 4); nra.
Qed.

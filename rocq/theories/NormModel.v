(** Model of src/stats_utils/normal.rs: the upper tail of the normal law, from which the library
    takes the p-values of [mann_whitney_u], [xi_corr] and of t tests with infinitely many degrees of
    freedom.

    Simplification: arithmetic is exact (real numbers), [exp] and [sqrt] are the real functions, and a
    decimal literal is the rational number it writes, not the double nearest to it.  Infinite and NaN
    arguments are kept ([xr]). *)
From Coq Require Import List QArith Reals.
Import ListNotations.
Local Open Scope R_scope.

(** extended numbers, as far as doubles distinguish them *)
Inductive xr := Fin (x : R) | PInf | NInf | NaN.

(** normal.rs:3-12  ERF_IMPL_AN *)
Definition ERF_AN : list Q :=
  [ 0.00337916709551257388990745;
    -0.00073695653048167948530905;
    -0.374732337392919607868241;
    0.0817442448733587196071743;
    -0.0421089319936548595203468;
    0.0070165709512095756344528;
    -0.00495091255982435110337458;
    0.000871646599037922480317225 ]%Q.

(** normal.rs:16-25  ERF_IMPL_AD *)
Definition ERF_AD : list Q :=
  [ 1.0;
    -0.218088218087924645390535;
    0.412542972725442099083918;
    -0.0841891147873106755410271;
    0.0655338856400241519690695;
    -0.0120019604454941768171266;
    0.00408165558926174048329689;
    -0.000615900721557769691924509 ]%Q.

(** normal.rs:29-36  ERF_IMPL_BN *)
Definition ERF_BN : list Q :=
  [ -0.0361790390718262471360258;
    0.292251883444882683221149;
    0.281447041797604512774415;
    0.125610208862766947294894;
    0.0274135028268930549240776;
    0.00250839672168065762786937 ]%Q.

(** normal.rs:40-47  ERF_IMPL_BD *)
Definition ERF_BD : list Q :=
  [ 1.0;
    1.8545005897903486499845;
    1.43575803037831418074962;
    0.582827658753036572454135;
    0.124810476932949746447682;
    0.0113724176546353285778481 ]%Q.

(** normal.rs:51-59  ERF_IMPL_CN *)
Definition ERF_CN : list Q :=
  [ -0.0397876892611136856954425;
    0.153165212467878293257683;
    0.191260295600936245503129;
    0.10276327061989304213645;
    0.029637090615738836726027;
    0.0046093486780275489468812;
    0.000307607820348680180548455 ]%Q.

(** normal.rs:63-71  ERF_IMPL_CD *)
Definition ERF_CD : list Q :=
  [ 1.0;
    1.95520072987627704987886;
    1.64762317199384860109595;
    0.768238607022126250082483;
    0.209793185936509782784315;
    0.0319569316899913392596356;
    0.00213363160895785378615014 ]%Q.

(** normal.rs:75-83  ERF_IMPL_DN *)
Definition ERF_DN : list Q :=
  [ -0.0300838560557949717328341;
    0.0538578829844454508530552;
    0.0726211541651914182692959;
    0.0367628469888049348429018;
    0.00964629015572527529605267;
    0.00133453480075291076745275;
    0.778087599782504251917881e-4 ]%Q.

(** normal.rs:87-96  ERF_IMPL_DD *)
Definition ERF_DD : list Q :=
  [ 1.0;
    1.75967098147167528287343;
    1.32883571437961120556307;
    0.552528596508757581287907;
    0.133793056941332861912279;
    0.0179509645176280768640766;
    0.00104712440019937356634038;
    -0.106640381820357337177643e-7 ]%Q.

(** normal.rs:100-108  ERF_IMPL_EN *)
Definition ERF_EN : list Q :=
  [ -0.0117907570137227847827732;
    0.014262132090538809896674;
    0.0202234435902960820020765;
    0.00930668299990432009042239;
    0.00213357802422065994322516;
    0.00025022987386460102395382;
    0.120534912219588189822126e-4 ]%Q.

(** normal.rs:112-120  ERF_IMPL_ED *)
Definition ERF_ED : list Q :=
  [ 1.0;
    1.50376225203620482047419;
    0.965397786204462896346934;
    0.339265230476796681555511;
    0.0689740649541569716897427;
    0.00771060262491768307365526;
    0.000371421101531069302990367 ]%Q.

(** normal.rs:124-132  ERF_IMPL_FN *)
Definition ERF_FN : list Q :=
  [ -0.00546954795538729307482955;
    0.00404190278731707110245394;
    0.0054963369553161170521356;
    0.00212616472603945399437862;
    0.000394984014495083900689956;
    0.365565477064442377259271e-4;
    0.135485897109932323253786e-5 ]%Q.

(** normal.rs:136-145  ERF_IMPL_FD *)
Definition ERF_FD : list Q :=
  [ 1.0;
    1.21019697773630784832251;
    0.620914668221143886601045;
    0.173038430661142762569515;
    0.0276550813773432047594539;
    0.00240625974424309709745382;
    0.891811817251336577241006e-4;
    -0.465528836283382684461025e-11 ]%Q.

(** normal.rs:149-156  ERF_IMPL_GN *)
Definition ERF_GN : list Q :=
  [ -0.00270722535905778347999196;
    0.0013187563425029400461378;
    0.00119925933261002333923989;
    0.00027849619811344664248235;
    0.267822988218331849989363e-4;
    0.923043672315028197865066e-6 ]%Q.

(** normal.rs:160-168  ERF_IMPL_GD *)
Definition ERF_GD : list Q :=
  [ 1.0;
    0.814632808543141591118279;
    0.268901665856299542168425;
    0.0449877216103041118694989;
    0.00381759663320248459168994;
    0.000131571897888596914350697;
    0.404815359675764138445257e-11 ]%Q.

(** normal.rs:172-179  ERF_IMPL_HN *)
Definition ERF_HN : list Q :=
  [ -0.00109946720691742196814323;
    0.000406425442750422675169153;
    0.000274499489416900707787024;
    0.465293770646659383436343e-4;
    0.320955425395767463401993e-5;
    0.778286018145020892261936e-7 ]%Q.

(** normal.rs:183-190  ERF_IMPL_HD *)
Definition ERF_HD : list Q :=
  [ 1.0;
    0.588173710611846046373373;
    0.139363331289409746077541;
    0.0166329340417083678763028;
    0.00100023921310234908642639;
    0.24254837521587225125068e-4 ]%Q.

(** normal.rs:194-200  ERF_IMPL_IN *)
Definition ERF_IN : list Q :=
  [ -0.00056907993601094962855594;
    0.000169498540373762264416984;
    0.518472354581100890120501e-4;
    0.382819312231928859704678e-5;
    0.824989931281894431781794e-7 ]%Q.

(** normal.rs:204-211  ERF_IMPL_ID *)
Definition ERF_ID : list Q :=
  [ 1.0;
    0.339637250051139347430323;
    0.043472647870310663055044;
    0.00248549335224637114641629;
    0.535633305337152900549536e-4;
    -0.117490944405459578783846e-12 ]%Q.

(** normal.rs:215-221  ERF_IMPL_JN *)
Definition ERF_JN : list Q :=
  [ -0.000241313599483991337479091;
    0.574224975202501512365975e-4;
    0.115998962927383778460557e-4;
    0.581762134402593739370875e-6;
    0.853971555085673614607418e-8 ]%Q.

(** normal.rs:225-231  ERF_IMPL_JD *)
Definition ERF_JD : list Q :=
  [ 1.0;
    0.233044138299687841018015;
    0.0204186940546440312625597;
    0.000797185647564398289151125;
    0.117019281670172327758019e-4 ]%Q.

(** normal.rs:235-241  ERF_IMPL_KN *)
Definition ERF_KN : list Q :=
  [ -0.000146674699277760365803642;
    0.162666552112280519955647e-4;
    0.269116248509165239294897e-5;
    0.979584479468091935086972e-7;
    0.101994647625723465722285e-8 ]%Q.

(** normal.rs:245-251  ERF_IMPL_KD *)
Definition ERF_KD : list Q :=
  [ 1.0;
    0.165907812944847226546036;
    0.0103361716191505884359634;
    0.000286593026373868366935721;
    0.298401570840900340874568e-5 ]%Q.

(** normal.rs:255-261  ERF_IMPL_LN *)
Definition ERF_LN : list Q :=
  [ -0.583905797629771786720406e-4;
    0.412510325105496173512992e-5;
    0.431790922420250949096906e-6;
    0.993365155590013193345569e-8;
    0.653480510020104699270084e-10 ]%Q.

(** normal.rs:265-271  ERF_IMPL_LD *)
Definition ERF_LD : list Q :=
  [ 1.0;
    0.105077086072039915406159;
    0.00414278428675475620830226;
    0.726338754644523769144108e-4;
    0.477818471047398785369849e-6 ]%Q.

(** normal.rs:275-280  ERF_IMPL_MN *)
Definition ERF_MN : list Q :=
  [ -0.196457797609229579459841e-4;
    0.157243887666800692441195e-5;
    0.543902511192700878690335e-7;
    0.317472492369117710852685e-9 ]%Q.

(** normal.rs:284-290  ERF_IMPL_MD *)
Definition ERF_MD : list Q :=
  [ 1.0;
    0.052803989240957632204885;
    0.000926876069151753290378112;
    0.541011723226630257077328e-5;
    0.535093845803642394908747e-15 ]%Q.

(** normal.rs:294-299  ERF_IMPL_NN *)
Definition ERF_NN : list Q :=
  [ -0.789224703978722689089794e-5;
    0.622088451660986955124162e-6;
    0.145728445676882396797184e-7;
    0.603715505542715364529243e-10 ]%Q.

(** normal.rs:303-308  ERF_IMPL_ND *)
Definition ERF_ND : list Q :=
  [ 1.0;
    0.0375328846356293715248719;
    0.000467919535974625308126054;
    0.193847039275845656900547e-5 ]%Q.

(** normal.rs:520-531  polynomial: Horner's scheme from the last coefficient down *)
Definition polynomial (z : R) (coeff : list Q) : R :=
  match rev coeff with
  | [] => 0
  | last :: more => fold_left (fun sum c => Q2R c + z * sum) more (Q2R last)
  end.

(** one arm of the [else if z < upper] chain: argument shift, the two polynomials and the constant *)
Record band := Band { upper : Q; shift : Q; numer : list Q; denom : list Q; base : Q }.

(** normal.rs:553-618  the chain, as a table in the order in which its conditions are tried.  The last arm
    is the final [else]; [erf_pos] enters the chain only below 110, so giving it the bound 110 changes
    nothing. *)
Definition bands : list band :=
  [ Band 0.75 0.5 ERF_BN ERF_BD 0.3440242112;
    Band 1.25 0.75 ERF_CN ERF_CD 0.419990927;
    Band 2.25 1.25 ERF_DN ERF_DD 0.4898625016;
    Band 3.5 2.25 ERF_EN ERF_ED 0.5317370892;
    Band 5.25 3.5 ERF_FN ERF_FD 0.5489973426;
    Band 8 5.25 ERF_GN ERF_GD 0.5571740866;
    Band 11.5 8 ERF_HN ERF_HD 0.5609807968;
    Band 17 11.5 ERF_IN ERF_ID 0.5626493692;
    Band 24 17 ERF_JN ERF_JD 0.5634598136;
    Band 38 24 ERF_KN ERF_KD 0.5638477802;
    Band 60 38 ERF_LN ERF_LD 0.5640528202;
    Band 85 60 ERF_MN ERF_MD 0.5641309023;
    Band 110 85 ERF_NN ERF_ND 0.5641584396 ].

Definition pick (z : R) (bs : list band) : option band :=
  find (fun b => if Rlt_dec z (Q2R (upper b)) then true else false) bs.

(** normal.rs:619-620  g * (b + r) *)
Definition band_value (b : band) (z : R) : R :=
  let r := polynomial (z - Q2R (shift b)) (numer b) / polynomial (z - Q2R (shift b)) (denom b) in
  let g := exp (- z * z) / z in
  g * (Q2R (base b) + r).

(** normal.rs:546-623  [result] *)
Definition erf_result (z : R) : R :=
  if Rlt_dec z (Q2R 0.5) then
    if Rlt_dec z (Q2R 1e-10) then
      z * Q2R 1.125 + z * Q2R 0.003379167095512573896158903121545171688
    else
      z * Q2R 1.125 + z * polynomial z ERF_AN / polynomial z ERF_AD
  else if Rlt_dec z 110 then
    match pick z bands with
    | Some b => band_value b z
    | None => 0
    end
  else 0.

(** normal.rs:625-632  [erf_impl] for z >= 0 *)
Definition erf_pos (z : R) (inv : bool) : R :=
  let result := erf_result z in
  let far := if Rle_dec (Q2R 0.5) z then true else false in
  if (inv && far)%bool then result
  else if (far || inv)%bool then 1 - result
  else result.

(** normal.rs:535-545  [erf_impl]; the recursive calls are all at -z > 0 *)
Definition erf_impl (z : R) (inv : bool) : R :=
  if Rlt_dec z 0 then
    if negb inv then - erf_pos (- z) false
    else if Rlt_dec z (Q2R (-0.5)) then 2 - erf_pos (- z) true
    else 1 + erf_pos (- z) false
  else erf_pos z inv.

(** normal.rs:508-518  erfc *)
Definition erfc (x : xr) : xr :=
  match x with
  | NaN => NaN
  | PInf => Fin 0
  | NInf => Fin 2
  | Fin z => Fin (erf_impl z true)
  end.

(** division of finite doubles; the divisor's zero is +0 (a standard deviation) *)
Definition xdiv (a b : R) : xr :=
  if Req_EM_T b 0 then
    if Rlt_dec 0 a then PInf else if Rlt_dec a 0 then NInf else NaN
  else Fin (a / b).

Definition xscale (k : R) (x : xr) : xr :=
  match x with Fin z => Fin (k * z) | _ => x end.

(** normal.rs:503-505  sf_unchecked *)
Definition sf_unchecked (x mean std_dev : R) : xr :=
  xscale (Q2R 0.5) (erfc (xdiv (x - mean) (std_dev * sqrt 2))).

(** src/stats/xi_corr.rs:31-43 (pl_xi_corr_w_p)  the p-value of [xi_corr] with n rows and statistic [c];
    n < 30 gives NaN *)
Definition xi_p (n : nat) (c : R) : xr :=
  if Nat.ltb n 30 then NaN
  else xscale 2 (sf_unchecked (sqrt (INR n) * Rabs c / sqrt (Q2R 0.4)) 0 1).

(** src/stats/mann_whitney_u.rs:54-59  the p-value from the statistic, its mean and its standard deviation;
    [clamp] leaves NaN alone *)
Definition xclamp01 (x : xr) : xr :=
  match x with
  | Fin p => Fin (Rmax 0 (Rmin p 1))
  | PInf => Fin 1
  | NInf => Fin 0
  | NaN => NaN
  end.
Definition mwu_p (factor u mean std_ : R) : xr :=
  if Req_EM_T std_ 0 then Fin 0
  else xclamp01 (xscale factor (sf_unchecked u (mean + Q2R 0.5) std_)).

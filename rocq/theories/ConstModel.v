(** Model of math/constant.hpp: the table of literals, as the decimal fractions they are.  The
    conversion of a literal to the type T rounds it: see ConstFloatModel. *)
From Coq Require Import QArith.
Local Open Scope Q_scope.

(** constant.hpp:29-98: the members of [constants<T>]. *)
Inductive constant_name :=
| half
| third
| twothirds
| two_thirds
| sixth
| three_quarters
| root_two
| root_three
| half_root_two
| ln_two
| ln_ln_two
| root_ln_four
| one_div_root_two
| pi
| half_pi
| third_pi
| sixth_pi
| two_pi
| two_thirds_pi
| three_quarters_pi
| four_thirds_pi
| one_div_two_pi
| one_div_root_two_pi
| root_pi
| root_half_pi
| root_two_pi
| log_root_two_pi
| one_div_root_pi
| root_one_div_pi
| pi_minus_three
| four_minus_pi
| pi_pow_e
| pi_sqr
| pi_sqr_div_six
| pi_cubed
| cbrt_pi
| one_div_cbrt_pi
| e
| exp_minus_half
| e_pow_pi
| root_e
| log10_e
| one_div_log10_e
| ln_ten
| degree
| radian
| sin_one
| cos_one
| sinh_one
| cosh_one
| phi
| ln_phi
| one_div_ln_phi
| euler
| one_div_euler
| euler_sqr
| zeta_two
| zeta_three
| catalan
| glaisher
| khinchin
| extreme_value_skewness
| rayleigh_skewness
| rayleigh_kurtosis
| rayleigh_kurtosis_excess
| two_div_pi
| root_two_div_pi.

(** constant.hpp:31-97: their values. *)
Definition literal (c : constant_name) : Q :=
  match c with
  | half => 5000000000000000000000000000000000000 # 10 ^ 37
  | third => 3333333333333333333333333333333333333 # 10 ^ 37
  | twothirds => 6666666666666666666666666666666666666 # 10 ^ 37
  | two_thirds => 6666666666666666666666666666666666666 # 10 ^ 37
  | sixth => 166666666666666666666666666666666666666666 # 10 ^ 42
  | three_quarters => 7500000000000000000000000000000000000 # 10 ^ 37
  | root_two => 1414213562373095048801688724209698078 # 10 ^ 36
  | root_three => 1732050807568877293527446341505872366 # 10 ^ 36
  | half_root_two => 7071067811865475244008443621048490392 # 10 ^ 37
  | ln_two => 6931471805599453094172321214581765680 # 10 ^ 37
  | ln_ln_two => (-3665129205816643270124391582326694694) # 10 ^ 37
  | root_ln_four => 1177410022515474691011569326459699637 # 10 ^ 36
  | one_div_root_two => 7071067811865475244008443621048490392 # 10 ^ 37
  | pi => 3141592653589793238462643383279502884 # 10 ^ 36
  | half_pi => 1570796326794896619231321691639751442 # 10 ^ 36
  | third_pi => 1047197551196597746154214461093167628 # 10 ^ 36
  | sixth_pi => 5235987755982988730771072305465838140 # 10 ^ 37
  | two_pi => 6283185307179586476925286766559005768 # 10 ^ 36
  | two_thirds_pi => 2094395102393195492308428922186335256 # 10 ^ 36
  | three_quarters_pi => 2356194490192344928846982537459627163 # 10 ^ 36
  | four_thirds_pi => 4188790204786390984616857844372670512 # 10 ^ 36
  | one_div_two_pi => 1591549430918953357688837633725143620 # 10 ^ 37
  | one_div_root_two_pi => 3989422804014326779399460599343818684 # 10 ^ 37
  | root_pi => 1772453850905516027298167483341145182 # 10 ^ 36
  | root_half_pi => 1253314137315500251207882642405522626 # 10 ^ 36
  | root_two_pi => 2506628274631000502415765284811045253 # 10 ^ 36
  | log_root_two_pi => 9189385332046727417803297364056176398 # 10 ^ 37
  | one_div_root_pi => 5641895835477562869480794515607725858 # 10 ^ 37
  | root_one_div_pi => 5641895835477562869480794515607725858 # 10 ^ 37
  | pi_minus_three => 1415926535897932384626433832795028841 # 10 ^ 37
  | four_minus_pi => 8584073464102067615373566167204971158 # 10 ^ 37
  | pi_pow_e => 2245915771836104547342715220454373502 # 10 ^ 35
  | pi_sqr => 9869604401089358618834490999876151135 # 10 ^ 36
  | pi_sqr_div_six => 1644934066848226436472415166646025189 # 10 ^ 36
  | pi_cubed => 3100627668029982017547631506710139520 # 10 ^ 35
  | cbrt_pi => 1464591887561523263020142527263790391 # 10 ^ 36
  | one_div_cbrt_pi => 6827840632552956814670208331581645981 # 10 ^ 37
  | e => 2718281828459045235360287471352662497 # 10 ^ 36
  | exp_minus_half => 6065306597126334236037995349911804534 # 10 ^ 37
  | e_pow_pi => 2314069263277926900572908636794854738 # 10 ^ 35
  | root_e => 1648721270700128146848650787814163571 # 10 ^ 36
  | log10_e => 4342944819032518276511289189166050822 # 10 ^ 37
  | one_div_log10_e => 2302585092994045684017991454684364207 # 10 ^ 36
  | ln_ten => 2302585092994045684017991454684364207 # 10 ^ 36
  | degree => 1745329251994329576923690768488612713 # 10 ^ 38
  | radian => 5729577951308232087679815481410517033 # 10 ^ 35
  | sin_one => 8414709848078965066525023216302989996 # 10 ^ 37
  | cos_one => 5403023058681397174009366074429766037 # 10 ^ 37
  | sinh_one => 1175201193643801456882381850595600815 # 10 ^ 36
  | cosh_one => 1543080634815243778477905620757061682 # 10 ^ 36
  | phi => 1618033988749894848204586834365638117 # 10 ^ 36
  | ln_phi => 4812118250596034474977589134243684231 # 10 ^ 37
  | one_div_ln_phi => 2078086921235027537601322606117795767 # 10 ^ 36
  | euler => 5772156649015328606065120900824024310 # 10 ^ 37
  | one_div_euler => 1732454714600633473583025315860829681 # 10 ^ 36
  | euler_sqr => 3331779238077186743183761363552442266 # 10 ^ 37
  | zeta_two => 1644934066848226436472415166646025189 # 10 ^ 36
  | zeta_three => 1202056903159594285399738161511449990 # 10 ^ 36
  | catalan => 9159655941772190150546035149323841107 # 10 ^ 37
  | glaisher => 1282427129100622636875342568869791727 # 10 ^ 36
  | khinchin => 2685452001065306445309714835481795693 # 10 ^ 36
  | extreme_value_skewness => 1139547099404648657492793019389846112 # 10 ^ 36
  | rayleigh_skewness => 6311106578189371381918993515442277798 # 10 ^ 37
  | rayleigh_kurtosis => 3245089300687638062848660410619754415 # 10 ^ 36
  | rayleigh_kurtosis_excess => 2450893006876380628486604106197544154 # 10 ^ 37
  | two_div_pi => 6366197723675813430755350534900574481 # 10 ^ 37
  | root_two_div_pi => 7978845608028653558798921198687637369 # 10 ^ 37
  end.

(** Model of the auditory scales (auditory/converter/*.hpp) in IEEE formats; see FloatModel for the
    conventions.  T has [prec] bits and exponents up to [emax], at most those of double.  The literals are
    doubles, so the arithmetic is in double and the result is converted to T.  [std::log1p], [std::expm1],
    [std::log10] and [std::pow] in double, and [std::log] and [std::exp] in T, are arguments. *)
From Coq Require Import ZArith List Bool.
From Flocq Require Import Core BinarySingleNaN.
From Verif Require Import Base FloatModel FloatWaveModel FloatNumModel.
Import ListNotations.

Section Format.
Context (prec emax : Z) {Hprec : Prec_gt_0 prec} {Hmax : Prec_lt_emax prec emax}.
Notation fl := (binary_float prec emax).
Notation dbl := (binary_float 53 1024).
Notation narrow := (fconv prec emax).
Notation widen := (fconv 53 1024).
Notation "x +. y" := (fadd 53 1024 x y) (at level 50, left associativity).
Notation "x -. y" := (fsub 53 1024 x y) (at level 50, left associativity).
Notation "x *. y" := (fmul 53 1024 x y) (at level 40, left associativity).
Notation "x /. y" := (fdiv 53 1024 x y) (at level 40, left associativity).
(** The double nearest to the literal [n / d]: both are exact doubles, so their quotient is its rounding. *)
Definition dlit (n d : Z) : dbl := of_Z 53 1024 n /. of_Z 53 1024 d.
Notation int := (of_Z 53 1024).

Context (dlog1p dexpm1 dlog10 : dbl -> dbl) (dpow : dbl -> dbl -> dbl).
(** hertz2mel.hpp:42-45. *)
Definition f_hertz2mel (f : fl) : fl := narrow (dlit 112701048 100000 *. dlog1p (widen f /. int 700)).
(** mel2hertz.hpp:41-44. *)
Definition f_mel2hertz (mel : fl) : fl := narrow (int 700 *. dexpm1 (widen mel /. dlit 112701048 100000)).
(** hertz2erb.hpp:40-43. *)
Definition f_hertz2erb (f : fl) : fl := narrow (dlit 214 10 *. dlog10 (int 1 +. dlit 437 100 *. widen f /. int 1000)).
(** erb2hertz.hpp:42-45. *)
Definition f_erb2hertz (erb : fl) : fl := narrow ((dpow (int 10) (widen erb /. dlit 214 10) -. int 1) *. int 1000 /. dlit 437 100).
(** hertz2bark.hpp:45-54. *)
Definition f_hertz2bark (f : fl) : fl :=
  let bark := dlit 2681 100 *. widen f /. (int 1960 +. widen f) -. dlit 53 100 in
  narrow (if flt 53 1024 bark (int 2) then bark +. dlit 15 100 *. (int 2 -. bark)
          else if flt 53 1024 (dlit 201 10) bark then bark +. dlit 22 100 *. (bark -. dlit 201 10) else bark).
(** bark2hertz.hpp:46-55: [bark] is a T. *)
Definition f_bark2hertz (z : fl) : fl :=
  let bark := if flt prec emax z (of_Z prec emax 2) then narrow ((int 20 *. widen z -. int 6) /. int 17)
              else if flt 53 1024 (dlit 201 10) (widen z) then narrow ((int 50 *. widen z +. dlit 2211 10) /. int 61) else z in
  narrow (int 1960 *. (widen bark +. dlit 53 100) /. (dlit 2628 100 -. widen bark)).
(** hertz2cent.hpp:38-43, cent2hertz.hpp:38-43; [p] and [q] are the two constants, of type T. *)
Definition f_hertz2cent (flog : fl -> fl) (p q : fl) (z : fl) : fl :=
  fmul prec emax (f_sign prec emax z) (fadd prec emax (fmul prec emax p (flog (fabs prec emax z))) q).
Definition f_cent2hertz (fexp : fl -> fl) (p q : fl) (c : fl) : fl :=
  fmul prec emax (f_sign prec emax c) (fexp (fdiv prec emax (fsub prec emax (fabs prec emax c) q) p)).
End Format.

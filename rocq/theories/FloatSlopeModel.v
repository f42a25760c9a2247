(** Model of the spectral slope and of the spectral variation in IEEE formats; see FloatModel for the conventions. *)
From Coq Require Import ZArith List.
From Flocq Require Import BinarySingleNaN.
From Verif Require Import Base FloatModel.
Import ListNotations.

Section Format.
Context (prec emax : Z) {Hprec : FLX.Prec_gt_0 prec} {Hmax : Prec_lt_emax prec emax}.
Notation fl := (binary_float prec emax).
(** slope.hpp:62-72: the four sums; the frequencies are read as far as the magnitudes reach. *)
Fixpoint fslope_loop (a b : list fl) (m f mf ff : fl) : res (fl * fl * fl * fl) :=
  match a, b with
  | [], _ => Ok (m, f, mf, ff)
  | x :: s, y :: t => fslope_loop s t (fadd prec emax m x) (fadd prec emax f y) (fadd prec emax mf (fmul prec emax x y)) (fadd prec emax ff (fmul prec emax y y))
  | _ :: _, [] => UB
  end.
(** slope.hpp:73-74: [first1] has reached [last1], so the distance is 0. *)
Definition f_slope (a b : list fl) : res fl :=
  match fslope_loop a b (fzero prec emax) (fzero prec emax) (fzero prec emax) (fzero prec emax) with
  | Ok (m, f, mf, ff) =>
      let N := of_nat prec emax 0 in
      Ok (fdiv prec emax
            (fmul prec emax (fdiv prec emax (of_Z prec emax 1) m) (fsub prec emax (fmul prec emax N mf) (fmul prec emax f m)))
            (fsub prec emax (fmul prec emax N ff) (fmul prec emax f f)))
  | UB => UB
  | NonFinite => NonFinite
  end.
(** variation.hpp:58-68. *)
Fixpoint fvariation_loop (a b : list fl) (s1 s2 s12 : fl) : res (fl * fl * fl) :=
  match a, b with
  | [], _ => Ok (s1, s2, s12)
  | x :: s, y :: t => fvariation_loop s t (fadd prec emax s1 x) (fadd prec emax s2 y) (fadd prec emax s12 (fmul prec emax x y))
  | _ :: _, [] => UB
  end.
(** variation.hpp:69: the sum of the products is not used. *)
Definition f_variation (a b : list fl) : res fl :=
  match fvariation_loop a b (fzero prec emax) (fzero prec emax) (fzero prec emax) with
  | Ok (s1, s2, s12) =>
      Ok (fsub prec emax (of_Z prec emax 1) (fdiv prec emax s2 (fmul prec emax (fsqrt prec emax s1) (fsqrt prec emax s2))))
  | UB => UB
  | NonFinite => NonFinite
  end.
End Format.

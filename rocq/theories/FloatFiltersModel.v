(** Model of the cascade and of the moving filters in IEEE formats (see FloatModel.v). *)
From Coq Require Import ZArith List Bool.
From Flocq Require Import Core BinarySingleNaN.
From Verif Require Import Base RingModel FloatModel.
Import ListNotations.
Local Open Scope res_scope.

Section Format.
Context (prec emax : Z) {Hprec : Prec_gt_0 prec} {Hmax : Prec_lt_emax prec emax}.
Notation fl := (binary_float prec emax).

(** biquad.hpp:211-219: coefficients and the two states; a0 is not read by tick and left out. *)
Record fsection : Type := mkFs { fb0 : fl; fb1 : fl; fb2 : fl; fa1 : fl; fa2 : fl; fstate : fl * fl }.
(** biquad.hpp:325-331. *)
Definition fs_tick (s : fsection) (x : fl) : fsection * fl :=
  let p := f_biquad prec emax (fb0 s) (fb1 s) (fb2 s) (fa1 s) (fa2 s) (fstate s) x in
  (mkFs (fb0 s) (fb1 s) (fb2 s) (fa1 s) (fa2 s) (fst p), snd p).
(** biquad_cascade.hpp:208-214: [value] goes through the stages in use. *)
Fixpoint fchain_tick (ss : list fsection) (x : fl) : list fsection * fl :=
  match ss with
  | [] => ([], x)
  | s :: t => let p := fs_tick s x in let r := fchain_tick t (snd p) in (fst p :: fst r, snd r)
  end.
(** biquad_cascade.hpp:216-222. *)
Fixpoint f_cascade (ss : list fsection) (xs : list fl) : list fsection * list fl :=
  match xs with
  | [] => (ss, [])
  | x :: t => let p := fchain_tick ss x in let r := f_cascade (fst p) t in (fst r, snd p :: snd r)
  end.

(** moving_average_filter.hpp:94-95, moving_rms_filter.hpp:95-96. *)
Record fmoving : Type := mkFm { fwindow : ring fl; faccumulated : fl }.
(** moving_average_filter.hpp:99, moving_rms_filter.hpp:100. *)
Definition fm_new (n : nat) : fmoving := mkFm (ring_filled (fzero prec emax) n) (fzero prec emax).
(** moving_average_filter.hpp:123-128. *)
Definition fma_tick (m : fmoving) (tick : fl) : res (fmoving * fl) :=
  f <- front (fwindow m) ;;
  let acc := fadd prec emax (fsub prec emax (faccumulated m) f) tick in
  w <- push_back (fwindow m) tick ;;
  Ok (mkFm w acc, fdiv prec emax acc (of_nat prec emax (size w))).
(** moving_rms_filter.hpp:124-130. *)
Definition fmr_tick (m : fmoving) (tick : fl) : res (fmoving * fl) :=
  let sqr := fmul prec emax tick tick in
  f <- front (fwindow m) ;;
  let acc := fadd prec emax (fsub prec emax (faccumulated m) f) sqr in
  w <- push_back (fwindow m) sqr ;;
  Ok (mkFm w acc, fsqrt prec emax (fdiv prec emax acc (of_nat prec emax (size w)))).
End Format.

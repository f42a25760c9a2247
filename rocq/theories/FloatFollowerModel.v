(** Model of the attack/release envelope follower (experimental/envelope/ar.hpp) in IEEE formats; see
    FloatModel for the conventions.  [fexp] is std::exp, any function. *)
From Coq Require Import ZArith List Bool.
From Flocq Require Import Core BinarySingleNaN.
From Verif Require Import Base FloatModel.
Import ListNotations.

Section Format.
Context (prec emax : Z) {Hprec : Prec_gt_0 prec} {Hmax : Prec_lt_emax prec emax}.
Notation fl := (binary_float prec emax).

(** math/numeric.hpp:80-82: the class FP_SUBNORMAL, a significand without its leading bit. *)
Definition f_denormal (x : fl) : bool :=
  match x with B754_finite _ m _ _ => (Z.pos m <? 2 ^ (prec - 1))%Z | _ => false end.

(** ar.hpp:136-142: the members. *)
Record far := mkFar { fa_rate : fl; fa_attack : fl; fa_again : fl; fa_release : fl; fa_rgain : fl; fa_last : fl; fa_rect : bool }.
(** ar.hpp:199-204. *)
Definition far_reset (fexp : fl -> fl) (a : far) : far :=
  let gain g t := if flt prec emax (fzero prec emax) g
                  then fexp (fdiv prec emax (Bopp (of_Z prec emax 1)) (fmul prec emax t (fa_rate a))) else fzero prec emax in
  mkFar (fa_rate a) (fa_attack a) (gain (fa_again a) (fa_attack a)) (fa_release a) (gain (fa_rgain a) (fa_release a))
    (fzero prec emax) (fa_rect a).
(** ar.hpp:146-153: the gains keep their initialisers (138, 140) before reset(). *)
Definition far_new (fexp : fl -> fl) (sr at_ rt : fl) (rectify : bool) : far :=
  far_reset fexp (mkFar sr at_ (fzero prec emax) rt (fzero prec emax) (fzero prec emax) rectify).
(** ar.hpp:161-196: the setters; only set_rectification keeps the state. *)
Definition far_set_sample_rate (fexp : fl -> fl) (a : far) (sr : fl) : far :=
  far_reset fexp (mkFar sr (fa_attack a) (fa_again a) (fa_release a) (fa_rgain a) (fa_last a) (fa_rect a)).
Definition far_set_attack (fexp : fl -> fl) (a : far) (t : fl) : far :=
  far_reset fexp (mkFar (fa_rate a) t (fa_again a) (fa_release a) (fa_rgain a) (fa_last a) (fa_rect a)).
Definition far_set_release (fexp : fl -> fl) (a : far) (t : fl) : far :=
  far_reset fexp (mkFar (fa_rate a) (fa_attack a) (fa_again a) t (fa_rgain a) (fa_last a) (fa_rect a)).
Definition far_set_rect (a : far) (b : bool) : far :=
  mkFar (fa_rate a) (fa_attack a) (fa_again a) (fa_release a) (fa_rgain a) (fa_last a) b.
(** ar.hpp:213-219: operator(). *)
Definition far_tick (a : far) (x : fl) : far * fl :=
  let r := if fa_rect a then fabs prec emax x else x in
  let mix g := fadd prec emax (fmul prec emax (fsub prec emax (of_Z prec emax 1) g) r) (fmul prec emax g (fa_last a)) in
  let c := if flt prec emax (fa_last a) r then mix (fa_again a) else mix (fa_rgain a) in
  let l := if f_denormal c then fzero prec emax else c in
  (mkFar (fa_rate a) (fa_attack a) (fa_again a) (fa_release a) (fa_rgain a) l (fa_rect a), l).

Inductive far_op := FarSampleRate (sr : fl) | FarAttack (t : fl) | FarRelease (t : fl) | FarRect (b : bool) | FarReset | FarSample (x : fl).
(** The calls in order (ar.hpp:208-210 is a run of samples); each output with the rectification and the
    sample it answers. *)
Fixpoint far_run (fexp : fl -> fl) (a : far) (h : list far_op) : far * list (bool * fl * fl) :=
  match h with
  | [] => (a, [])
  | FarSampleRate sr :: t => far_run fexp (far_set_sample_rate fexp a sr) t
  | FarAttack v :: t => far_run fexp (far_set_attack fexp a v) t
  | FarRelease v :: t => far_run fexp (far_set_release fexp a v) t
  | FarRect v :: t => far_run fexp (far_set_rect a v) t
  | FarReset :: t => far_run fexp (far_reset fexp a) t
  | FarSample x :: t => let p := far_tick a x in let q := far_run fexp (fst p) t in (fst q, (fa_rect a, x, snd p) :: snd q)
  end.
End Format.

(** Model of include/edsp/converter/*.hpp and include/edsp/auditory/**.hpp over exact reals
    (decimal constants taken exactly). *)
From Verif Require Export RealBase AlgModel FeatModel Cplx.
Local Open Scope R_scope.
Local Open Scope res_scope.

(** db2mag.hpp:39-41, db2pow.hpp:39-41. *)
Definition db2mag (db : R) : R := Rpower 10 (db / 20).
Definition db2pow (db : R) : R := Rpower 10 (db / 10).
(** mag2db.hpp:41-44 ([expects] magnitude > 0); [pow2db] is in FeatModel.v. *)
Definition mag2db (m : R) : res R := if Rlt_dec 0 m then Ok (20 * log10 m) else UB.
(** deg2rad.hpp:41-43, rad2deg.hpp:41-43. *)
Definition deg2rad (d : R) : R := d * PI / 180.
Definition rad2deg (r : R) : R := r / PI * 180.

(** hertz2mel.hpp:42-45, mel2hertz.hpp:41-44. *)
Definition hertz2mel (f : R) : res R := l <- rlog (1 + f / 700) ;; Ok (112701048/100000 * l).
Definition mel2hertz (m : R) : R := 700 * (exp (m / (112701048/100000)) - 1).
(** hertz2erb.hpp:40-43, erb2hertz.hpp:42-45. *)
Definition hertz2erb (f : R) : res R := l <- rlog (1 + 437/100 * f / 1000) ;; Ok (214/10 * (l / ln 10)).
Definition erb2hertz (e : R) : R := (Rpower 10 (e / (214/10)) - 1) * 1000 / (437/100).
(** hertz2bark.hpp:45-54. *)
Definition hertz2bark (f : R) : res R :=
  q <- rdiv (2681/100 * f) (1960 + f) ;;
  let bark := q - 53/100 in
  Ok (if Rlt_dec bark 2 then bark + 15/100 * (2 - bark)
      else if Rlt_dec (201/10) bark then bark + 22/100 * (bark - 201/10) else bark).
(** bark2hertz.hpp:46-55. *)
Definition bark2hertz (z : R) : res R :=
  let bark := if Rlt_dec z 2 then (20 * z - 6) / 17
              else if Rlt_dec (201/10) z then (50 * z + 2211/10) / 61 else z in
  rdiv (1960 * (bark + 53/100)) (2628/100 - bark).
(** hertz2cent.hpp:38-43, cent2hertz.hpp:38-43; math::sign is [nsign]. *)
Definition cent_p : R := 1200 / ln 2.
Definition cent_q : R := 5700 - cent_p * ln 440.
Definition hertz2cent (z : R) : res R := l <- rlog (Rabs z) ;; Ok (nsign z * (cent_p * l + cent_q)).
Definition cent2hertz (c : R) : R := nsign c * exp ((Rabs c - cent_q) / cent_p).

(** melspace.hpp:41-46, erbspace.hpp:41-46, barkspace.hpp:40-45, centspace.hpp:41-46: the range
    [first, first + n) is filled by linspace, then converted in place.  (audspace.hpp:54-70 calls
    these with four arguments of different types and cannot be instantiated.) *)
Definition audspace_with (conv : R -> res R) (mem : list R) (first n : nat) (mn mx : R) : res (list R) :=
  mem' <- linspace mem first mn mx n ;; mtransform conv mem' first first n.
Definition melspace := audspace_with hertz2mel.
Definition erbspace := audspace_with hertz2erb.
Definition barkspace := audspace_with hertz2bark.
Definition centspace := audspace_with hertz2cent.

(** complex2real.hpp:44-49; the two destinations do not overlap each other. *)
Definition complex2real (l : list C) : list R * list R := (map Re l, map Im l).
(** real2complex.hpp:41-44 and 56-61; the second range is read as far as the first one goes. *)
Definition real2complex1 (re : list R) : list C := map (fun x => (x, 0)) re.
Fixpoint real2complex2 (re im : list R) : res (list C) :=
  match re, im with
  | [], _ => Ok []
  | x :: t, y :: u => r <- real2complex2 t u ;; Ok ((x, y) :: r)
  | _ :: _, [] => UB
  end.

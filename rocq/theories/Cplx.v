(** Complex numbers as pairs of reals: [std::complex<T>] in exact arithmetic. *)
From Coq Require Import Reals Lra.
From Verif Require Import RealBase.
Local Open Scope R_scope.

Definition C : Type := (R * R)%type.
Definition Re (z : C) : R := fst z.
Definition Im (z : C) : R := snd z.
Definition RtoC (x : R) : C := (x, 0).
Definition C0 : C := (0, 0).
Definition C1 : C := (1, 0).
Definition Ci : C := (0, 1).
Definition Cadd (a b : C) : C := (Re a + Re b, Im a + Im b).
Definition Copp (a : C) : C := (- Re a, - Im a).
Definition Csub (a b : C) : C := (Re a - Re b, Im a - Im b).
Definition Cmul (a b : C) : C := (Re a * Re b - Im a * Im b, Re a * Im b + Im a * Re b).
Definition Cconj (a : C) : C := (Re a, - Im a).
(** [std::norm]: the squared magnitude. *)
Definition Cnorm2 (a : C) : R := Re a * Re a + Im a * Im a.
(** [std::abs]. *)
Definition Cmod (a : C) : R := sqrt (Cnorm2 a).
Definition Cinv (a : C) : C := (Re a / Cnorm2 a, - Im a / Cnorm2 a).
Definition Cdiv (a b : C) : C := Cmul a (Cinv b).
Definition Cscal (k : R) (a : C) : C := (k * Re a, k * Im a).
(** [std::polar(r, t)] and [exp(i t)]. *)
Definition Cpolar (r t : R) : C := (r * cos t, r * sin t).
Definition Cexp (t : R) : C := (cos t, sin t).
Fixpoint Cpow (a : C) (n : nat) : C :=
  match n with
  | O => C1
  | S k => Cmul a (Cpow a k)
  end.
(** [f 0 + ... + f (n-1)]. *)
Fixpoint csumf (f : nat -> C) (n : nat) : C :=
  match n with
  | O => C0
  | S k => Cadd (csumf f k) (f k)
  end.

Declare Scope C_scope.
Delimit Scope C_scope with C.
Bind Scope C_scope with C.
Infix "+" := Cadd : C_scope.
Infix "-" := Csub : C_scope.
Infix "*" := Cmul : C_scope.
Infix "/" := Cdiv : C_scope.
Notation "- x" := (Copp x) : C_scope.

(** Specification of the Python string functions, on code points. *)
From Verif Require Export StringSpec.
Local Open Scope Z_scope.

(** A Unicode text: code points that are not surrogates. *)
Definition text (s : list Z) : Prop := Forall (fun c => 0 <= c < 55296 \/ 57344 <= c < 1114112) s.
Definition ascii (c : Z) : Prop := 0 <= c < 128.
(** [s] is made of the items [l] with one [d] between two neighbours. *)
Inductive joined (d : Z) : list (list Z) -> list Z -> Prop :=
| joined_none : joined d [] []
| joined_one : forall x, joined d [x] x
| joined_more : forall x y l s, joined d (y :: l) s -> joined d (x :: y :: l) (x ++ d :: s).
(** [r] is [s] up to its first NUL. *)
Definition before_nul (s r : list Z) : Prop := ~ In 0 r /\ (r = s \/ exists t, s = r ++ 0 :: t).
(** [r] is [s] without the white space at its beginning, at its end. *)
Definition ltrimmed (s r : list Z) : Prop := exists a, s = a ++ r /\ Forall space a /\ (forall c t, r = c :: t -> ~ space c).
Definition rtrimmed (s r : list Z) : Prop := exists b, s = r ++ b /\ Forall space b /\ (forall c t, r = t ++ [c] -> ~ space c).
Definition lower (c : Z) : Z := if (65 <=? c) && (c <=? 90) then c + 32 else c.
Definition upper (c : Z) : Z := if (97 <=? c) && (c <=? 122) then c - 32 else c.

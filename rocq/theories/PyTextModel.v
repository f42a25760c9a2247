(** Model of bindings/python/src/string.cpp and auditory.cpp: the Python functions of the string
    and auditory packages.  A Python [str] is a list of code points.  Boost.Python turns it into a
    [std::string] holding its UTF-8 form and back; that conversion and NumPy's allocation are the
    parts of Boost and CPython written out here from their documentation. *)
From Verif Require Export StringModel ConvModel.
Local Open Scope Z_scope.

(** What a Python caller sees: a value, an exception, undefined behaviour of the extension, or the
    end of the process (an exception leaving a [noexcept] function calls [std::terminate]). *)
Inductive pyout (A : Type) : Type :=
| Returns (a : A)
| Raises
| Undefined
| Terminates.
Arguments Returns {A} a.
Arguments Raises {A}.
Arguments Undefined {A}.
Arguments Terminates {A}.

(** A byte as a signed [char] of x86. *)
Definition as_char (b : Z) : Z := if b <? 128 then b else b - 256.
Definition of_char (c : Z) : Z := if c <? 0 then c + 256 else c.
(** The code points that have a UTF-8 form; the surrogates have none. *)
Definition encodable (c : Z) : bool := ((0 <=? c) && (c <? 55296)) || ((57344 <=? c) && (c <? 1114112)).
Definition utf8 (c : Z) : list Z :=
  map as_char
   (if c <? 128 then [c]
    else if c <? 2048 then [192 + c / 64; 128 + c mod 64]
    else if c <? 65536 then [224 + c / 4096; 128 + (c / 64) mod 64; 128 + c mod 64]
    else [240 + c / 262144; 128 + (c / 4096) mod 64; 128 + (c / 64) mod 64; 128 + c mod 64]).
(** The argument converter: UnicodeEncodeError when there is a surrogate. *)
Definition to_string (s : list Z) : option (list Z) := if forallb encodable s then Some (flat_map utf8 s) else None.
(** The result converter: the strict UTF-8 decoder, UnicodeDecodeError on anything else. *)
Definition cont (b : Z) : bool := (128 <=? b) && (b <? 192).
Definition push (lo c : Z) (r : option (list Z)) : option (list Z) :=
  if (lo <=? c) && encodable c then match r with Some l => Some (c :: l) | None => None end else None.
Fixpoint from_bytes (s : list Z) : option (list Z) :=
  match s with
  | [] => Some []
  | a :: t =>
      if a <? 128 then push 0 a (from_bytes t)
      else if (192 <=? a) && (a <? 224) then
        match t with
        | b :: t => if cont b then push 128 ((a - 192) * 64 + (b - 128)) (from_bytes t) else None
        | _ => None
        end
      else if (224 <=? a) && (a <? 240) then
        match t with
        | b :: c :: t => if cont b && cont c then push 2048 ((a - 224) * 4096 + (b - 128) * 64 + (c - 128)) (from_bytes t) else None
        | _ => None
        end
      else if (240 <=? a) && (a <? 248) then
        match t with
        | b :: c :: d :: t =>
            if cont b && cont c && cont d
            then push 65536 ((a - 240) * 262144 + (b - 128) * 4096 + (c - 128) * 64 + (d - 128)) (from_bytes t) else None
        | _ => None
        end
      else None
  end.
Definition from_string (s : list Z) : option (list Z) := from_bytes (map of_char s).

Definition to_py {A} (r : option A) : pyout A := match r with Some a => Returns a | None => Raises end.
Fixpoint all_some {A B} (f : A -> option B) (l : list A) : option (list B) :=
  match l with
  | [] => Some []
  | x :: t => match f x, all_some f t with Some y, Some r => Some (y :: r) | _, _ => None end
  end.
(** A function of one string applied to a converted copy. *)
Definition on_copy (f : list Z -> res (list Z)) (s : list Z) : pyout (list Z) :=
  match to_string s with
  | None => Raises
  | Some b => match f b with Ok r => to_py (from_string r) | _ => Undefined end
  end.

(** string.cpp:31-47: trim, ltrim and rtrim of a copy. *)
Definition py_trim : list Z -> pyout (list Z) := on_copy trim.
Definition py_ltrim : list Z -> pyout (list Z) := on_copy ltrim.
Definition py_rtrim : list Z -> pyout (list Z) := on_copy rtrim.
(** string.cpp:63-75: [back_inserter] into an empty string. *)
Definition py_to_lower : list Z -> pyout (list Z) := on_copy tolower.
Definition py_to_upper : list Z -> pyout (list Z) := on_copy toupper.
(** string.cpp:49-61: the items are extracted in order, then joined.  The delimiter is a [char]. *)
Definition py_join (l : list (list Z)) (delim : Z) : pyout (list Z) :=
  match all_some to_string l with
  | None => Raises
  | Some bs => to_py (from_string (join delim bs))
  end.
(** string.cpp:77-86: every item is appended to a Python list, which decodes it. *)
Definition py_split (s : list Z) (delim : Z) : pyout (list (list Z)) :=
  match to_string s with
  | None => Raises
  | Some b => to_py (all_some from_string (str_split delim b))
  end.

(** auditory.cpp:39-46 ([generate_python]) with auditory.cpp:80-94: [bn::empty] throws for a negative size
    (ValueError) and when NumPy cannot allocate (MemoryError, [alloc = false]); the function is
    [noexcept].  [junk] is what the fresh array of [size] cells holds. *)
Definition py_space (space : list R -> nat -> nat -> R -> R -> res (list R)) (alloc : bool) (junk : list R) (mn mx : R) (size : Z) : pyout (res (list R)) :=
  if size <? 0 then Terminates
  else if negb alloc then Terminates
  else match space junk 0%nat (Z.to_nat size) mn mx with UB => Undefined | r => Returns r end.

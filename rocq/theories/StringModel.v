(** Model of include/edsp/string/*.hpp.  A string is a list of [char] values, integers in
    [-128,127] (the signed [char] of x86); the installed locale is the C locale. *)
From Verif Require Export Base.
Local Open Scope res_scope.
Local Open Scope Z_scope.

(** [std::getline(stream, segment, delim)]: [None] when nothing can be extracted (the stream is at
    its end); the delimiter is consumed and dropped. *)
Fixpoint take_segment (delim : Z) (s : list Z) : list Z * list Z :=
  match s with
  | [] => ([], [])
  | c :: t => if c =? delim then ([], t) else let p := take_segment delim t in (c :: fst p, snd p)
  end.
Definition getline (delim : Z) (s : list Z) : option (list Z * list Z) :=
  match s with [] => None | _ => Some (take_segment delim s) end.
(** split.hpp:38-47: the items written to [d_first]. *)
Fixpoint split_loop (fuel : nat) (delim : Z) (s : list Z) : list (list Z) :=
  match fuel with
  | O => []
  | S f =>
      match getline delim s with
      | None => []
      | Some (segment, rest) =>
          match segment with
          | [] => split_loop f delim rest
          | _ => segment :: split_loop f delim rest
          end
      end
  end.
(** Each getline consumes a character, so [length s] iterations suffice. *)
Definition str_split (delim : Z) (s : list Z) : list (list Z) := split_loop (length s) delim s.

(** Assigning from [c_str()] stops at the first NUL. *)
Fixpoint c_str (s : list Z) : list Z :=
  match s with [] => [] | c :: t => if c =? 0 then [] else c :: c_str t end.
(** join.hpp:39-50: what the stream holds, then the assignment. *)
Fixpoint join_stream (delim : Z) (l : list (list Z)) : list Z :=
  match l with
  | [] => []
  | [x] => x
  | x :: t => x ++ [delim] ++ join_stream delim t
  end.
Definition join (delim : Z) (l : list (list Z)) : list Z := c_str (join_stream delim l).

(** The <cctype> functions: an argument that is neither EOF (-1) nor an unsigned char is UB. *)
Definition ctype {A} (f : Z -> A) (c : Z) : res A := if (-1 <=? c) && (c <=? 255) then Ok (f c) else UB.
Definition isspace : Z -> res bool := ctype (fun c => (c =? 32) || ((9 <=? c) && (c <=? 13))).
Definition tolower_c : Z -> res Z := ctype (fun c => if (65 <=? c) && (c <=? 90) then c + 32 else c).
Definition toupper_c : Z -> res Z := ctype (fun c => if (97 <=? c) && (c <=? 122) then c - 32 else c).

(** to_lower.hpp:38-41, to_upper.hpp:41-43. *)
Definition tolower (s : list Z) : res (list Z) := mapM tolower_c s.
Definition toupper (s : list Z) : res (list Z) := mapM toupper_c s.

(** [erase(begin, find_if(begin, end, not space))]: trim.hpp:36-40. *)
Fixpoint ltrim (s : list Z) : res (list Z) :=
  match s with
  | [] => Ok []
  | c :: t => b <- isspace c ;; if b then ltrim t else Ok s
  end.
(** trim.hpp:47-52: the same search on the reversed string. *)
Definition rtrim (s : list Z) : res (list Z) := r <- ltrim (rev s) ;; Ok (rev r).
(** trim.hpp:59-62. *)
Definition trim (s : list Z) : res (list Z) := t <- ltrim s ;; rtrim t.

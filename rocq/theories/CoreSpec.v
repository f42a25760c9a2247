(** Independent specifications for CoreProps.v. *)
From Coq Require Import List ZArith Bool.
Import ListNotations.
From Verif Require Import CoreModel.
Local Open Scope Z_scope.

(** A set of environment variables is a partial map from names to values. *)
Definition vars := list Z -> option (list Z).

(** Names that an environment can hold: not empty, no '=' (61), no NUL. *)
Definition valid_name (n : list Z) : Prop := n <> [] /\ ~ In 61 n /\ ~ In 0 n.
Definition valid_value (v : list Z) : Prop := ~ In 0 v.

(** Setting a variable changes that variable only, and only if it may overwrite. *)
Definition vset (m : vars) (n v : list Z) (overwrite : bool) : vars :=
  fun x => if eqs x n then match m n with Some old => if overwrite then Some v else Some old | None => Some v end else m x.

(** The documented results of a history of calls. *)
Fixpoint env_spec (m : vars) (h : list env_call) : list env_result :=
  match h with
  | [] => []
  | CGet n :: t => RGet (match m n with Some v => inl v | None => inr not_found end) :: env_spec m t
  | CExist n :: t => RExist (match m n with Some _ => true | None => false end) :: env_spec m t
  | CSet n v o :: t => RSet no_error :: env_spec (vset m n v o) t
  end.

(** The same, except that a variable with an empty value counts as absent. *)
Fixpoint env_spec_actual (m : vars) (h : list env_call) : list env_result :=
  match h with
  | [] => []
  | CGet n :: t => RGet (match m n with Some (c :: v) => inl (c :: v) | _ => inr not_found end) :: env_spec_actual m t
  | CExist n :: t => RExist (match m n with Some (_ :: _) => true | _ => false end) :: env_spec_actual m t
  | CSet n v o :: t => RSet no_error :: env_spec_actual (vset m n v o) t
  end.

Definition call_ok (c : env_call) : Prop :=
  match c with CGet n | CExist n => valid_name n | CSet n v _ => valid_name n /\ valid_value v end.

(** [env] holds value [v] for [n]: the first entry that starts with "n=" is "n=v". *)
Definition env_holds (env : list (list Z)) (n v : list Z) : Prop :=
  exists pre post, env = pre ++ (n ++ 61 :: v) :: post /\ forall w, ~ In (n ++ 61 :: w) pre.
Definition represents (env : list (list Z)) (m : vars) : Prop :=
  forall n, valid_name n -> forall v, m n = Some v <-> env_holds env n v.

(** No variable, initial or set later, has an empty value. *)
Definition no_empty (m : vars) : Prop := forall n, m n <> Some [].
Definition sets_nonempty (c : env_call) : Prop := match c with CSet _ v _ => v <> [] | _ => True end.

(** The value of a string of decimal digits, most significant first, and of a
    signed one. *)
Fixpoint digits_value (acc : Z) (s : list Z) : Z :=
  match s with [] => acc | c :: t => digits_value (10 * acc + (c - 48)) t end.

Definition is_digit (c : Z) : Prop := 48 <= c <= 57.
(** [s] is how [z] is written in base ten: digits without leading zeros, after a
    minus sign if [z] is negative. *)
Definition writes_decimal (s : list Z) (z : Z) : Prop :=
  exists ds, s = (if z <? 0 then 45 :: ds else ds) /\ Forall is_digit ds /\ ds <> [] /\
             (hd 48 ds = 48 -> z = 0 /\ ds = [48]) /\ digits_value 0 ds = Z.abs z.

(** Severity order of log levels. *)
Definition severity (l : level) : nat :=
  match l with trace => 0 | debug => 1 | info => 2 | warning => 3 | error => 4 | critical => 5 | off => 6 end.

(** The terminal's colours in ANSI order, and the escape sequences that select them:
    ESC [ 1 m for bold, ESC [ 3 k m for colour number [k]. *)
Definition ansi_number (c : colour) : Z :=
  match c with grey => 0 | red => 1 | green => 2 | yellow => 3 | blue => 4 | magenta => 5 | cyan => 6 | white => 7 | bold => 8 end.
Definition ansi_sequence (c : colour) : list Z :=
  [27; 91] ++ (match c with bold => [49] | _ => [51; 48 + ansi_number c] end) ++ [109].

(** What an insertion should add: the item's text and one space; manipulators add
    what they are named after.  A view of [k] characters stands for those. *)
Definition intended_text (i : item) (t : list Z) : Prop :=
  match i with
  | Int8 z | Int z => exists d, writes_decimal d z /\ t = d ++ [32]
  | CStr s => t = s ++ [32]
  | View (mkView (Some b) k) => t = firstn k b ++ [32]
  | View (mkView None _) => t = [32]
  | Colour c => t = ansi_sequence c
  | Endc | Reset => t = [27; 91; 48; 48; 109]
  | Tab => t = [9] | Endl => t = [10] | Space => t = [32]
  end.

(** What it adds.  [Some t]: the text; [None]: undefined behaviour. *)
Definition actual_text (i : item) (r : option (list Z)) : Prop :=
  match i with
  | Int8 z => r = Some [z; 32]
  | Int z => exists d, writes_decimal d z /\ r = Some (d ++ [32])
  | CStr s => r = Some (s ++ [32])
  | View (mkView (Some b) _) =>
      (exists s rest, b = s ++ 0 :: rest /\ ~ In 0 s /\ r = Some (s ++ [32])) \/ (~ In 0 b /\ r = None)
  | View (mkView None _) => r = None
  | Colour c => r = Some (ansi_sequence c)
  | Endc | Reset => r = Some [27; 91; 48; 48; 109]
  | Tab => r = Some [57; 32] | Endl => r = Some [49; 48; 32] | Space => r = Some [32]
  end.

(** The text of a whole message. *)
Inductive message_text : list item -> list Z -> Prop :=
| mt_nil : message_text [] []
| mt_cons i l a b : actual_text i (Some a) -> message_text l b -> message_text (i :: l) (a ++ b).

(** What a history writes to the terminal: every message, whatever its level, each
    followed by the code that resets the terminal's attributes. *)
Inductive printed : list log_call -> list Z -> Prop :=
| pr_nil : printed [] []
| pr_msg l m h a b : message_text m a -> printed h b -> printed (Message l m :: h) (a ++ [27; 91; 48; 48; 109] ++ b)
| pr_level l h b : printed h b -> printed (SetDefaultLevel l :: h) b
| pr_path p h b : printed h b -> printed (SetDefaultPath p :: h) b
| pr_name n h b : printed h b -> printed (SetDefaultName n :: h) b
| pr_pattern p h b : printed h b -> printed (SetPattern p :: h) b.

(** Independent specification of several bounded deques that are created, moved
    and destroyed: each object is a value of its own. *)
From Coq Require Import List Arith.
Import ListNotations.
From Verif Require Import RingModel RingSpec MoveModel.

Section Heap.
Context {A : Type}.

(** What the specification knows of an object: destroyed, not usable until it has
    been given new contents, or holding the deque [q]. *)
Inductive slot : Type := Dead | Unusable | Holds (q : deque A).

Fixpoint update {B} (l : list B) (i : nat) (b : B) : list B :=
  match l, i with
  | [], _ => []
  | _ :: t, O => b :: t
  | x :: t, S j => x :: update t j b
  end.

Definition alive (l : list slot) (i : nat) : option slot :=
  match nth_error l i with
  | Some Dead | None => None
  | Some s => Some s
  end.

(** The intended meaning: moving hands the value over and leaves the source
    unusable until it is cleared, resized or assigned.  [None]: not allowed. *)
Definition hstep (l : list slot) (k : cmd A) : option (list slot * option A) :=
  match k with
  | New n => Some (l ++ [Holds (mkDeque n [])], None)
  | NewFilled n v => Some (l ++ [Holds (mkDeque n (repeat v n))], None)
  | NewDefault => Some (l ++ [Holds (mkDeque 0 [])], None)
  | MoveNew s =>
      match alive l s with
      | Some x => Some (update l s Unusable ++ [x], None)
      | None => None
      end
  | MoveAssign t s =>
      if t =? s then None else
      match alive l t, alive l s with
      | Some _, Some x => Some (update (update l t x) s Unusable, None)
      | _, _ => None
      end
  | Destroy o => match alive l o with Some _ => Some (update l o Dead, None) | None => None end
  | Call o c =>
      match alive l o with
      | Some (Holds q) =>
          match dstep q c with
          | Some (q', out) => Some (update l o (Holds q'), out)
          | None => None
          end
      | Some Unusable =>
          match c with
          | Clear => Some (update l o (Holds (mkDeque 0 [])), None)
          | Resize n => Some (update l o (Holds (mkDeque n [])), None)
          | _ => None
          end
      | _ => None
      end
  end.

(** The same for the fixed-capacity type of capacity [n]: it has no resize and its
    default constructor makes an empty buffer of capacity [n]. *)
Definition fixed_hstep (n : nat) (l : list slot) (k : cmd A) : option (list slot * option A) :=
  match k with
  | New _ | NewFilled _ _ => None
  | NewDefault => Some (l ++ [Holds (mkDeque n [])], None)
  | Call o (Resize _) => None
  | Call o Clear =>
      match alive l o with
      | Some _ => Some (update l o (Holds (mkDeque n [])), None)
      | None => None
      end
  | _ => hstep l k
  end.

(** What the fixed-capacity type actually offers: the *source* of a move keeps its
    value, the *target* is unusable until it is cleared; moving from an unusable
    object gives an unusable one; [t = std::move(t)] changes nothing. *)
Definition fixed_actual_hstep (n : nat) (l : list slot) (k : cmd A) : option (list slot * option A) :=
  match k with
  | MoveNew s => match alive l s with Some _ => Some (l ++ [Unusable], None) | None => None end
  | MoveAssign t s =>
      match alive l t, alive l s with
      | Some _, Some _ => Some (if t =? s then l else update l t Unusable, None)
      | _, _ => None
      end
  | _ => fixed_hstep n l k
  end.

Fixpoint hrun (stepf : list slot -> cmd A -> option (list slot * option A)) (l : list slot) (ks : list (cmd A))
  : option (list slot * list A) :=
  match ks with
  | [] => Some (l, [])
  | k :: t =>
      match stepf l k with
      | None => None
      | Some (l', out) =>
          match hrun stepf l' t with
          | None => None
          | Some (l'', outs) => Some (l'', match out with Some a => a :: outs | None => outs end)
          end
      end
  end.
End Heap.
Arguments slot A : clear implicits.

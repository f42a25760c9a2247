(** Object lifetimes of edsp::ring_buffer and edsp::fixed_ring_buffer: several
    buffers live at once, are moved into one another and destroyed.  The ring
    calls themselves are those of RingModel.v, run on the storage the object's
    ring_span points to.
    Simplifications: storage blocks are numbered and never reused after they are
    freed; a [vector::resize] that reallocates is an update of the same block (the
    object owns it exclusively either way, and the span is rebuilt from it);
    moving an array element copies its value (true of arithmetic sample types). *)
From Verif Require Import Base RingModel.
Local Open Scope res_scope.

Section Move.
Context {A : Type}.

(** thirdparty/nonstd/ring_span.hpp:640-643: m_data, m_size, m_capacity,
    m_front_idx.  [base = None] is the null pointer [&*begin] of an empty vector. *)
Record span : Type := mkSpan { base : option nat; ssize : nat; scap : nat; sfront : nat }.

(** types/ring_buffer.hpp:471-472 and types/fixed_ring_buffer.hpp:434-435: the two
    members.  [own] is the block of storage owned by [buffer_]: for the vector it is
    [None] when the vector holds no block (default constructed or moved from). *)
Record obj : Type := mkObj { own : option nat; span_ : span }.

(** [blocks]: [None] is freed storage.  [objs]: [None] is a destroyed object. *)
Record world : Type := mkWorld { blocks : list (option (list A)); objs : list (option obj) }.

Definition empty_world : world := mkWorld [] [].

Definition get_obj (w : world) (o : nat) : res obj :=
  x <- load (objs w) o ;; match x with Some b => Ok b | None => UB end.
Definition set_obj (w : world) (o : nat) (b : option obj) : res world :=
  l <- store (objs w) o b ;; Ok (mkWorld (blocks w) l).
Definition get_block (w : world) (p : option nat) : res (list A) :=
  match p with
  | None => Ok []
  | Some i => x <- load (blocks w) i ;; match x with Some c => Ok c | None => UB end
  end.
Definition set_block (w : world) (p : option nat) (c : option (list A)) : res world :=
  match p with
  | None => Ok w
  | Some i => l <- store (blocks w) i c ;; Ok (mkWorld l (objs w))
  end.
Definition add_obj (w : world) (b : obj) : world := mkWorld (blocks w) (objs w ++ [Some b]).
Definition add_block (w : world) (c : list A) : world := mkWorld (blocks w ++ [Some c]) (objs w).

(** The ring an object works on: its span over the block the span points to. *)
Definition view (w : world) (b : obj) : res (ring A) :=
  c <- get_block w (base (span_ b)) ;;
  Ok (mkRing c (ssize (span_ b)) (scap (span_ b)) (sfront (span_ b))).

(** One non-structural ring call (ring_buffer.hpp:399-452, fixed_ring_buffer.hpp:362-417),
    through the span. *)
Definition ring_call (d : A) (w : world) (o : nat) (c : op A) : res (world * option A) :=
  b <- get_obj w o ;;
  r <- view w b ;;
  p <- step d r c ;;
  let r' := fst p in
  w1 <- set_block w (base (span_ b)) (Some (cells r')) ;;
  w2 <- set_obj w1 o (Some (mkObj (own b) (mkSpan (base (span_ b)) (rsize r') (rcap r') (rfront r')))) ;;
  Ok (w2, snd p).

(** ring_buffer.hpp:120-122, fixed_ring_buffer.hpp:81-83: the span is rebuilt over
    the object's own storage. *)
Definition clear_call (w : world) (o : nat) : res world :=
  b <- get_obj w o ;;
  c <- get_block w (own b) ;;
  set_obj w o (Some (mkObj (own b) (mkSpan (own b) 0 (length c) 0))).

(** Reading the whole contents, front first: ring_buffer.hpp:130-190. *)
Definition contents (w : world) (o : nat) : res (list A) :=
  b <- get_obj w o ;; r <- view w b ;; iterate r.

(** * ring_buffer: storage is a vector, i.e. a block on the heap *)

(** ring_buffer.hpp:78-81. *)
Definition rb_new (d : A) (w : world) (n : nat) : world :=
  add_obj (add_block w (repeat d n)) (mkObj (Some (length (blocks w))) (mkSpan (Some (length (blocks w))) 0 n 0)).
(** ring_buffer.hpp:89-93. *)
Definition rb_filled (w : world) (n : nat) (v : A) : world :=
  add_obj (add_block w (repeat v n)) (mkObj (Some (length (blocks w))) (mkSpan (Some (length (blocks w))) n n 0)).
(** ring_buffer.hpp:65, 471-472: default constructed. *)
Definition rb_default (w : world) : world := add_obj w (mkObj None (mkSpan None 0 0 0)).

(** ring_buffer.hpp:67 (defaulted): the vector hands its block over and is left
    empty; ring_span's defaulted move (ring_span.hpp:368-370) copies the pointer and
    the indices and leaves the source's unchanged. *)
Definition rb_move (w : world) (s : nat) : res world :=
  b <- get_obj w s ;;
  w1 <- set_obj w s (Some (mkObj None (span_ b))) ;;
  Ok (add_obj w1 (mkObj (own b) (span_ b))).

(** ring_buffer.hpp:69 (defaulted), for distinct objects: the target's old block is
    freed.  A self-move is not modelled (UB here). *)
Definition rb_assign (w : world) (t s : nat) : res world :=
  if t =? s then UB else
  bt <- get_obj w t ;;
  bs <- get_obj w s ;;
  w1 <- set_block w (own bt) None ;;
  w2 <- set_obj w1 t (Some (mkObj (own bs) (span_ bs))) ;;
  set_obj w2 s (Some (mkObj None (span_ bs))).

(** ring_buffer.hpp:102: the vector frees its block. *)
Definition rb_destroy (w : world) (o : nat) : res world :=
  b <- get_obj w o ;;
  w1 <- set_block w (own b) None ;;
  set_obj w1 o None.

(** ring_buffer.hpp:109-112. *)
Definition rb_resize (d : A) (w : world) (o n : nat) : res world :=
  b <- get_obj w o ;;
  match own b with
  | None =>
      set_obj (add_block w (repeat d n)) o
        (Some (mkObj (Some (length (blocks w))) (mkSpan (Some (length (blocks w))) 0 n 0)))
  | Some i =>
      c <- get_block w (own b) ;;
      w1 <- set_block w (own b) (Some (firstn n c ++ repeat d (n - length c))) ;;
      set_obj w1 o (Some (mkObj (own b) (mkSpan (own b) 0 n 0)))
  end.

(** What a program can do with its buffers. *)
Inductive cmd : Type :=
| New (n : nat) | NewFilled (n : nat) (v : A) | NewDefault
| MoveNew (s : nat)          (* ring_buffer b(std::move(s)) *)
| MoveAssign (t s : nat)     (* t = std::move(s) *)
| Destroy (o : nat)
| Call (o : nat) (c : op A).

Definition rb_step (d : A) (w : world) (k : cmd) : res (world * option A) :=
  match k with
  | New n => Ok (rb_new d w n, None)
  | NewFilled n v => Ok (rb_filled w n v, None)
  | NewDefault => Ok (rb_default w, None)
  | MoveNew s => w' <- rb_move w s ;; Ok (w', None)
  | MoveAssign t s => w' <- rb_assign w t s ;; Ok (w', None)
  | Destroy o => w' <- rb_destroy w o ;; Ok (w', None)
  | Call o Clear => w' <- clear_call w o ;; Ok (w', None)
  | Call o (Resize n) => w' <- rb_resize d w o n ;; Ok (w', None)
  | Call o c => ring_call d w o c
  end.

(** * fixed_ring_buffer: storage is an array inside the object *)

(** fixed_ring_buffer.hpp:60, 434-435: [n] is the template parameter MaxSize. *)
Definition fx_new (d : A) (w : world) (n : nat) : world :=
  add_obj (add_block w (repeat d n)) (mkObj (Some (length (blocks w))) (mkSpan (Some (length (blocks w))) 0 n 0)).

(** fixed_ring_buffer.hpp:62 (defaulted): the array's elements are moved into the
    new object's own array, but the span still points into the source's array. *)
Definition fx_move (w : world) (s : nat) : res world :=
  b <- get_obj w s ;;
  c <- get_block w (own b) ;;
  Ok (add_obj (add_block w c) (mkObj (Some (length (blocks w))) (span_ b))).

(** fixed_ring_buffer.hpp:64 (defaulted), also for [t = s]. *)
Definition fx_assign (w : world) (t s : nat) : res world :=
  bt <- get_obj w t ;;
  bs <- get_obj w s ;;
  c <- get_block w (own bs) ;;
  w1 <- set_block w (own bt) (Some c) ;;
  set_obj w1 t (Some (mkObj (own bt) (span_ bs))).

(** fixed_ring_buffer.hpp:73: the array dies with the object. *)
Definition fx_destroy (w : world) (o : nat) : res world :=
  b <- get_obj w o ;;
  w1 <- set_block w (own b) None ;;
  set_obj w1 o None.

(** [n] is MaxSize.  There is no fill constructor, no resize and the default
    constructor is [New]; those commands do not exist for this type (UB here). *)
Definition fx_step (d : A) (n : nat) (w : world) (k : cmd) : res (world * option A) :=
  match k with
  | NewDefault => Ok (fx_new d w n, None)
  | New _ | NewFilled _ _ => UB
  | MoveNew s => w' <- fx_move w s ;; Ok (w', None)
  | MoveAssign t s => w' <- fx_assign w t s ;; Ok (w', None)
  | Destroy o => w' <- fx_destroy w o ;; Ok (w', None)
  | Call o Clear => w' <- clear_call w o ;; Ok (w', None)
  | Call o (Resize _) => UB
  | Call o c => ring_call d w o c
  end.

(** A program: the final world and every popped value, oldest first. *)
Fixpoint exec (stepf : world -> cmd -> res (world * option A)) (w : world) (ks : list cmd) : res (world * list A) :=
  match ks with
  | [] => Ok (w, [])
  | k :: t =>
      p <- stepf w k ;;
      q <- exec stepf (fst p) t ;;
      Ok (fst q, match snd p with Some a => a :: snd q | None => snd q end)
  end.

End Move.
Arguments obj : clear implicits.
Arguments world A : clear implicits.
Arguments cmd A : clear implicits.

(** Model of the parts of the library whose behaviour depends on the schedule of threads: the
    environment with its global mutex (core/system.hpp).  A process is a list of threads; one step of
    one thread is one access to the shared memory, and a schedule is any list of thread numbers.
    Simplifications: memory is sequentially consistent; [std::mutex::lock] never throws and a
    thread that finds it taken waits; allocation never fails; the C library's own locks are ignored,
    as neither C++ nor POSIX promises them. *)
From Verif Require Import Base CoreModel.
Local Open Scope res_scope.
Local Open Scope Z_scope.

(** [environ]: the address of each string and the string.  A string lives as long as it is listed:
    POSIX allows [setenv] to release the string it replaces. *)
Record memory := mkMem { entries : list (nat * list Z); fresh : nat }.
Definition strings (m : memory) : environment := map snd (entries m).
(** A [string_view] into the environment: the string it points into and how far from its start. *)
Definition pointer := (nat * nat)%type.
(** The text behind a view: undefined when the string was released. *)
Definition look (m : memory) (p : pointer) : res (list Z) :=
  match find (fun e => Nat.eqb (fst e) (fst p)) (entries m) with
  | Some e => Ok (skipn (snd p) (snd e))
  | None => UB
  end.

(** What a thread does: a call of the library, or reading the text of the last view it was given. *)
Inductive action := Do (c : env_call) | ReadView.
Inductive event := Returned (t : nat) (c : env_call) (r : env_result) | WasRead (t : nat) (r : res (list Z)).

(** Where a thread is: outside, behind the lock (core/system.hpp:186, 208, 223), in the loop over the
    entries inside [getenv] or [setenv], or about to release the lock with a result and a view. *)
Inductive control :=
| Outside
| Entered (c : env_call)
| Scanning (c : env_call) (i : nat)
| Leaving (c : env_call) (r : env_result) (v : option pointer).
Record thread := mkThread { todo : list action; pc : control; last_view : option pointer }.
Record process := mkProc { owner : option nat; mem : memory; threads : list thread; trace_of : list event }.

Definition name_of (c : env_call) : list Z := match c with CGet n => n | CExist n => n | CSet n _ _ => n end.

(** core/system.hpp:187-188, 209-212, 224 up to the loop of the C library: an empty name is never
    found, is rejected by [set_env], and [setenv] rejects a name with '='. *)
Definition enter (c : env_call) : control :=
  match c with
  | CGet [] => Leaving c (RGet (inr empty_name)) None
  | CExist [] => Leaving c (RExist false) None
  | CSet [] _ _ => Leaving c (RSet empty_name) None
  | CSet n _ _ => if existsb (Z.eqb equals_sign) n then Leaving c (RSet (error_of_int (-1))) None else Scanning c 0
  | _ => Scanning c 0
  end.

Fixpoint put {A} (l : list A) (i : nat) (x : A) : list A :=
  match l, i with [], _ => [] | _ :: t, O => x :: t | y :: t, S j => y :: put t j x end.

(** The entry [i] at address [a] has the value [v]: core/system.hpp:191-193, 212-213, 224. *)
Definition hit (m : memory) (c : env_call) (i a : nat) (v : list Z) : memory * control :=
  match c with
  | CGet n => if is_null (Some v) then (m, Leaving c (RGet (inr not_found)) None)
              else (m, Leaving c (RGet (inl v)) (Some (a, S (length n))))
  | CExist n => (m, Leaving c (RExist (negb (is_null (Some v)))) None)
  | CSet n w true => (mkMem (put (entries m) i (fresh m, n ++ equals_sign :: w)) (S (fresh m)),
                      Leaving c (RSet (error_of_int 0)) None)
  | CSet n w false => (m, Leaving c (RSet (error_of_int 0)) None)
  end.
(** No entry has the name: core/system.hpp:194-196, 212-213, 224. *)
Definition miss (m : memory) (c : env_call) : memory * control :=
  match c with
  | CGet n => (m, Leaving c (RGet (inr not_found)) None)
  | CExist n => (m, Leaving c (RExist false) None)
  | CSet n w _ => (mkMem (entries m ++ [(fresh m, n ++ equals_sign :: w)]) (S (fresh m)),
                   Leaving c (RSet (error_of_int 0)) None)
  end.
(** One turn of the loop of [getenv] or [setenv]. *)
Definition scan (m : memory) (c : env_call) (i : nat) : memory * control :=
  match nth_error (entries m) i with
  | None => miss m c
  | Some e => match strip_prefix (name_of c ++ [equals_sign]) (snd e) with
              | Some v => hit m c i (fst e) v
              | None => (m, Scanning c (S i))
              end
  end.

Definition set_thread (p : process) (t : nat) (th : thread) : list thread := put (threads p) t th.

(** One step of thread [t]; [None] if it cannot move: it has finished, or waits for the lock. *)
Definition step (p : process) (t : nat) : option process :=
  match nth_error (threads p) t with
  | None => None
  | Some th =>
      match pc th, todo th with
      | Outside, [] => None
      | Outside, ReadView :: rest =>
          let r := match last_view th with Some v => look (mem p) v | None => Ok [] end in
          Some (mkProc (owner p) (mem p) (set_thread p t (mkThread rest Outside (last_view th))) (trace_of p ++ [WasRead t r]))
      | Outside, Do c :: _ =>
          match owner p with
          | Some _ => None
          | None => Some (mkProc (Some t) (mem p) (set_thread p t (mkThread (todo th) (Entered c) (last_view th))) (trace_of p))
          end
      | Entered c, _ =>
          Some (mkProc (owner p) (mem p) (set_thread p t (mkThread (todo th) (enter c) (last_view th))) (trace_of p))
      | Scanning c i, _ =>
          let r := scan (mem p) c i in
          Some (mkProc (owner p) (fst r) (set_thread p t (mkThread (todo th) (snd r) (last_view th))) (trace_of p))
      | Leaving c r v, _ =>
          Some (mkProc None (mem p)
                  (set_thread p t (mkThread (tl (todo th)) Outside (match v with Some _ => v | None => last_view th end)))
                  (trace_of p ++ [Returned t c r]))
      end
  end.

(** A schedule: threads that cannot move are passed over. *)
Fixpoint schedule (p : process) (s : list nat) : process :=
  match s with [] => p | t :: s' => schedule (match step p t with Some q => q | None => p end) s' end.

(** A process with the given environment and the given program for each thread. *)
Definition launch (env : environment) (programs : list (list action)) : process :=
  mkProc None (mkMem (combine (seq 0 (length env)) env) (length env))
    (map (fun a => mkThread a Outside None) programs) [].

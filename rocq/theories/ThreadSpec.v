(** What a trace of a process with several threads says, independently of how threads run. *)
From Verif Require Import Base CoreModel ThreadModel.

(** The calls that returned, in the order in which they did, and their results. *)
Fixpoint calls (l : list event) : list env_call :=
  match l with [] => [] | Returned _ c _ :: t => c :: calls t | WasRead _ _ :: t => calls t end.
Fixpoint results (l : list event) : list env_result :=
  match l with [] => [] | Returned _ _ r :: t => r :: results t | WasRead _ _ :: t => results t end.
(** What thread [k] has done. *)
Fixpoint actions_of (k : nat) (l : list event) : list action :=
  match l with
  | [] => []
  | Returned t c _ :: l' => if Nat.eqb t k then Do c :: actions_of k l' else actions_of k l'
  | WasRead t _ :: l' => if Nat.eqb t k then ReadView :: actions_of k l' else actions_of k l'
  end.

(** Strings handed to the library contain no NUL. *)
Definition no_nul (c : env_call) : Prop :=
  match c with CGet n | CExist n => ~ In 0%Z n | CSet n v _ => ~ In 0%Z n /\ ~ In 0%Z v end.
Definition tame (a : action) : Prop := match a with Do c => no_nul c | ReadView => True end.

(** How many of the choices of a schedule move a thread. *)
Fixpoint moves (p : process) (s : list nat) : nat :=
  match s with
  | [] => 0
  | t :: s' => match step p t with Some q => S (moves q s') | None => moves p s' end
  end.
Definition total (programs : list (list action)) : nat := list_sum (map (@length action) programs).

(** The event gives thread [t] a view. *)
Definition gives_view (t : nat) (e : event) : Prop :=
  match e with Returned t' (CGet _) (RGet (inl _)) => t' = t | _ => False end.
Definition overwrites (n : list Z) (a : action) : Prop :=
  match a with Do (CSet m _ true) => m = n | _ => False end.

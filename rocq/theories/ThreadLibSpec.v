(** What several threads that log or transform may expect. *)
From Verif Require Import Base CoreModel CoreSpec SpectralModel ThreadLibModel.
Local Open Scope Z_scope.

(** The characters thread [t] has written, in order. *)
Definition written (t : nat) (out : list (nat * Z)) : list Z := map snd (filter (fun x => Nat.eqb (fst x) t) out).
(** All that the messages of a program say, each followed by the code that resets the colours. *)
Inductive speaks : list log_op -> list Z -> Prop :=
| sp_nil : speaks [] []
| sp_set n ops s : speaks ops s -> speaks (SetName n :: ops) s
| sp_say m a ops s : message_text m a -> speaks ops s -> speaks (Say m :: ops) (a ++ [27; 91; 48; 48; 109] ++ s).
Definition names (o : log_op) : Prop := match o with SetName _ => True | Say _ => False end.

(** The results a single thread gets from the same engine and the same operations. *)
Fixpoint session (e : engine) (ops : list fft_op) : list (res (list C + list R)) :=
  match ops with
  | [] => []
  | Renew n :: t => session (new_engine n) t
  | Transform c :: t =>
      match run_call e c with
      | Ok (e', out) => Ok out :: session e' t
      | UB => UB :: session e t
      | NonFinite => NonFinite :: session e t
      end
  end.
Definition obtained {A} (t : nat) (l : list (nat * A)) : list A := map snd (filter (fun x => Nat.eqb (fst x) t) l).
Definition renews (o : fft_op) : Prop := match o with Renew _ => True | Transform _ => False end.

(** Vocabulary for frequency responses, sound levels, distances and object programs. *)
From Verif Require Import RealBase OscSpec WindowSpec IOModel ExtraModel Cplx.
Local Open Scope R_scope.

(** [c_0 + c_1 z + ... + c_{n-1} z^{n-1}]. *)
Definition polynomial (c : list R) (z : C) : C := csumf (fun m => RtoC (nth m c 0) * Cpow z m)%C (length c).
(** The transfer function of the filter with coefficients [b] over [a] on the unit circle, at [w]
    radians per sample: [B(e^{-jw}) / A(e^{-jw})]. *)
Definition transfer (b a : list R) (w : R) : C := (polynomial b (Cexp (- w)) / polynomial a (Cexp (- w)))%C.
(** Two-sided signals [x], [y] satisfy [sum_m a_m y(n-m) = sum_m b_m x(n-m)] at every time [n]. *)
Definition difference_equation (b a : list R) (x y : Z -> R) : Prop := forall n : Z,
  sumf (fun m => nth m a 0 * y (n - Z.of_nat m)%Z) (length a) = sumf (fun m => nth m b 0 * x (n - Z.of_nat m)%Z) (length b).
(** The memory [mem] with the cells from [d] on replaced by [v]. *)
Definition overwritten {A} (mem : list A) (d : nat) (v : list A) : list A := firstn d mem ++ v ++ skipn (d + length v) mem.

(** Mean square of a frame; level in decibels of a mean square. *)
Definition mean_square (f : list R) : R := rsum (map (fun x => x * x) f) / INR (length f).
Definition decibels (p : R) : R := 10 * (ln p / ln 10).
(** The equivalent level of several frames: the level of the mean of their powers. *)
Definition equivalent_level (frames : list (list R)) : R := decibels (rsum (map mean_square frames) / INR (length frames)).

(** What a distance is. *)
Definition nonnegative_fn (d : R -> R -> R) : Prop := forall x y, 0 <= d x y.
Definition symmetric_fn (d : R -> R -> R) : Prop := forall x y, d x y = d y x.
Definition separates (d : R -> R -> R) : Prop := forall x y, d x y = 0 <-> x = y.
Definition triangle_inequality (d : R -> R -> R) : Prop := forall x y z, d x z <= d x y + d y z.

(** The coefficients of the named windows (Harris 1978; Nuttall 1981; flat top as in Matlab). *)
Definition window_coefficients (t : WindowType) : option (list R) :=
  match t with
  | Hanning => Some [1/2; 1/2]
  | Hamming => Some [54/100; 46/100]
  | Blackman => Some [42/100; 1/2; 8/100]
  | BlackmanHarris => Some [35875/100000; 48829/100000; 14128/100000; 1168/100000]
  | BlackmanNuttall => Some [3635819/10000000; 4891775/10000000; 1365995/10000000; 106411/10000000]
  | FlatTop => Some [21557895/100000000; 41663158/100000000; 277263158/1000000000; 83578947/1000000000; 6947368/1000000000]
  | Boxcar | Rectangular => Some [1]
  | Bartlett | Triangular | Welch => None
  end.
(** The documented waveform of each oscillator: position [p] in periods, parameter [x] (phase, duty
    cycle or width). *)
Definition waveform (t : OscillatorType) (x p : R) : R :=
  match t with
  | Sinusoidal => sin (2 * PI * p + x)
  | Square => ideal_square x p
  | TriangularOsc => 1 - 4 * Rabs (cycle p - 1/2)
  | Sawtooth => ideal_sawtooth x p
  end.

(** A program copies nothing / destroys every object it creates. *)
Definition copies (c : pcmd) : bool := match c with PCopy _ | PAssign _ _ => true | _ => false end.
Definition all_destroyed (s : store_) : Prop := forall o, In o (objs s) -> o = None.
Definition assigns (c : pcmd) : bool := match c with PAssign _ _ => true | _ => false end.
(** The command addresses an object that does not exist (any more), or uses an object that is not open. *)
Definition dead (s : store_) (i : nat) : Prop := forall h, nth_error (objs s) i <> Some (Some h).
Definition misuse (s : store_) (c : pcmd) : Prop :=
  match c with
  | PNew => False
  | PCopy i | PDestroy i => dead s i
  | PAssign i j => dead s i \/ dead s j
  | PCall i o => dead s i \/ (o = HUse /\ nth_error (objs s) i = Some (Some None))
  end.
(** Every handle opened has been closed, once. *)
Definition each_closed_once (w : world) : Prop := NoDup (closed w) /\ forall h, In h (opened w) <-> In h (closed w).
(** Object [i] is alive and holds handle [h]. *)
Definition holds (s : store_) (i h : nat) : Prop := nth_error (objs s) i = Some (Some (Some h)).

(** The histogram of a signal with [k] bins over [lo, hi): lower bounds and normalised counts. *)
Definition in_bin (lo w : R) (i k : nat) (x : R) : bool :=
  if Rle_dec (lo + INR i * w) x then (if Rlt_dec x (lo + INR (S i) * w) then true else (S i =? k)%nat) else false.
Definition histogram_of (k : nat) (lo hi : R) (l : list R) : list (R * R) :=
  map (fun i => let w := (hi - lo) / INR k in
    (lo + INR i * w, INR (length (filter (in_bin lo w i k) l)) / INR (length l))) (seq 0 k).

(** Model of include/edsp/io (decoders, encoder, resampler) and of its Python wrappers
    (bindings/python/src/io.cpp).  The C libraries libsndfile and audiofile are modelled by their
    documented behaviour, stated next to each function. *)
From Verif Require Export Base AlgModel.
From Coq Require Import QArith.QArith Qround.
Local Open Scope res_scope.

(** ** Sample transfer *)
(** An open file: its interleaved samples, its channel count and the read position in frames. *)
Record snd_file (A : Type) := mkFile { f_data : list A; f_channels : nat; f_pos : nat }.
Arguments mkFile {A}. Arguments f_data {A}. Arguments f_channels {A}. Arguments f_pos {A}.

(** libsndfile, sf_read_float/double/int/short: [items] must be a multiple of the channel count,
    otherwise an error is recorded and 0 returned; at most the samples that are left are read. *)
Definition sf_read {A} (f : snd_file A) (items : nat) : list A * snd_file A :=
  if (items mod f_channels f =? 0)%nat then
    let v := firstn items (skipn (f_pos f * f_channels f) (f_data f)) in
    (v, mkFile (f_data f) (f_channels f) (f_pos f + length v / f_channels f))
  else ([], f).
(** audiofile, afReadFrames: the count is in frames; as many frames as are left are read. *)
Definition af_read {A} (f : snd_file A) (frames : nat) : list A * snd_file A :=
  let v := firstn (frames * f_channels f) (skipn (f_pos f * f_channels f) (f_data f)) in
  (v, mkFile (f_data f) (f_channels f) (f_pos f + length v / f_channels f)).

(** std::copy of a block into the destination. *)
Fixpoint put {A} (mem : list A) (d : nat) (vals : list A) : res (list A) :=
  match vals with [] => Ok mem | v :: t => m <- store mem d v ;; put m (S d) t end.

(** libsndfile_decoder_impl.hpp:150-155: the loop of read; [N] is the block size.  The fuel is the
    number of rounds left; running out is reported as [NonFinite] and shown not to happen. *)
Fixpoint snd_read_loop {A} (fuel N : nat) (f : snd_file A) (mem : list A) (first remaining : nat) : res (snd_file A * list A * nat) :=
  match fuel with
  | O => NonFinite
  | S k =>
    let counter := if (N <? remaining)%nat then N else remaining in
    let (v, f') := sf_read f counter in
    mem' <- put mem first v ;;
    let rem := (remaining - length v)%nat in
    if (0 <? rem)%nat && (0 <? length v)%nat then snd_read_loop k N f' mem' (first + length v) rem else Ok (f', mem', rem)
  end.
(** libsndfile_decoder_impl.hpp:142-157: read(first, last) with [total] = last - first. *)
Definition snd_read {A} (N : nat) (f : snd_file A) (mem : list A) (first total : nat) : res (snd_file A * list A * nat) :=
  p <- snd_read_loop (S total) N f mem first total ;;
  let '(f', mem', rem) := p in Ok (f', mem', (total - rem)%nat).

(** libaudiofile_decoder_impl.hpp:113-118: the block of frames is stored in a buffer of [N] samples;
    the number of frames is then used as a number of samples. *)
Fixpoint af_read_loop {A} (fuel N : nat) (f : snd_file A) (mem : list A) (first remaining : nat) : res (snd_file A * list A * nat) :=
  match fuel with
  | O => NonFinite
  | S k =>
    let counter := if (N <? remaining)%nat then N else remaining in
    let (v, f') := af_read f counter in
    if (N <? length v)%nat then UB else
    let frames := (length v / f_channels f)%nat in
    mem' <- put mem first (firstn frames v) ;;
    let rem := (remaining - frames)%nat in
    if (0 <? rem)%nat && (0 <? frames)%nat then af_read_loop k N f' mem' (first + frames) rem else Ok (f', mem', rem)
  end.
(** libaudiofile_decoder_impl.hpp:105-120. *)
Definition audio_read {A} (N : nat) (f : snd_file A) (mem : list A) (first total : nat) : res (snd_file A * list A * nat) :=
  p <- af_read_loop (S total) N f mem first total ;;
  let '(f', mem', rem) := p in Ok (f', mem', (total - rem)%nat).

(** libsndfile_decoder_impl.hpp:130-132, sf_seek with SEEK_SET: positions from 0 to the number of
    frames are accepted, others leave the file as it is and give -1. *)
Definition snd_seek {A} (f : snd_file A) (p : Z) : Z * snd_file A :=
  if (0 <=? p)%Z && (p <=? Z.of_nat (length (f_data f) / f_channels f))%Z then (p, mkFile (f_data f) (f_channels f) (Z.to_nat p)) else ((-1)%Z, f).
(** libsndfile_decoder_impl.hpp:134-136. *)
Definition snd_current {A} (f : snd_file A) : Z := Z.of_nat (f_pos f).

(** libsndfile_encoder_impl.hpp:138-146 on a file holding [data]: [&( *first)] needs a non-empty range,
    the length is converted to [int]; sf_write_* needs a multiple of the channel count, otherwise 0 is
    returned and nothing written.  (Formats that store the value type exactly: writer<T>::FORMAT, 47-77.) *)
Definition snd_write {A} (channels : nat) (data : list A) (vals : list A) : res (list A * Z) :=
  match vals with
  | [] => UB
  | _ => let n := to_int32 (Z.of_nat (length vals)) in
         if (0 <? n)%Z && (n mod Z.of_nat channels =? 0)%Z then Ok (data ++ firstn (Z.to_nat n) vals, n) else Ok (data, 0%Z)
  end.

(** ** Handles *)
(** Handles ever opened and ever closed, in order. *)
Record world := mkWorld { opened : list nat; closed : list nat }.
Definition live (w : world) (h : nat) : Prop := In h (opened w) /\ ~ In h (closed w).
Definition liveb (w : world) (h : nat) : bool := existsb (Nat.eqb h) (opened w) && negb (existsb (Nat.eqb h) (closed w)).
(** The library's close: closing a handle that is not open is undefined. *)
Definition w_close (w : world) (h : nat) : res world := if liveb w h then Ok (mkWorld (opened w) (closed w ++ [h])) else UB.
(** The library's open: a fresh handle, or null on failure. *)
Definition w_open (w : world) (ok : bool) : world * option nat :=
  if ok then (mkWorld (opened w ++ [length (opened w)]) (closed w), Some (length (opened w))) else (w, None).

(** Calls on a decoder or encoder object; [HOpen ok] is an open call of which the system call succeeds
    iff [ok]; [HUse] is a read, write or seek. *)
Inductive hop := HOpen (ok : bool) | HClose | HUse.
(** libsndfile_decoder_impl.hpp:102-108 and libsndfile_encoder_impl.hpp:118-124: [file_] is kept. *)
Definition snd_close (s : world * option nat) : res (world * option nat) :=
  match snd s with None => Ok s | Some h => w <- w_close (fst s) h ;; Ok (w, Some h) end.
(** libsndfile_decoder_impl.hpp:88-96, libsndfile_encoder_impl.hpp:104-112; a use of a null handle is
    rejected by the library. *)
Definition snd_hop (s : world * option nat) (c : hop) : res (world * option nat) :=
  match c with
  | HOpen ok => t <- snd_close s ;; Ok (w_open (fst t) ok)
  | HClose => snd_close s
  | HUse => match snd s with None => Ok s | Some h => if liveb (fst s) h then Ok s else UB end
  end.
(** libaudiofile_decoder_impl.hpp:92-103: [file_] is set to null. *)
Definition af_close (s : world * option nat) : res (world * option nat) :=
  match snd s with None => Ok s | Some h => w <- w_close (fst s) h ;; Ok (w, None) end.
(** libaudiofile_decoder_impl.hpp:77-90, 105-120; afReadFrames of a null handle gives -1 and the copy
    at line 117 is then undefined. *)
Definition af_hop (s : world * option nat) (c : hop) : res (world * option nat) :=
  match c with
  | HOpen ok => t <- af_close s ;; Ok (w_open (fst t) ok)
  | HClose => af_close s
  | HUse => match snd s with None => UB | Some h => if liveb (fst s) h then Ok s else UB end
  end.
(** is_open() (libsndfile 98-100, audiofile 73-75). *)
Definition is_open (s : world * option nat) : bool := match snd s with None => false | Some _ => true end.
Fixpoint hrun (step : world * option nat -> hop -> res (world * option nat)) (s : world * option nat) (h : list hop) : res (world * option nat) :=
  match h with [] => Ok s | c :: t => s' <- step s c ;; hrun step s' t end.
Definition fresh : world * option nat := (mkWorld [] [], None).
(** A whole life: construction, calls, destruction (which calls close()). *)
Definition snd_life (h : list hop) : res world := s <- hrun snd_hop fresh h ;; t <- snd_close s ;; Ok (fst t).
Definition af_life (h : list hop) : res world := s <- hrun af_hop fresh h ;; t <- af_close s ;; Ok (fst t).

(** ** Resampler sizes *)
(** libsamplerate_impl.hpp:54-58: frames offered and output frames allowed for [size] samples. *)
Definition src_sizes (channels size : nat) (ratio : Q) : nat * nat :=
  let input_frames := (size / channels)%nat in
  (input_frames, Z.to_nat (Qfloor (ratio * inject_Z (Z.of_nat input_frames)))).
(** bindings/python/src/io.cpp:64-65: samples allocated for the result. *)
Definition py_expected (size : nat) (ratio : Q) : nat := Z.to_nat (Qfloor (inject_Z (Z.of_nat size) * ratio)).
(** io.cpp:73-77: the array handed to Python has [gen] elements, the first number of [final_shape],
    because its rank is given as 1; [gen * channels] samples are copied into it. *)
Definition py_final_copy {A} (init : A) (channels gen : nat) (data : list A) : res (list A) :=
  put (repeat init gen) 0 (firstn (gen * channels) data).
(** io.cpp:45-53: the decoder wrapper; [read] samples were read into an array of [size].  reshape needs
    the same number of elements and raises an exception ([None]) otherwise; the division is by the
    channel count, 0 before the first open. *)
Definition py_decoder_shape (size read channels : nat) : res (option (nat * nat)) :=
  if (channels =? 0)%nat then UB else
  let frames := (read / channels)%nat in
  Ok (if (frames * channels =? size)%nat then Some (frames, channels) else None).

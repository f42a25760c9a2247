(** Model of the pole/zero layouts, the bilinear transformers and the cascade builder of
    filter/internal: layout_base.hpp, lowpass_transformer.hpp, highpass_transformer.hpp,
    abstract_designer.hpp, butterworth_designer.hpp. *)
From Verif Require Import RealBase Cplx BiquadModel DesignModel.
Local Open Scope R_scope.
Local Open Scope res_scope.

(** A [std::complex] that may be [math::infinity<T>()], i.e. (inf,inf) (math/complex.hpp:109-111),
    or its conjugate; no computation distinguishes the two. *)
Inductive ecomplex : Type := Fin (c : C) | Inf.

Definition econj (z : ecomplex) : ecomplex := match z with Fin c => Fin (Cconj c) | Inf => Inf end.

(** [z.imag() == 0]. *)
Definition imag_is_zero (z : ecomplex) : bool :=
  match z with
  | Fin c => if Req_EM_T (Im c) 0 then true else false
  | Inf => false
  end.

(** [z == std::complex<T>(0,0)]. *)
Definition is_zero (z : C) : bool :=
  if Req_EM_T (Re z) 0 then (if Req_EM_T (Im z) 0 then true else false) else false.
Definition eis_zero (z : ecomplex) : bool := match z with Fin c => is_zero c | Inf => false end.

(** Complex division; a zero divisor gives NaN or infinity. *)
Definition cdiv (x y : C) : res C := if is_zero y then NonFinite else Ok (Cdiv x y).

(** layout_base.hpp:73-105: poles (first, second) and zeros (first, second). Poles are never
    infinite: only zeros are ever set to [math::infinity]. *)
Record pz : Type := mkPz { pole1 : C; zero1 : ecomplex; pole2 : C; zero2 : ecomplex }.
Definition pz_default : pz := mkPz C0 (Fin C0) C0 (Fin C0).

(** layout_base.hpp:82-84. *)
Definition single_pole (p : pz) : bool := is_zero (pole2 p) && eis_zero (zero2 p).

(** layout_base.hpp:189-192. *)
Record layout : Type := mkLay { num_poles : nat; pairs : list pz; lay_w : R; lay_gain : R }.
Definition lay_new (cap : nat) : layout := mkLay 0 (repeat pz_default cap) 0 1.

(** layout_base.hpp:130-136. *)
Definition lay_set_w (l : layout) (w : R) : layout := mkLay (num_poles l) (pairs l) w (lay_gain l).
Definition lay_set_gain (l : layout) (g : R) : layout := mkLay (num_poles l) (pairs l) (lay_w l) g.
(** layout_base.hpp:161-163. *)
Definition lay_reset (l : layout) : layout := mkLay 0 (pairs l) (lay_w l) (lay_gain l).

(** layout_base.hpp:165-167: [std::ceil] is applied to an integer quotient. *)
Definition lay_size (l : layout) : nat := (num_poles l / 2 + 1)%nat.

(** layout_base.hpp:138-143. [checks] tells whether assertions are compiled in (no NDEBUG):
    the constructor [complex_pair(c1)], lines 45-48, expects real arguments. *)
Definition lay_insert (checks : bool) (l : layout) (pole : C) (zero : ecomplex) : res layout :=
  if Nat.even (num_poles l) then
    if checks && negb (imag_is_zero (Fin pole) && imag_is_zero zero) then UB
    else p <- store (pairs l) (num_poles l / 2) (mkPz pole zero C0 (Fin C0)) ;;
         Ok (mkLay (num_poles l + 1) p (lay_w l) (lay_gain l))
  else UB.

(** layout_base.hpp:145-151. *)
Definition lay_insert_conjugate (l : layout) (pole : C) (zero : ecomplex) : res layout :=
  if Nat.even (num_poles l) then
    p <- store (pairs l) (num_poles l / 2) (mkPz pole zero (Cconj pole) (econj zero)) ;;
    Ok (mkLay (num_poles l + 2) p (lay_w l) (lay_gain l))
  else UB.

(** layout_base.hpp:177-180. *)
Definition lay_get (l : layout) (i : nat) : res pz :=
  if (i <? lay_size l)%nat then load (pairs l) i else UB.

(** lowpass_transformer.hpp:55-61. *)
Definition lp_transform (f : R) (c : ecomplex) : res C :=
  match c with
  | Inf => Ok (RtoC (-1))
  | Fin c => let e := Cscal f c in cdiv (Cadd C1 e) (Csub C1 e)
  end.
(** highpass_transformer.hpp:55-61. *)
Definition hp_transform (f : R) (c : ecomplex) : res C :=
  match c with
  | Inf => Ok (RtoC 1)
  | Fin c => let e := Cscal f c in cdiv (Copp (Cadd C1 e)) (Csub C1 e)
  end.

(** The pair loop of lowpass_transformer.hpp:44-47 and highpass_transformer.hpp:44-47. *)
Fixpoint transform_pairs (tr : ecomplex -> res C) (analog : layout) (i n : nat) (digital : layout) : res layout :=
  match n with
  | O => Ok digital
  | S m =>
      pr <- lay_get analog i ;;
      p <- tr (Fin (pole1 pr)) ;;
      z <- tr (zero2 pr) ;;
      d <- lay_insert_conjugate digital p (Fin z) ;;
      transform_pairs tr analog (i + 1) m d
  end.

(** lowpass_transformer.hpp:37-53 and highpass_transformer.hpp:37-53, which differ in [tr] and in the
    reference frequency [w]. *)
Definition transform_layout (checks : bool) (tr : ecomplex -> res C) (w : R) (analog digital : layout) : res layout :=
  let d0 := lay_set_gain (lay_set_w (lay_reset digital) w) (lay_gain analog) in
  let np := num_poles analog in
  d1 <- transform_pairs tr analog 0 (np / 2) d0 ;;
  if Nat.odd np then
    pr <- lay_get analog (np / 2) ;;
    p <- tr (Fin (pole1 pr)) ;;
    z <- tr (zero1 pr) ;;
    lay_insert checks d1 p (Fin z)
  else Ok d1.

(** lowpass_transformer.hpp:34: f = tan(pi fc). *)
Definition lp_transformer (checks : bool) (fc : R) (analog digital : layout) : res layout :=
  f <- rtan (PI * fc) ;;
  transform_layout checks (lp_transform f) (lay_w analog) analog digital.
(** highpass_transformer.hpp:34: f = 1 / tan(pi fc). *)
Definition hp_transformer (checks : bool) (fc : R) (analog digital : layout) : res layout :=
  t <- rtan (PI * fc) ;;
  f <- rdiv 1 t ;;
  transform_layout checks (hp_transform f) (PI - lay_w analog) analog digital.

(** abstract_designer.hpp:33-39. Digital zeros are finite; an infinite one would yield infinite coefficients. *)
Definition make_biquad (p : pz) : res biquad :=
  match zero1 p, zero2 p with
  | Fin z1, Fin z2 =>
      if single_pole p then bq_pole_zero (pole1 p) z1
      else bq_pairs (pole1 p) z1 (pole2 p) z2
  | _, _ => NonFinite
  end.

(** abstract_designer.hpp:42-46. *)
Definition apply_scale (q : biquad) (s : R) : biquad :=
  let q0 := set_b0 q (b0 q * s) in
  let q1 := set_b1 q0 (b1 q0 * s) in
  set_b2 q1 (b2 q1 * s).

(** layout_base.hpp:36-39. *)
Definition addmul (l : C) (k : R) (r : C) : C := (Re l + k * Re r, Im l + k * Im r).

(** abstract_designer.hpp:57-65: the loop over the stages. *)
Fixpoint response_loop (czn1 czn2 : C) (qs : list biquad) (ch cbot : C) : res (C * C) :=
  match qs with
  | [] => Ok (ch, cbot)
  | q :: t =>
      vb0 <- rdiv (b0 q) (a0 q) ;; vb1 <- rdiv (b1 q) (a0 q) ;; vb2 <- rdiv (b2 q) (a0 q) ;;
      va1 <- rdiv (a1 q) (a0 q) ;; va2 <- rdiv (a2 q) (a0 q) ;;
      let ct := addmul (addmul (RtoC vb0) vb1 czn1) vb2 czn2 in
      let cb := addmul (addmul C1 va1 czn1) va2 czn2 in
      response_loop czn1 czn2 t (Cmul ch ct) (Cmul cbot cb)
  end.

(** abstract_designer.hpp:49-68. *)
Definition make_response (c : cascade) (normalized_frequency : R) : res C :=
  let w := 2 * PI * normalized_frequency in
  let czn1 := Cpolar 1 (- w) in
  let czn2 := Cpolar 1 (- (2) * w) in
  r <- response_loop czn1 czn2 (firstn (num_stage c) (stages c)) C1 C1 ;;
  cdiv (fst r) (snd r).

(** abstract_designer.hpp:75-77. *)
Fixpoint push_biquads (l : layout) (i n : nat) (c : cascade) : res cascade :=
  match n with
  | O => Ok c
  | S m =>
      p <- lay_get l i ;;
      q <- make_biquad p ;;
      c' <- cas_push_back c q ;;
      push_biquads l (i + 1) m c'
  end.

(** abstract_designer.hpp:71-83; [cap] is the template parameter N of the layout. *)
Definition make_cascade (cap : nat) (digital : layout) : res cascade :=
  let num_biquads := ((num_poles digital + 1) / 2)%nat in
  c <- push_biquads digital 0 num_biquads (cas_new ((cap + 1) / 2)) ;;
  r <- make_response c (lay_w digital / (2 * PI)) ;;
  s <- rdiv (lay_gain digital) (Cmod r) ;;
  q <- load (stages c) 0 ;;
  st <- store (stages c) 0 (apply_scale q s) ;;
  Ok (mkCas (num_stage c) st).

(** butterworth_designer.hpp:50-54: iterations i .. i+n-1 of the pole loop. *)
Fixpoint butter_pairs (size : R) (i n : nat) (l : layout) : res layout :=
  match n with
  | O => Ok l
  | S m =>
      q <- rdiv ((2 * INR i + 1) * PI) size ;;
      l' <- lay_insert_conjugate l (Cpolar 1 (PI / 2 + q)) Inf ;;
      butter_pairs size (i + 1) m l'
  end.

(** butterworth_designer.hpp:40-60; exceeding MaxSize fails the assertion of line 42. *)
Definition butter_analog (checks : bool) (l : layout) (n : nat) : res layout :=
  if (length (pairs l) <? n)%nat then UB else
  let l0 := lay_reset (lay_set_gain (lay_set_w l 0) 1) in
  l1 <- butter_pairs (INR (n * 2)) 0 (n / 2) l0 ;;
  if Nat.odd n then lay_insert checks l1 (RtoC (-1)) Inf else Ok l1.

(** butterworth_designer.hpp:87-95 with abstract_designer.hpp:93-97. *)
Definition butter_lowpass (checks : bool) (cap order : nat) (sample_rate cutoff : R) : res cascade :=
  fc <- rdiv cutoff sample_rate ;;
  a <- butter_analog checks (lay_new cap) order ;;
  d <- lp_transformer checks fc a (lay_new cap) ;;
  make_cascade cap d.

(** butterworth_designer.hpp:97-105. *)
Definition butter_highpass (checks : bool) (cap order : nat) (sample_rate cutoff : R) : res cascade :=
  fc <- rdiv cutoff sample_rate ;;
  a <- butter_analog checks (lay_new cap) order ;;
  d <- hp_transformer checks fc a (lay_new cap) ;;
  make_cascade cap d.

(** [std::polar(rho, theta)]: the standard requires a non-negative [rho]; without library
    assertions the usual implementations return rho (cos theta, sin theta). *)
Definition std_polar (checks : bool) (rho theta : R) : res C :=
  if checks then (if Rle_dec 0 rho then Ok (Cpolar rho theta) else UB) else Ok (Cpolar rho theta).

(** butterworth_designer.hpp:76-79: iterations i .. i+n-1 of the shelf loop. *)
Fixpoint shelf_pairs (checks : bool) (size gp gz : R) (i n : nat) (l : layout) : res layout :=
  match n with
  | O => Ok l
  | S m =>
      q <- rdiv (2 * INR i - 1) size ;;
      let theta := PI * (1 / 2 - q) in
      p <- std_polar checks gp theta ;;
      z <- std_polar checks gz theta ;;
      l' <- lay_insert_conjugate l p (Fin z) ;;
      shelf_pairs checks size gp gz (i + 1) m l'
  end.

(** butterworth_designer.hpp:62-85. *)
Definition butter_shelf_analog (checks : bool) (l : layout) (n : nat) (gain_db : R) : res layout :=
  if (length (pairs l) <? n)%nat then UB else
  let l0 := lay_reset (lay_set_gain (lay_set_w l PI) 1) in
  e <- rdiv 1 (INR (n * 2)) ;;
  let g := Rpower (pow10 (gain_db / 20)) e in
  ig <- rdiv 1 g ;;
  let gp := - ig in
  let gz := - g in
  l1 <- shelf_pairs checks (INR (n * 2)) gp gz 1 (n / 2) l0 ;;
  if Nat.odd n then lay_insert checks l1 (RtoC gp) (Fin (RtoC gz)) else Ok l1.

(** butterworth_designer.hpp:129-137. *)
Definition butter_lowshelf (checks : bool) (cap order : nat) (sample_rate cutoff gain_db : R) : res cascade :=
  fc <- rdiv cutoff sample_rate ;;
  a <- butter_shelf_analog checks (lay_new cap) order gain_db ;;
  d <- lp_transformer checks fc a (lay_new cap) ;;
  make_cascade cap d.

(** butterworth_designer.hpp:139-147. *)
Definition butter_highshelf (checks : bool) (cap order : nat) (sample_rate cutoff gain_db : R) : res cascade :=
  fc <- rdiv cutoff sample_rate ;;
  a <- butter_shelf_analog checks (lay_new cap) order gain_db ;;
  d <- hp_transformer checks fc a (lay_new cap) ;;
  make_cascade cap d.

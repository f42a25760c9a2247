(** Model of include/edsp/experimental (envelopes, mu-law) and of the filtered noise generators of
    include/edsp/random/noise, over exact reals. *)
From Verif Require Export RealBase AlgModel FeatModel.
Local Open Scope R_scope.
Local Open Scope res_scope.

(** ** ADSR envelope *)
(** adsr.hpp:44. *)
Inductive adsr_state := idle | attack | decay | sustain | release.
(** adsr.hpp:201-209: the members. *)
Record adsr := mkAdsr { state : adsr_state; srate : R; target : R; value : R; attack_rate : R; decay_rate : R;
                        release_rate : R; release_time : R; sustain_level : R }.
(** adsr.hpp:46 and the member initialisers at 201-209. *)
Definition adsr_new : adsr := mkAdsr idle 44100 0 0 (1/1000) (1/1000) (1/1000) (-1) (1/2).
(** adsr.hpp:48-52. *)
Definition key_on (a : adsr) : adsr :=
  mkAdsr attack (srate a) (if Rle_dec (target a) 0 then 1 else target a) (value a) (attack_rate a) (decay_rate a) (release_rate a) (release_time a) (sustain_level a).
(** adsr.hpp:54-60. *)
Definition key_off (a : adsr) : res adsr :=
  r <- (if Rlt_dec 0 (release_time a) then rdiv (value a) (release_time a * srate a) else Ok (release_rate a)) ;;
  Ok (mkAdsr release (srate a) 0 (value a) (attack_rate a) (decay_rate a) r (release_time a) (sustain_level a)).
(** adsr.hpp:70-72: the getter named release_rate. *)
Definition get_release_rate (a : adsr) : R := release_time a.
(** adsr.hpp:86-96. *)
Definition get_attack_time (a : adsr) : res R := rdiv 1 (attack_rate a * srate a).
Definition get_decay_time (a : adsr) : res R := rdiv (1 - sustain_level a) (decay_rate a * srate a).
Definition get_release_time (a : adsr) : R := release_time a.
(** The conditional at adsr.hpp:100 and 141: at least -180 dB. *)
Definition floor_target (t : R) : R := if Rlt_dec (/ 10 ^ 9) t then t else / 10 ^ 9.
(** [meta::expects(x >= 0)] and [meta::expects(x > 0)]. *)
Definition expects_nonneg {A} (x : R) (k : res A) : res A := if Rle_dec 0 x then k else UB.
Definition expects_pos {A} (x : R) (k : res A) : res A := if Rlt_dec 0 x then k else UB.
(** adsr.hpp:98-101. *)
Definition set_attack_target (a : adsr) (t : R) : res adsr :=
  expects_nonneg t (Ok (mkAdsr (state a) (srate a) (floor_target t) (value a) (attack_rate a) (decay_rate a) (release_rate a) (release_time a) (sustain_level a))).
(** adsr.hpp:103-106. *)
Definition set_attack_rate (a : adsr) (r : R) : res adsr :=
  expects_nonneg r (Ok (mkAdsr (state a) (srate a) (target a) (value a) r (decay_rate a) (release_rate a) (release_time a) (sustain_level a))).
(** adsr.hpp:108-111. *)
Definition set_decay_rate (a : adsr) (r : R) : res adsr :=
  expects_nonneg r (Ok (mkAdsr (state a) (srate a) (target a) (value a) (attack_rate a) r (release_rate a) (release_time a) (sustain_level a))).
(** adsr.hpp:113-116. *)
Definition set_sustain_level (a : adsr) (s : R) : res adsr :=
  expects_nonneg s (Ok (mkAdsr (state a) (srate a) (target a) (value a) (attack_rate a) (decay_rate a) (release_rate a) (release_time a) s)).
(** adsr.hpp:118-122. *)
Definition set_release_rate (a : adsr) (r : R) : res adsr :=
  expects_nonneg r (Ok (mkAdsr (state a) (srate a) (target a) (value a) (attack_rate a) (decay_rate a) r (-1) (sustain_level a))).
(** adsr.hpp:124-127. *)
Definition set_attack_time (a : adsr) (t : R) : res adsr :=
  expects_pos t (q <- rdiv 1 (t * srate a) ;;
                 Ok (mkAdsr (state a) (srate a) (target a) (value a) q (decay_rate a) (release_rate a) (release_time a) (sustain_level a))).
(** adsr.hpp:129-132. *)
Definition set_decay_time (a : adsr) (t : R) : res adsr :=
  expects_pos t (q <- rdiv (1 - sustain_level a) (t * srate a) ;;
                 Ok (mkAdsr (state a) (srate a) (target a) (value a) (attack_rate a) q (release_rate a) (release_time a) (sustain_level a))).
(** adsr.hpp:134-138. *)
Definition set_release_time (a : adsr) (t : R) : res adsr :=
  expects_pos t (q <- rdiv (sustain_level a) (t * srate a) ;;
                 Ok (mkAdsr (state a) (srate a) (target a) (value a) (attack_rate a) (decay_rate a) q t (sustain_level a))).
(** adsr.hpp:140-147. *)
Definition set_target (a : adsr) (t : R) : res adsr :=
  let g := floor_target t in
  b <- set_sustain_level (mkAdsr (state a) (srate a) g (value a) (attack_rate a) (decay_rate a) (release_rate a) (release_time a) (sustain_level a)) g ;;
  let s := if Rlt_dec (value b) g then attack else if Rlt_dec g (value b) then decay else state b in
  Ok (mkAdsr s (srate b) (target b) (value b) (attack_rate b) (decay_rate b) (release_rate b) (release_time b) (sustain_level b)).
(** adsr.hpp:149-155. *)
Definition adsr_set_sample_rate (a : adsr) (sr : R) : res adsr :=
  x <- rdiv (srate a * attack_rate a) sr ;; y <- rdiv (srate a * decay_rate a) sr ;; z <- rdiv (srate a * release_rate a) sr ;;
  Ok (mkAdsr (state a) sr (target a) (value a) x y z (release_time a) (sustain_level a)).
(** State, target and value replaced. *)
Definition with_stv (a : adsr) (s : adsr_state) (t v : R) : adsr :=
  mkAdsr s (srate a) t v (attack_rate a) (decay_rate a) (release_rate a) (release_time a) (sustain_level a).
(** adsr.hpp:157-192: operator(). *)
Definition adsr_tick (a : adsr) : adsr :=
  match state a with
  | attack => let v := value a + attack_rate a in
              if Rle_dec (target a) v then with_stv a decay (sustain_level a) (target a) else with_stv a attack (target a) v
  | decay => if Rlt_dec (sustain_level a) (value a) then
               (let v := value a - decay_rate a in
                if Rle_dec v (sustain_level a) then with_stv a sustain (target a) (sustain_level a) else with_stv a decay (target a) v)
             else
               (let v := value a + decay_rate a in
                if Rle_dec (sustain_level a) v then with_stv a sustain (target a) (sustain_level a) else with_stv a decay (target a) v)
  | release => let v := value a - release_rate a in
               if Rle_dec v 0 then with_stv a idle (target a) 0 else with_stv a release (target a) v
  | idle | sustain => a
  end.
(** Public calls. *)
Inductive adsr_op := KeyOn | KeyOff | SetAttackTarget (t : R) | SetAttackRate (r : R) | SetDecayRate (r : R) | SetSustainLevel (s : R)
  | SetReleaseRate (r : R) | SetAttackTime (t : R) | SetDecayTime (t : R) | SetReleaseTime (t : R) | SetTarget (t : R) | SetSampleRate (sr : R)
  | Sample (input : R).
(** The state after a call and, for a sample request, the returned value (adsr.hpp:192). *)
Definition adsr_step (a : adsr) (c : adsr_op) : res (adsr * option R) :=
  let only (r : res adsr) := b <- r ;; Ok (b, None) in
  match c with
  | KeyOn => Ok (key_on a, None)
  | KeyOff => only (key_off a)
  | SetAttackTarget t => only (set_attack_target a t)
  | SetAttackRate r => only (set_attack_rate a r)
  | SetDecayRate r => only (set_decay_rate a r)
  | SetSustainLevel s => only (set_sustain_level a s)
  | SetReleaseRate r => only (set_release_rate a r)
  | SetAttackTime t => only (set_attack_time a t)
  | SetDecayTime t => only (set_decay_time a t)
  | SetReleaseTime t => only (set_release_time a t)
  | SetTarget t => only (set_target a t)
  | SetSampleRate sr => only (adsr_set_sample_rate a sr)
  | Sample x => let b := adsr_tick a in Ok (b, Some (value b * x))
  end.
(** A history; the list holds the (input, output) pairs of the sample requests. *)
Fixpoint adsr_run (a : adsr) (h : list adsr_op) : res (adsr * list (R * R)) :=
  match h with
  | [] => Ok (a, [])
  | c :: t => p <- adsr_step a c ;; q <- adsr_run (fst p) t ;;
              Ok (fst q, match c, snd p with Sample x, Some y => (x, y) :: snd q | _, _ => snd q end)
  end.

(** ** Attack/release envelope follower *)
(** ar.hpp:136-142: the members. *)
Record ar := mkAr { ar_rate : R; attack_t : R; attack_gain : R; release_t : R; release_gain : R; last : R; rect : bool }.
(** ar.hpp:199-204. *)
Definition ar_reset (a : ar) : res ar :=
  let gain g t := if Rlt_dec 0 g then (q <- rdiv (-1) (t * ar_rate a) ;; Ok (exp q)) else Ok 0 in
  g <- gain (attack_gain a) (attack_t a) ;; k <- gain (release_gain a) (release_t a) ;;
  Ok (mkAr (ar_rate a) (attack_t a) g (release_t a) k 0 (rect a)).
(** ar.hpp:146-154: the gains keep their initialisers (138, 140) before reset(). *)
Definition ar_new (sr at_ rt : R) (rectify : bool) : res ar := ar_reset (mkAr sr at_ 0 rt 0 0 rectify).
(** ar.hpp:161-196. *)
Definition ar_set_sample_rate (a : ar) (sr : R) := ar_reset (mkAr sr (attack_t a) (attack_gain a) (release_t a) (release_gain a) (last a) (rect a)).
Definition ar_set_attack_time (a : ar) (t : R) := ar_reset (mkAr (ar_rate a) t (attack_gain a) (release_t a) (release_gain a) (last a) (rect a)).
Definition ar_set_release_time (a : ar) (t : R) := ar_reset (mkAr (ar_rate a) (attack_t a) (attack_gain a) t (release_gain a) (last a) (rect a)).
Definition ar_set_rect (a : ar) (b : bool) := mkAr (ar_rate a) (attack_t a) (attack_gain a) (release_t a) (release_gain a) (last a) b.
(** ar.hpp:213-219; [denormal] is math::is_denormal, left open. *)
Definition ar_tick (denormal : R -> bool) (a : ar) (x : R) : ar * R :=
  let r := if rect a then Rabs x else x in
  let c := if Rlt_dec (last a) r then (1 - attack_gain a) * r + attack_gain a * last a else (1 - release_gain a) * r + release_gain a * last a in
  let l := if denormal c then 0 else c in
  (mkAr (ar_rate a) (attack_t a) (attack_gain a) (release_t a) (release_gain a) l (rect a), l).
Inductive ar_op := ArSampleRate (sr : R) | ArAttack (t : R) | ArRelease (t : R) | ArRect (b : bool) | ArReset | ArSample (x : R).
Fixpoint ar_run (denormal : R -> bool) (a : ar) (h : list ar_op) : res (ar * list (bool * R * R)) :=
  match h with
  | [] => Ok (a, [])
  | ArSampleRate sr :: t => b <- ar_set_sample_rate a sr ;; ar_run denormal b t
  | ArAttack v :: t => b <- ar_set_attack_time a v ;; ar_run denormal b t
  | ArRelease v :: t => b <- ar_set_release_time a v ;; ar_run denormal b t
  | ArRect v :: t => ar_run denormal (ar_set_rect a v) t
  | ArReset :: t => b <- ar_reset a ;; ar_run denormal b t
  | ArSample x :: t => let p := ar_tick denormal a x in q <- ar_run denormal (fst p) t ;; Ok (fst q, (rect a, x, snd p) :: snd q)
  end.

(** ** mu-law (mu_law_compressor.hpp:48-63 and 80-95)
    The lambdas do not capture [compression_factor], so the templates cannot be instantiated; the model
    is of the formulas in their bodies.  [mu] is a positive integer there. *)
Definition mu_compress1 (mx mu x : R) : res R :=
  r <- rdiv (Rabs x) mx ;; l <- rlog (1 + mu * r) ;; m <- rlog (1 + mu) ;; rdiv (nsign x * mx * l) m.
Definition mu_expand1 (mx mu y : R) : res R :=
  r <- rdiv (Rabs y) mx ;; m <- rlog (1 + mu) ;; rdiv (nsign y * mx * (Rpower (1 + mu) r - 1)) m.
Definition mu_law_compression (mx mu : R) (l : list R) : res (list R) :=
  expects_pos mx (expects_pos mu (mapM (mu_compress1 mx mu) l)).
Definition inverse_mu_law_compression (mx mu : R) (l : list R) : res (list R) :=
  expects_pos mx (expects_pos mu (mapM (mu_expand1 mx mu) l)).

(** ** Coloured noise as a filter of its white-noise source *)
(** The value type: floating point, or an integer type, whose assignments truncate.  (The source uses
    std::uniform_int_distribution, so only integer types can be instantiated.) *)
Inductive num_kind := Floating | Integral.
Definition assign (k : num_kind) (x : R) : R := match k with Floating => x | Integral => ctrunc x end.
(** brown_noise_generator.hpp:47-52. *)
Definition brown_tick (k : num_kind) (l w : R) : R * R :=
  let l1 := assign k (l + 2/100 * w) in
  let l2 := assign k (l1 / (102/100)) in
  (l2, assign k (35/10 * l2)).
Fixpoint brown_run (k : num_kind) (l : R) (ws : list R) : list R :=
  match ws with [] => [] | w :: t => let p := brown_tick k l w in snd p :: brown_run k (fst p) t end.
(** pink_noise_generator.hpp:61-67. *)
Record pink := mkPink { b0 : R; b1 : R; b2 : R; b3 : R; b4 : R; b5 : R; b6 : R }.
Definition pink_new : pink := mkPink 0 0 0 0 0 0 0.
(** pink_noise_generator.hpp:47-58. *)
Definition pink_tick (k : num_kind) (p : pink) (w : R) : pink * R :=
  let c0 := assign k (99886/100000 * b0 p + w * (555179/10000000)) in
  let c1 := assign k (99332/100000 * b1 p + w * (750759/10000000)) in
  let c2 := assign k (96900/100000 * b2 p + w * (1538520/10000000)) in
  let c3 := assign k (86650/100000 * b3 p + w * (3104856/10000000)) in
  let c4 := assign k (55000/100000 * b4 p + w * (5329522/10000000)) in
  let c5 := assign k (-7616/10000 * b5 p - w * (168980/10000000)) in
  let out := assign k ((c0 + c1 + c2 + c3 + c4 + c5 + b6 p + w * (5362/10000)) * (11/100)) in
  (mkPink c0 c1 c2 c3 c4 c5 (assign k (w * (115926/1000000))), out).
Fixpoint pink_run (k : num_kind) (p : pink) (ws : list R) : list R :=
  match ws with [] => [] | w :: t => let q := pink_tick k p w in snd q :: pink_run k (fst q) t end.

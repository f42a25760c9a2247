(** Model of edsp::core: environment variables, build information and the logger,
    with their C and Python front ends.
    Characters are their codes (Z), strings are lists of them.  Simplifications:
    setenv never runs out of memory; every call holds the global mutex
    (core/system.hpp:186, 208, 223) and is therefore one atomic step of a history;
    colours are modelled on POSIX terminals (thirdparty/termcolor/termcolor.hpp:15-24). *)
From Coq Require Import Decimal.
From Verif Require Import Base.
Local Open Scope res_scope.
Local Open Scope Z_scope.

Fixpoint eqs (a b : list Z) : bool :=
  match a, b with
  | [], [] => true
  | x :: s, y :: t => (x =? y) && eqs s t
  | _, _ => false
  end.

(** * The C library's environment *)

(** An environment is the array of "name=value" strings ([environ]). *)
Definition environment := list (list Z).
Definition equals_sign : Z := 61.

(** What follows [p] in [s]. *)
Fixpoint strip_prefix (p s : list Z) : option (list Z) :=
  match p, s with
  | [], _ => Some s
  | x :: p', y :: s' => if x =? y then strip_prefix p' s' else None
  | _ :: _, [] => None
  end.

(** C library [getenv]: the first entry that starts with "name="; never matches
    the empty name (glibc stdlib/getenv.c). *)
Fixpoint getenv_loop (env : environment) (name : list Z) : option (list Z) :=
  match env with
  | [] => None
  | e :: t => match strip_prefix (name ++ [equals_sign]) e with Some v => Some v | None => getenv_loop t name end
  end.
Definition getenv (env : environment) (name : list Z) : option (list Z) :=
  match name with [] => None | _ => getenv_loop env name end.

(** C library [setenv]: -1 (EINVAL) for an empty name or one with '='. *)
Fixpoint replace_entry (env : environment) (name value : list Z) : environment :=
  match env with
  | [] => [name ++ equals_sign :: value]
  | e :: t => match strip_prefix (name ++ [equals_sign]) e with
              | Some _ => (name ++ equals_sign :: value) :: t
              | None => e :: replace_entry t name value
              end
  end.
Definition setenv (env : environment) (name value : list Z) (overwrite : bool) : environment * Z :=
  match name with
  | [] => (env, -1)
  | _ => if existsb (Z.eqb equals_sign) name then (env, -1)
         else match getenv env name with
              | Some _ => if overwrite then (replace_entry env name value, 0) else (env, 0)
              | None => (replace_entry env name value, 0)
              end
  end.

(** * string_view and C strings *)

(** types/string_view.hpp: a pointer and a length.  [data] is everything that can
    be read from the pointer on; [None] is the null pointer of [string_view{}]. *)
Record view := mkView { data : option (list Z); len : nat }.

(** The C string at the start of a buffer; running off the buffer is UB. *)
Fixpoint until_nul (b : list Z) : res (list Z) :=
  match b with
  | [] => UB
  | c :: t => if c =? 0 then Ok [] else rmap (cons c) (until_nul t)
  end.
Definition c_string (v : view) : res (list Z) :=
  match data v with Some b => until_nul b | None => UB end.

(** A string literal as a view. *)
Definition lit (s : list Z) : view := mkView (Some (s ++ [0])) (length s).

(** * edsp::system_env, core/system.hpp:165-238 *)

(** core/system.hpp:170-177. *)
Inductive env_error := no_error | empty_name | not_found | invalid_argument | no_memory | unknown.
(** static_cast<error>(int), core/system.hpp:213. *)
Definition error_of_int (z : Z) : env_error :=
  if z =? 0 then no_error else if z =? 1 then empty_name else if z =? 2 then not_found
  else if z =? 22 then invalid_argument else if z =? 12 then no_memory else unknown.
(** static_cast<int>(error), bindings/c/src/core.c:95, 102. *)
Definition int_of_error (e : env_error) : Z :=
  match e with no_error => 0 | empty_name => 1 | not_found => 2 | invalid_argument => 22 | no_memory => 12 | unknown => -1 end.

(** meta/is_null.hpp:50-52, the overload for C strings: null or of length zero. *)
Definition is_null (p : option (list Z)) : bool :=
  match p with None => true | Some [] => true | Some _ => false end.

(** core/system.hpp:184-198: the lookup comes before the test of the name. *)
Definition get_env (env : environment) (name : view) : res (list Z + env_error) :=
  n <- c_string name ;;
  let p := getenv env n in
  if (len name =? 0)%nat then Ok (inr empty_name)
  else match p with
       | Some v => if is_null p then Ok (inr not_found) else Ok (inl v)
       | None => Ok (inr not_found)
       end.

(** core/system.hpp:206-215. *)
Definition set_env (env : environment) (name value : view) (overwrite : bool) : res (environment * env_error) :=
  if (len name =? 0)%nat then Ok (env, empty_name)
  else n <- c_string name ;; v <- c_string value ;;
       let r := setenv env n v overwrite in Ok (fst r, error_of_int (snd r)).

(** core/system.hpp:222-225. *)
Definition exist (env : environment) (name : view) : res bool :=
  n <- c_string name ;; Ok (negb (is_null (getenv env n))).

(** bindings/c/src/core.c:83-99: null pointer and an error code, or the value and 0. *)
Definition c_get_environment (env : environment) (tag : list Z) : res (option (list Z) * Z) :=
  r <- get_env env (lit tag) ;;
  match r with inl v => Ok (Some v, 0) | inr e => Ok (None, int_of_error e) end.

(** bindings/python/src/core.cpp:27-31: [std::string(data)] of a null pointer is UB. *)
Definition py_get_environment (env : environment) (tag : list Z) : res (list Z * Z) :=
  r <- c_get_environment env tag ;;
  match fst r with Some v => Ok (v, snd r) | None => UB end.

(** A history of calls with literal arguments, and what they return. *)
Inductive env_call := CGet (n : list Z) | CExist (n : list Z) | CSet (n v : list Z) (overwrite : bool).
Inductive env_result := RGet (r : list Z + env_error) | RExist (b : bool) | RSet (e : env_error).

Fixpoint env_run (env : environment) (h : list env_call) : res (environment * list env_result) :=
  match h with
  | [] => Ok (env, [])
  | c :: t =>
      p <- match c with
           | CGet n => r <- get_env env (lit n) ;; Ok (env, RGet r)
           | CExist n => b <- exist env (lit n) ;; Ok (env, RExist b)
           | CSet n v o => r <- set_env env (lit n) (lit v) o ;; Ok (fst r, RSet (snd r))
           end ;;
      q <- env_run (fst p) t ;; Ok (fst q, snd p :: snd q)
  end.

(** * Build information, core/library_info.hpp *)

Inductive fft_lib := fftw | pffft | accelerate | fft_unknown.
Inductive codec_lib := audiofile | sndfile | codec_unknown.
Inductive resample_lib := sample_rate | resample | resample_unknown.

(** core/internal/config.hpp:102-108 and the USE_LIB definitions of CMakeLists.txt:83-144:
    what a build was configured with. *)
Record build := mkBuild { v_major : Z; v_minor : Z; v_patch : Z; v_str : list Z; b_date : list Z; b_time : list Z;
  use_fftw : bool; use_pffft : bool; use_accelerate : bool; use_audiofile : bool; use_sndfile : bool;
  use_samplerate : bool; use_resample : bool }.

(** library_info.hpp:77-87. *)
Definition minor_version (b : build) := v_minor b.
Definition major_version (b : build) := v_minor b.
Definition patch_version (b : build) := v_patch b.
(** library_info.hpp:89-99. *)
Definition version (b : build) := v_str b.
Definition build_date (b : build) := b_date b.
Definition build_time (b : build) := b_time b.
(** library_info.hpp:101-111. *)
Definition fft_library (b : build) : fft_lib :=
  if use_fftw b then fftw else if use_pffft b then fftw else if use_accelerate b then fftw else fft_unknown.
(** library_info.hpp:113-131. *)
Definition codec_library (b : build) : codec_lib :=
  if use_audiofile b then audiofile else if use_sndfile b then sndfile else codec_unknown.
Definition resample_library (b : build) : resample_lib :=
  if use_samplerate b then sample_rate else if use_resample b then resample else resample_unknown.
(** bindings/c/src/core.c:45-51. *)
Definition c_get_build_date (b : build) := build_time b.
Definition c_get_build_time (b : build) := build_time b.

(** * The platform, core/system.hpp:115-164 and core/internal/config.hpp:26-67 *)

(** What the preprocessor sees. *)
Inductive target_os := T_windows | T_ios | T_macos | T_freebsd | T_android | T_linux.
Inductive target_cpu := T_arm64 | T_arm32 | T_x86 | T_x64 | T_other_cpu.
Inductive target_cc := T_gcc | T_mingw | T_clang | T_msvc | T_other_cc.

(** Macros defined by config.hpp for a target. *)
Inductive macro := OS_WIN32 | OS_IOS | OS_MACOS | OS_FREEBSD | OS_ANDROID | OS_LINUX
| PROCESSOR_ARM_64 | PROCESSOR_ARM_32 | PROCESSOR_X86_32 | PROCESSOR_X86_64
| COMPILER_GNU | COMPILER_MINGW | COMPILER_CLANG | COMPILER_MSVC
| OS_WINDOWS | PROCESSOR_ARM | COMPILER_MVSC.      (* never defined, but tested for *)
(** config.hpp:26-43, 46-56, 58-67. *)
Definition os_macros (t : target_os) : list macro :=
  match t with T_windows => [OS_WIN32] | T_ios => [OS_IOS] | T_macos => [OS_MACOS] | T_freebsd => [OS_FREEBSD]
  | T_android => [OS_ANDROID] | T_linux => [OS_LINUX] end.
Definition cpu_macros (t : target_cpu) : list macro :=
  match t with T_arm64 => [PROCESSOR_ARM_64] | T_arm32 => [PROCESSOR_ARM_32] | T_x86 => [PROCESSOR_X86_32]
  | T_x64 => [PROCESSOR_X86_64] | T_other_cpu => [] end.
Definition cc_macros (t : target_cc) : list macro :=
  match t with T_gcc => [COMPILER_GNU] | T_mingw => [COMPILER_GNU; COMPILER_MINGW] | T_clang => [COMPILER_GNU; COMPILER_CLANG]
  | T_msvc => [COMPILER_MSVC] | T_other_cc => [] end.

Inductive systems := S_windows | S_linux | S_freeBSD | S_macOS | S_iOS | S_android | S_unknown.
Inductive processors := P_x86 | P_x64 | P_arm | P_unknown.
Inductive compilers := K_gcc | K_clang | K_mvsc | K_unknown.

Definition macro_eq_dec (a b : macro) : {a = b} + {a <> b}.
Proof. decide equality. Defined.
Definition defined_ (ms : list macro) (m : macro) : bool := if in_dec macro_eq_dec m ms then true else false.

(** core/system.hpp:117-127. *)
Definition compiler (ms : list macro) : compilers :=
  if defined_ ms COMPILER_GNU && negb (defined_ ms COMPILER_CLANG) then K_gcc
  else if defined_ ms COMPILER_CLANG then K_clang else if defined_ ms COMPILER_MVSC then K_mvsc else K_unknown.
(** core/system.hpp:131-147. *)
Definition os (ms : list macro) : systems :=
  if defined_ ms OS_WINDOWS then S_windows else if defined_ ms OS_LINUX then S_linux else if defined_ ms OS_MACOS then S_macOS
  else if defined_ ms OS_IOS then S_iOS else if defined_ ms OS_FREEBSD then S_freeBSD
  else if defined_ ms OS_ANDROID then S_android else S_unknown.
(** core/system.hpp:151-161. *)
Definition processor (ms : list macro) : processors :=
  if defined_ ms PROCESSOR_X86_32 then P_x86 else if defined_ ms PROCESSOR_X86_64 then P_x64
  else if defined_ ms PROCESSOR_ARM then P_arm else P_unknown.

(** * The logger, core/logger.hpp *)

Inductive level := trace | debug | info | warning | error | critical | off.

(** Decimal digits as [std::ostream] prints an integer. *)
Fixpoint digits (u : uint) : list Z :=
  match u with
  | Nil => []
  | D0 u => 48 :: digits u | D1 u => 49 :: digits u | D2 u => 50 :: digits u | D3 u => 51 :: digits u | D4 u => 52 :: digits u
  | D5 u => 53 :: digits u | D6 u => 54 :: digits u | D7 u => 55 :: digits u | D8 u => 56 :: digits u | D9 u => 57 :: digits u
  end.
Definition decimal (z : Z) : list Z :=
  match Z.to_int z with Pos u => digits u | Neg u => 45 :: digits u end.

(** thirdparty/termcolor/termcolor.hpp:68-76: written unconditionally. *)
Definition reset_code : list Z := [27; 91; 48; 48; 109].
(** termcolor.hpp:78-225: written because the flag set by [colorize] is on. *)
Inductive colour := grey | red | green | yellow | blue | magenta | cyan | white | bold.
Definition colour_code (c : colour) : list Z :=
  match c with
  | bold => [27; 91; 49; 109]
  | grey => [27; 91; 51; 48; 109] | red => [27; 91; 51; 49; 109] | green => [27; 91; 51; 50; 109]
  | yellow => [27; 91; 51; 51; 109] | blue => [27; 91; 51; 52; 109] | magenta => [27; 91; 51; 53; 109]
  | cyan => [27; 91; 51; 54; 109] | white => [27; 91; 51; 55; 109]
  end.

(** What can be streamed into a logger, logger.hpp:161-181.  Floating-point
    insertion is not modelled. *)
Inductive item :=
| Int8 (z : Z)          (* std::int8_t / std::uint8_t: printed as a character *)
| Int (z : Z)           (* the wider integer types *)
| CStr (s : list Z)     (* const char*, std::string::data() *)
| View (v : view)
| Colour (c : colour) | Endc | Reset
| Tab | Endl
| Space.

(** logger.hpp:434-437: [space()]. *)
Definition with_space (s : list Z) : list Z := s ++ [32].

(** The text an insertion appends.  logger.hpp:476-549; [tab] and [endl]
    (logger.hpp:226-232) stream a [char], for which the overload taking std::int32_t
    is chosen (integral promotion beats conversion to int8_t or uint8_t). *)
Definition insert (i : item) : res (list Z) :=
  match i with
  | Int8 z => Ok (with_space [z])
  | Int z => Ok (with_space (decimal z))
  | CStr s => Ok (with_space s)
  | View v => s <- c_string v ;; Ok (with_space s)
  | Colour c => Ok (colour_code c)
  | Endc => Ok reset_code
  | Reset => Ok reset_code
  | Tab => Ok (with_space (decimal 9))
  | Endl => Ok (with_space (decimal 10))
  | Space => Ok [32]
  end.

Fixpoint insert_all (l : list item) : res (list Z) :=
  match l with
  | [] => Ok []
  | i :: t => a <- insert i ;; b <- insert_all t ;; Ok (a ++ b)
  end.

(** The process-wide settings, logger.hpp:189-214, and where text has gone: the
    terminal, and files by path. *)
Record log_state := mkLog { min_level : level; log_path : list Z; log_name : list Z; stdout : list Z; files : list (list Z * list Z) }.

Inductive log_call :=
| SetDefaultLevel (l : level) | SetDefaultPath (p : list Z) | SetDefaultName (n : list Z) | SetPattern (p : list Z)
| Message (l : level) (msg : list item).       (* eInfo() << ...; the temporary dies at the end *)

(** logger.hpp:429-432 (destructor), 439-474, 551-553. *)
Definition log_step (s : log_state) (c : log_call) : res log_state :=
  match c with
  | SetDefaultLevel l => Ok (mkLog l (log_path s) (log_name s) (stdout s) (files s))
  | SetDefaultPath p => Ok (mkLog (min_level s) p (log_name s) (stdout s) (files s))
  | SetDefaultName n => Ok (mkLog (min_level s) (log_path s) n (stdout s) (files s))
  | SetPattern _ => Ok s
  | Message l m =>
      t <- insert_all m ;;
      Ok (mkLog (min_level s) (log_path s) (log_name s) (stdout s ++ t ++ reset_code) (files s))
  end.
Fixpoint log_run (s : log_state) (h : list log_call) : res log_state :=
  match h with [] => Ok s | c :: t => s' <- log_step s c ;; log_run s' t end.

(** logger.hpp:189-214: the initial settings. *)
Definition log_start : log_state := mkLog trace [] [99; 111; 110; 115; 111; 108; 101] [] [].

(* The settings of the parallel transform with std (src/fft.rs 47-307): environment
   variables, the OnceLocks that hold what was first read, the timing measurement, and
   the choice between the parallel and the sequential branch, in W-bit arithmetic.
   M_fft.v has the same choice over unbounded integers and given values (parenv).
   Simplifications: one thread at a time (a OnceLock runs one initialiser at a time and a
   panic in it leaves it empty; a measurement repeated after a panic takes as long); std::env::var gives None for unset and non-Unicode
   values; strings are bytes. Oracles: num_cpus::get, the elapsed time. *)
From Coq Require Import List String Ascii NArith Bool.
Import ListNotations.
Set Implicit Arguments.
Open Scope N_scope.

(* a digit, char::to_digit(10) *)
Definition digit (a : ascii) : option N :=
  let v := N_of_ascii a in if (48 <=? v) && (v <=? 57) then Some (v - 48) else None.

Section Tune.
Variable W : N.            (* bits of usize *)
Variable checks : bool.    (* overflow checks: panic instead of wrapping *)
Definition umax : N := 2 ^ W.

(* str::parse::<usize> of core: checked_mul and checked_add digit by digit *)
Fixpoint digits (acc : N) (s : string) : option N :=
  match s with
  | EmptyString => Some acc
  | String a s =>
    match digit a with
    | None => None
    | Some d => let acc := 10 * acc + d in if acc <? umax then digits acc s else None
    end
  end.
(* an empty string and a lone sign are errors, one leading + is skipped *)
Definition parse_usize (s : string) : option N :=
  match s with
  | EmptyString => None
  | String a EmptyString => digits 0 s
  | String a r => if Ascii.eqb a "+" then digits 0 r else digits 0 s
  end.

(* usize product: None is a panic *)
Definition umul (a b : N) : option N :=
  let r := a * b in if r <? umax then Some r else if checks then None else Some (r mod umax).

(* the process: environment now, processors, the override atomics (47-60), the OnceLocks (62-75) *)
Record proc := mkProc {
  env : string -> option string;
  o_thr : N; o_cache : N; o_work : N; o_block : N; o_threads : N;
  l_thr : option N; l_cache : option N; l_work : option N; l_block : option N; l_threads : option N;
  l_calib : option N; l_base : option N }.
(* the oracles: what num_cpus::get returns and the nanoseconds the copy takes *)
Variable cpus : N.
Variable nanos : N.

(* ENV_x.get_or_init(|| var(name).ok().and_then(parse).unwrap_or(dflt)) *)
Definition read (p : proc) (name : string) (dflt : N) : N :=
  match env p name with
  | Some v => match parse_usize v with Some n => n | None => dflt end
  | None => dflt
  end.
Definition env_threshold (p : proc) : proc * N :=                       (* 78-85 *)
  match l_thr p with
  | Some v => (p, v)
  | None => let v := read p "KOFFT_PAR_FFT_THRESHOLD" 0 in
    (mkProc (env p) (o_thr p) (o_cache p) (o_work p) (o_block p) (o_threads p) (Some v) (l_cache p) (l_work p) (l_block p) (l_threads p) (l_calib p) (l_base p), v)
  end.
Definition env_cache_bytes (p : proc) : proc * N :=                     (* 88-95 *)
  match l_cache p with
  | Some v => (p, v)
  | None => let v := read p "KOFFT_PAR_FFT_CACHE_BYTES" (32 * 1024) in
    (mkProc (env p) (o_thr p) (o_cache p) (o_work p) (o_block p) (o_threads p) (l_thr p) (Some v) (l_work p) (l_block p) (l_threads p) (l_calib p) (l_base p), v)
  end.
Definition env_per_core_work (p : proc) : proc * N :=                   (* 98-105 *)
  match l_work p with
  | Some v => (p, v)
  | None => let v := read p "KOFFT_PAR_FFT_PER_CORE_WORK" 4096 in
    (mkProc (env p) (o_thr p) (o_cache p) (o_work p) (o_block p) (o_threads p) (l_thr p) (l_cache p) (Some v) (l_block p) (l_threads p) (l_calib p) (l_base p), v)
  end.
Definition env_block_size (p : proc) : proc * N :=                      (* 108-115 *)
  match l_block p with
  | Some v => (p, v)
  | None => let v := read p "KOFFT_PAR_FFT_BLOCK_SIZE" 1024 in
    (mkProc (env p) (o_thr p) (o_cache p) (o_work p) (o_block p) (o_threads p) (l_thr p) (l_cache p) (l_work p) (Some v) (l_threads p) (l_calib p) (l_base p), v)
  end.
Definition env_threads (p : proc) : proc * N :=                         (* 118-125 *)
  match l_threads p with
  | Some v => (p, v)
  | None => let v := read p "KOFFT_PAR_FFT_THREADS" (N.max cpus 1) in
    (mkProc (env p) (o_thr p) (o_cache p) (o_work p) (o_block p) (o_threads p) (l_thr p) (l_cache p) (l_work p) (l_block p) (Some v) (l_calib p) (l_base p), v)
  end.
(* calibrated_per_core_work 128-140: n = 2^20 bytes, 8 bytes an element; as usize truncates;
   a zero divisor panics *)
Definition calibrated (p : proc) : proc * option N :=
  match l_calib p with
  | Some v => (p, Some v)
  | None =>
    let elapsed := N.max nanos 1 mod umax in
    let elems := 1048576 / 8 in
    match umul elems 1000000000 with
    | None => (p, None)
    | Some e =>
      if elapsed =? 0 then (p, None) else
      let v := N.max (e / elapsed) 4096 in
      (mkProc (env p) (o_thr p) (o_cache p) (o_work p) (o_block p) (o_threads p) (l_thr p) (l_cache p) (l_work p) (l_block p) (l_threads p) (Some v) (l_base p), Some v)
    end
  end.
Definition set_base (p : proc) (v : N) : proc :=
  mkProc (env p) (o_thr p) (o_cache p) (o_work p) (o_block p) (o_threads p) (l_thr p) (l_cache p) (l_work p) (l_block p) (l_threads p) (l_calib p) (Some v).
(* parallel_fft_threshold 143-160 *)
Definition base_threshold (p : proc) : proc * option N :=
  match l_base p with
  | Some v => (p, Some v)
  | None =>
    let '(p, thr) := env_threshold p in
    if negb (thr =? 0) then (set_base p thr, Some thr)
    else
      let '(p, bytes) := env_cache_bytes p in
      let '(p, work) := env_per_core_work p in
      let '(p, cal) := calibrated p in
      match cal with
      | None => (p, None)
      | Some cal =>
        let '(p, block) := env_block_size p in
        let '(p, threads) := env_threads p in
        match umul (N.max (bytes / 8) (N.max (N.max work cal) block)) threads with
        | None => (p, None)
        | Some v => (set_base p v, Some v)
        end
      end
  end.
(* an override, or else what the environment gave *)
Definition pick (o : N) (f : proc -> proc * N) (p : proc) : proc * N := if negb (o =? 0) then (p, o) else f p.
(* should_parallelize_fft 244-280, with std *)
Definition should_parallelize (n base : N) (p : proc) : proc * option bool :=
  let threshold := if negb (o_thr p =? 0) then o_thr p else base in
  if negb (threshold =? 0) then (p, Some (threshold <=? n))
  else
    let '(p, bytes) := pick (o_cache p) env_cache_bytes p in
    let '(p, work) := pick (o_work p) env_per_core_work p in
    let '(p, cal) := calibrated p in
    match cal with
    | None => (p, None)
    | Some cal =>
      let '(p, block) := pick (o_block p) env_block_size p in
      let '(p, threads) := pick (o_threads p) env_threads p in
      match umul (N.max (bytes / 8) (N.max (N.max work cal) block)) threads with
      | None => (p, None)
      | Some t => (p, Some (t <=? n))
      end
    end.
(* the choice made by ifft for n > 1 samples of f32, 1143-1150; None is a panic *)
Definition decide (n : N) (p : proc) : proc * option bool :=
  match base_threshold p with
  | (p, None) => (p, None)
  | (p, Some base) => should_parallelize n base p
  end.

(* what can happen in a process *)
Inductive event : Type :=
  | Decide (n : N)
  | SetVar (name : string) (v : option string)        (* std::env::set_var, remove_var *)
  | SetThreshold (v : N) | SetCache (v : N) | SetWork (v : N) | SetBlock (v : N) | SetThreads (v : N).
Definition with_overrides (p : proc) a b c d e : proc :=
  mkProc (env p) a b c d e (l_thr p) (l_cache p) (l_work p) (l_block p) (l_threads p) (l_calib p) (l_base p).
Definition step (p : proc) (ev : event) : proc :=
  match ev with
  | Decide n => fst (decide n p)
  | SetVar name v =>
    mkProc (fun q => if String.eqb q name then v else env p q) (o_thr p) (o_cache p) (o_work p) (o_block p) (o_threads p)
      (l_thr p) (l_cache p) (l_work p) (l_block p) (l_threads p) (l_calib p) (l_base p)
  | SetThreshold v => with_overrides p v (o_cache p) (o_work p) (o_block p) (o_threads p)        (* 176-178 *)
  | SetCache v => with_overrides p (o_thr p) v (o_work p) (o_block p) (o_threads p)              (* 184-186 *)
  | SetWork v => with_overrides p (o_thr p) (o_cache p) v (o_block p) (o_threads p)              (* 193-195 *)
  | SetBlock v => with_overrides p (o_thr p) (o_cache p) (o_work p) v (o_threads p)              (* 207-209 *)
  | SetThreads v => with_overrides p (o_thr p) (o_cache p) (o_work p) (o_block p) v              (* 200-202 *)
  end.
Definition run (p : proc) (es : list event) : proc := fold_left step es p.
End Tune.
(* a new process *)
Definition start (e : string -> option string) : proc := mkProc e 0 0 0 0 0 None None None None None None None.

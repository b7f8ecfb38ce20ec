(* Many threads using the settings of the parallel transform (src/fft.rs 47-307) at once.
   M_tune.v has the same functions run by one thread; here each of them is a program of
   single accesses, and the accesses of all calls interleave in any order.
   A OnceLock is empty, being filled by one call, or full; get_or_init returns the value of
   a full one, waits for one being filled, and otherwise runs the initialiser; a panic in an
   initialiser empties the locks it was filling (std's documentation of OnceLock).
   Simplifications: the relaxed atomics are sequentially consistent (weaker orders can only
   matter when a setter runs at the same time); a call that panicked does nothing more;
   std::env::var gives None for unset and non-Unicode values. num_cpus::get and the elapsed
   time may return anything each time they are asked. *)
From Coq Require Import List String NArith Bool.
From Verif Require Import M_tune.
Import ListNotations.
Set Implicit Arguments.
Open Scope N_scope.

Inductive reg := RThr | RCache | RWork | RBlock | RThreads.                              (* 47-60 *)
Inductive lock := LThr | LCache | LWork | LBlock | LThreads | LCalib | LBase.            (* 62-75 *)
Scheme Equality for reg.
Scheme Equality for lock.

Inductive prog : Type :=
  | Ret (v : N)
  | Crash                                                     (* panic *)
  | Fetch (r : reg) (k : N -> prog)                            (* X_OVERRIDE.load(Relaxed) *)
  | Var (name : string) (k : option string -> prog)           (* std::env::var(name).ok() *)
  | Any (k : N -> prog)                                       (* num_cpus::get(), the elapsed nanoseconds *)
  | Once (l : lock) (init : prog) (k : N -> prog).            (* *L.get_or_init(init) *)

Section Progs.
Variable W : N.            (* bits of usize *)
Variable checks : bool.    (* overflow checks *)

(* .and_then(|v| v.parse::<usize>().ok()).unwrap_or(dflt) *)
Definition parsed (v : option string) (dflt : N) : N :=
  match v with Some s => match parse_usize W s with Some n => n | None => dflt end | None => dflt end.
Definition q_threshold (k : N -> prog) : prog :=                                         (* 78-85 *)
  Once LThr (Var "KOFFT_PAR_FFT_THRESHOLD" (fun v => Ret (parsed v 0))) k.
Definition q_cache (k : N -> prog) : prog :=                                             (* 88-95 *)
  Once LCache (Var "KOFFT_PAR_FFT_CACHE_BYTES" (fun v => Ret (parsed v (32 * 1024)))) k.
Definition q_work (k : N -> prog) : prog :=                                              (* 98-105 *)
  Once LWork (Var "KOFFT_PAR_FFT_PER_CORE_WORK" (fun v => Ret (parsed v 4096))) k.
Definition q_block (k : N -> prog) : prog :=                                             (* 108-115 *)
  Once LBlock (Var "KOFFT_PAR_FFT_BLOCK_SIZE" (fun v => Ret (parsed v 1024))) k.
Definition q_threads (k : N -> prog) : prog :=                                           (* 118-125; the processors are counted only if needed *)
  Once LThreads (Var "KOFFT_PAR_FFT_THREADS" (fun v =>
    match v with
    | Some s => match parse_usize W s with Some n => Ret n | None => Any (fun c => Ret (N.max c 1)) end
    | None => Any (fun c => Ret (N.max c 1))
    end)) k.
Definition q_calibrated (k : N -> prog) : prog :=                                        (* 128-140 *)
  Once LCalib (Any (fun nanos =>
    let elapsed := N.max nanos 1 mod umax W in
    match umul W checks (1048576 / 8) 1000000000 with
    | None => Crash
    | Some e => if elapsed =? 0 then Crash else Ret (N.max (e / elapsed) 4096)
    end)) k.
Definition q_base (k : N -> prog) : prog :=                                              (* 143-160 *)
  Once LBase (q_threshold (fun thr =>
    if negb (thr =? 0) then Ret thr
    else q_cache (fun bytes => q_work (fun work => q_calibrated (fun cal => q_block (fun block => q_threads (fun threads =>
      match umul W checks (N.max (bytes / 8) (N.max (N.max work cal) block)) threads with
      | None => Crash
      | Some v => Ret v
      end))))))) k.
(* an override, or else what the environment gave: 212-241, 259-272 *)
Definition q_pick (r : reg) (f : (N -> prog) -> prog) (k : N -> prog) : prog :=
  Fetch r (fun o => if negb (o =? 0) then k o else f k).
Definition q_should (n base : N) : prog :=                                               (* 244-280 *)
  Fetch RThr (fun o =>
    let threshold := if negb (o =? 0) then o else base in
    if negb (threshold =? 0) then Ret (N.b2n (threshold <=? n))
    else q_pick RCache q_cache (fun bytes => q_pick RWork q_work (fun work => q_calibrated (fun cal =>
      q_pick RBlock q_block (fun block => q_pick RThreads q_threads (fun threads =>
        match umul W checks (N.max (bytes / 8) (N.max (N.max work cal) block)) threads with
        | None => Crash
        | Some t => Ret (N.b2n (t <=? n))
        end)))))).
(* the choice of ifft for n > 1 samples, 1143-1150 *)
Definition q_decide (n : N) : prog := q_base (fun base => q_should n base).
(* fft and stockham_fft for a power of two above 16: the threshold is computed and not used, 634-640, 1074-1079 *)
Definition q_forward : prog := q_base (fun _ => Ret 0).
Inductive call := CDecide (n : N) | CForward.
Definition code (c : call) : prog := match c with CDecide n => q_decide n | CForward => q_forward end.
End Progs.

(* a OnceLock; a call with the initialisers it is inside of; the process *)
Inductive cell := Empty | Filling (t : nat) | Full (v : N).
Inductive thread :=
  | Run (p : prog) (inits : list (lock * (N -> prog)))
  | Fin (v : N)
  | Dead.
Record state := mkState { s_env : string -> option string; s_reg : reg -> N; s_lock : lock -> cell; s_thr : nat -> thread }.
Definition upd (L : lock -> cell) (l : lock) (c : cell) : lock -> cell := fun x => if lock_beq x l then c else L x.
(* unwinding: the locks a panicking call was filling are empty again *)
Fixpoint unwind (L : lock -> cell) (st : list (lock * (N -> prog))) : lock -> cell :=
  match st with [] => L | (l, _) :: st => unwind (upd L l Empty) st end.

(* one access of call t *)
Inductive tstep (e : string -> option string) (r : reg -> N) (t : nat) : (lock -> cell) -> thread -> (lock -> cell) -> thread -> Prop :=
  | t_load L x k st : tstep e r t L (Run (Fetch x k) st) L (Run (k (r x)) st)
  | t_var L name k st : tstep e r t L (Run (Var name k) st) L (Run (k (e name)) st)
  | t_any L v k st : tstep e r t L (Run (Any k) st) L (Run (k v) st)
  | t_full L l i k v st : L l = Full v -> tstep e r t L (Run (Once l i k) st) L (Run (k v) st)
  | t_enter L l i k st : L l = Empty -> tstep e r t L (Run (Once l i k) st) (upd L l (Filling t)) (Run i ((l, k) :: st))
  | t_fill L v l k st : tstep e r t L (Run (Ret v) ((l, k) :: st)) (upd L l (Full v)) (Run (k v) st)
  | t_ret L v : tstep e r t L (Run (Ret v) []) L (Fin v)
  | t_crash L st : tstep e r t L (Run Crash st) (unwind L st) Dead.

(* one step of the process: an access of some call, a change of the environment, a setter (176-209) *)
Inductive act := Access (t : nat) | EnvChange | Setter.
Inductive step : state -> act -> state -> Prop :=
  | s_access s t L' th' : tstep (s_env s) (s_reg s) t (s_lock s) (s_thr s t) L' th' ->
      step s (Access t) (mkState (s_env s) (s_reg s) L' (fun u => if Nat.eqb u t then th' else s_thr s u))
  | s_setvar s name v : step s EnvChange (mkState (fun q => if String.eqb q name then v else s_env s q) (s_reg s) (s_lock s) (s_thr s))
  | s_setter s x v : step s Setter (mkState (s_env s) (fun y => if reg_beq y x then v else s_reg s y) (s_lock s) (s_thr s)).
Inductive steps : state -> list act -> state -> Prop :=
  | steps_nil s : steps s [] s
  | steps_cons s a s' l s'' : step s a s' -> steps s' l s'' -> steps s (a :: l) s''.

(* a new process in which call number t is calls t (a call that is never scheduled never starts) *)
Definition init (W : N) (checks : bool) (e : string -> option string) (calls : nat -> call) : state :=
  mkState e (fun _ => 0) (fun _ => Empty) (fun t => Run (code W checks (calls t)) []).

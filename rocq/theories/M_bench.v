(* Model of kofft-bench: the counting allocator and the result post-processing of
   benches/bench_fft.rs, and the README splice of examples/update_bench_readme.rs. *)
From Coq Require Import String Ascii List Bool Arith ZArith.
From Verif Require Import Num.
Import ListNotations.
Set Implicit Arguments.

(* ---------- allocation tracking, bench_fft.rs 18-67 ---------- *)
(* usize arithmetic of the atomic operations wraps *)
Definition usize (z : Z) : Z := (z mod 2 ^ 64)%Z.

(* Where a thread is inside CountingAllocator::alloc 27-35 and update_peak 46-54:
     Idle               not in the allocator's bookkeeping
     Counted size       ALLOCATIONS incremented (30), CURRENT_BYTES not yet (31)
     ToLoad new         before the load of PEAK_BYTES (47)
     ToCas new peak     before the compare_exchange (49), having passed `new > peak` (48) *)
Inductive tstate := Idle | Counted (size : N) | ToLoad (new : Z) | ToCas (new peak : Z).

(* The three statics 22-24. All accesses are Relaxed: CURRENT_BYTES and ALLOCATIONS are only touched by
   read-modify-write operations, which always see the latest value; PEAK_BYTES is also loaded, and a
   relaxed load (or failing compare_exchange) may return any earlier value, so its whole modification
   order is kept, latest first. *)
Record astate := mkA { a_allocs : Z; a_cur : Z; a_peaks : list Z; a_thr : nat -> tstate }.
Definition at_thread (s : astate) (t : nat) (st : tstate) : nat -> tstate :=
  fun u => if u =? t then st else a_thr s u.

(* One atomic action; the reading position (0 = the latest value) is part of the action.
   None: the action is not possible in this state. *)
Inductive event :=
  | EAlloc (t : nat) (size : N)     (* System.alloc gave a block; ALLOCATIONS.fetch_add(1) 28-30 *)
  | EAdd (t : nat) (size : N)       (* CURRENT_BYTES.fetch_add(size) + size 31 *)
  | ELoad (t : nat) (i : nat)       (* PEAK_BYTES.load 47 and the test 48 *)
  | ECas (t : nat) (i : nat)        (* compare_exchange 49-52 and, after a failure, the test 48 *)
  | EFree (size : N)                (* dealloc 37-40: CURRENT_BYTES.fetch_sub(size) *)
  | EStoreA | EStoreC | EStoreP.    (* reset_alloc 56-60 *)
(* the test `new > peak` of the loop 48 *)
Definition test_peak (new peak : Z) : tstate := if (peak <? new)%Z then ToCas new peak else Idle.
Definition astep (s : astate) (e : event) : option astate :=
  match e with
  | EAlloc t size =>
    match a_thr s t with
    | Idle => Some (mkA (usize (a_allocs s + 1)) (a_cur s) (a_peaks s) (at_thread s t (Counted size)))
    | _ => None
    end
  | EAdd t size =>
    match a_thr s t with
    | Counted size' =>
      if (size =? size')%N then
        let new := usize (a_cur s + Z.of_N size) in
        Some (mkA (a_allocs s) new (a_peaks s) (at_thread s t (ToLoad new)))
      else None
    | _ => None
    end
  | ELoad t i =>
    match a_thr s t, nth_error (a_peaks s) i with
    | ToLoad new, Some v => Some (mkA (a_allocs s) (a_cur s) (a_peaks s) (at_thread s t (test_peak new v)))
    | _, _ => None
    end
  | ECas t i =>
    match a_thr s t, nth_error (a_peaks s) i with
    | ToCas new v, Some v' =>
      if (v' =? v)%Z then
        match i with
        | 0 => Some (mkA (a_allocs s) (a_cur s) (new :: a_peaks s) (at_thread s t Idle))
        | _ => None       (* an exchange cannot succeed on an old value *)
        end
      else Some (mkA (a_allocs s) (a_cur s) (a_peaks s) (at_thread s t (test_peak new v')))
    | _, _ => None
    end
  | EFree size => Some (mkA (a_allocs s) (usize (a_cur s - Z.of_N size)) (a_peaks s) (a_thr s))
  | EStoreA => Some (mkA 0 (a_cur s) (a_peaks s) (a_thr s))
  | EStoreC => Some (mkA (a_allocs s) 0 (a_peaks s) (a_thr s))
  | EStoreP => Some (mkA (a_allocs s) (a_cur s) (0 :: a_peaks s)%Z (a_thr s))
  end.
Fixpoint asteps (s : astate) (l : list event) : option astate :=
  match l with [] => Some s | e :: r => match astep s e with Some s' => asteps s' r | None => None end end.
(* the statics as the program starts 22-24 *)
Definition a_init : astate := mkA 0 0 [0%Z] (fun _ => Idle).
(* alloc_stats 62-67 once the measured work has finished *)
Definition alloc_stats (s : astate) : Z * Z := (a_allocs s, hd 0%Z (a_peaks s)).

(* ---------- save_results, bench_fft.rs 439-542 ---------- *)
Section Results.
Context {T : Type} {F : Float T} {X : FloatX T}.
(* BenchRecord 70-85 *)
Record brec := mkB { b_lib : string; b_tr : string; b_size : nat; b_mode : string;
  b_time : T; b_ops : T; b_allocs : nat; b_peak : nat;
  b_prev : option T; b_change : option T; b_best : bool }.
(* the HashMap keys 478-483, 503 *)
Definition key4 := (string * string * nat * string)%type.
Definition key_of (r : brec) : key4 := (b_lib r, b_tr r, b_size r, b_mode r).
Definition key4_eqb (a b : key4) : bool :=
  let '(a1, a2, a3, a4) := a in let '(b1, b2, b3, b4) := b in
  (a1 =? b1)%string && (a2 =? b2)%string && (a3 =? b3) && (a4 =? b4)%string.
Definition gkey := (string * nat)%type.
Definition gkey_of (r : brec) : gkey := (b_tr r, b_size r).
Definition gkey_eqb (a b : gkey) : bool := (fst a =? fst b)%string && (snd a =? snd b).
Fixpoint mfind {K V} (eqb : K -> K -> bool) (m : list (K * V)) (k : K) : option V :=
  match m with [] => None | (k', v) :: r => if eqb k' k then Some v else mfind eqb r k end.
(* 474-487: a later insertion replaces an earlier one *)
Definition prev_map (prev : list brec) : list (key4 * T) :=
  fold_left (fun m r => (key_of r, b_time r) :: m) prev [].
(* 489-499 *)
Definition annotate (m : list (key4 * T)) (r : brec) : brec :=
  match mfind key4_eqb m (key_of r) with
  | Some pt => mkB (b_lib r) (b_tr r) (b_size r) (b_mode r) (b_time r) (b_ops r) (b_allocs r) (b_peak r)
      (Some pt) (Some (fmul (fdiv (fsub pt (b_time r)) pt) (flit 100))) (b_best r)
  | None => r
  end.
(* 501-508: entry().or_insert(), then the minimum *)
Definition best_map (l : list brec) : list (gkey * T) :=
  fold_left (fun m r =>
    match mfind gkey_eqb m (gkey_of r) with
    | None => (gkey_of r, b_time r) :: m
    | Some b => if fltb (b_time r) b then (gkey_of r, b_time r) :: m else m
    end) l [].
(* 509-516; f64::EPSILON is 2^-52 *)
Definition mark_best (m : list (gkey * T)) (r : brec) : brec :=
  match mfind gkey_eqb m (gkey_of r) with
  | Some b =>
    if fltb (fabs (fsub (b_time r) b)) (flit (1 # 4503599627370496))
    then mkB (b_lib r) (b_tr r) (b_size r) (b_mode r) (b_time r) (b_ops r) (b_allocs r) (b_peak r)
           (b_prev r) (b_change r) true
    else r
  | None => r
  end.
(* the comparison 518-523; partial_cmp gives None when neither <, = nor > holds (NaN) *)
Definition partial_cmp (a b : T) : option comparison :=
  if fltb a b then Some Lt else if feqb a b then Some Eq else if fltb b a then Some Gt else None.
Definition bcmp (a b : brec) : exec comparison :=
  match String.compare (b_tr a) (b_tr b) with
  | Eq => match Nat.compare (b_size a) (b_size b) with
          | Eq => match partial_cmp (b_time a) (b_time b) with Some c => Done c | None => Panic end
          | c => Done c
          end
  | c => Done c
  end.
(* slice::sort_by, a stable sort: here by insertion *)
Fixpoint insert_by (x : brec) (l : list brec) : exec (list brec) :=
  match l with
  | [] => Done [x]
  | y :: r => c <- bcmp x y ;;
              match c with Gt => r' <- insert_by x r ;; Done (y :: r') | _ => Done (x :: l) end
  end.
(* slice::sort_by is stable; insertion sort gives the same list for a total order. With incomparable
   times (NaN) which pairs get compared depends on the algorithm: C77_nan_panics is about two records *)
Fixpoint sort_by (l : list brec) : exec (list brec) :=
  match l with [] => Done [] | x :: r => r' <- sort_by r ;; insert_by x r' end.
(* 473-523; prev: the results of latest.json if it could be read *)
Definition save_results (prev : option (list brec)) (results : list brec) : exec (list brec) :=
  let pm := match prev with Some p => prev_map p | None => [] end in
  let results := map (annotate pm) results in
  sort_by (map (mark_best (best_map results)) results).
End Results.
Arguments brec T : clear implicits.

(* ---------- update_readme, update_bench_readme.rs 68-82 ---------- *)
Local Open Scope string_scope.
Definition bench_start := "<!-- BENCH_START -->".      (* 71 *)
Definition bench_end := "<!-- BENCH_END -->".          (* 72 *)
(* str::find: the first position at which sub starts *)
Fixpoint find (s sub : string) : option nat :=
  if prefix sub s then Some 0
  else match s with EmptyString => None | String _ s' => option_map S (find s' sub) end.
Fixpoint take (n : nat) (s : string) : string :=
  match n, s with S n, String c s => String c (take n s) | _, _ => EmptyString end.
Fixpoint drop (n : nat) (s : string) : string :=
  match n, s with S n, String _ s => drop n s | _, _ => s end.
(* None: the file is not written. The line feed is 75. *)
Definition update_readme (content table : string) : option string :=
  match find content bench_start, find content bench_end with
  | Some s, Some e =>
    Some (take (s + String.length bench_start) content ++ String (ascii_of_nat 10) EmptyString ++ table ++ drop e content)
  | _, _ => None
  end.

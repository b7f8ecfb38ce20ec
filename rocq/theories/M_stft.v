(* Model of src/stft.rs. The FFT implementation is a provider
   op : state -> buffer -> exec (state * buffer * Result), as for the real FFT;
   the streaming objects borrow it, so its state is threaded through calls.
   usize additions are taken not to overflow. *)
From Verif Require Export Num M_fft.
Set Implicit Arguments.
Open Scope nat_scope.

Section Stft.
Context {T : Type} {F : Float T} {X : FloatX T}.
Local Notation cx := (cx T).
Context {S : Type}.
Variable op : S -> list cx -> exec (S * list cx * rres).

(* the literal 1e-8 of lines 151, 336, 473, 512 *)
Definition eps8 : T := flit (1 # 100000000).
(* usize::div_ceil, panics for a zero divisor *)
Definition div_ceil (a b : nat) : exec nat := if b =? 0 then Panic else Done ((a + b - 1) / b).

(* 94-101, 194-201, 252-259, 363-370: one windowed sample, 0 beyond the end *)
Definition wsample (signal window : list T) (start i : nat) : exec T :=
  if start + i <? length signal
  then s <- get signal (start + i) ;; w <- get window i ;; Done (fmul s w)
  else Done fzero.
Definition load (signal window : list T) (start : nat) (frame : list cx) : exec (list cx) :=
  for_range 0 (length window) (fun i fr => x <- wsample signal window start i ;; set fr i (mkcx x fzero)) frame.

(* 91-104: the loop over the frame slots, from slot idx on *)
Fixpoint stft_frames (signal window : list T) (hop idx : nat) (s : S) (frames : list (list cx))
  : exec (S * list (list cx) * rres) :=
  match frames with
  | [] => Done (s, [], ROk)
  | f :: rest =>
    f <- load signal window (idx * hop) (resize f (length window) czero) ;;
    '(s, f, r) <- op s f ;;
    match r with
    | RErr e => Done (s, f :: rest, RErr e)
    | ROk => '(s, rest, r) <- stft_frames signal window hop (idx + 1) s rest ;; Done (s, f :: rest, r)
    end
  end.
(* stft, 76-106 *)
Definition stft (s : S) (signal window : list T) (hop : nat) (output : list (list cx)) : exec (S * list (list cx) * rres) :=
  if hop =? 0 then Done (s, output, RErr InvalidHopSize)
  else required <- div_ceil (length signal) hop ;;
    if length output <? required then Done (s, output, RErr MismatchedLengths)
    else stft_frames signal window hop 0 s output.

(* 142-147: overlap-add of one frame *)
Definition overlap (window : list T) (start : nat) (frame : list cx) (os : list T * list T) : exec (list T * list T) :=
  for_range 0 (length window) (fun i '(out, scr) =>
    if start + i <? length out then
      o <- get out (start + i) ;; z <- get frame i ;; w <- get window i ;;
      out <- set out (start + i) (fadd o (fmul (re z) w)) ;;
      q <- get scr (start + i) ;;
      scr <- set scr (start + i) (fadd q (fmul w w)) ;;
      Done (out, scr)
    else Done (out, scr)) os.
(* 136-148 *)
Fixpoint istft_frames (window : list T) (hop idx : nat) (s : S) (frames : list (list cx)) (os : list T * list T)
  : exec (S * list (list cx) * (list T * list T) * rres) :=
  match frames with
  | [] => Done (s, [], os, ROk)
  | f :: rest =>
    if negb (length f =? length window) then Done (s, f :: rest, os, RErr MismatchedLengths)
    else
      '(s, f, r) <- op s f ;;
      match r with
      | RErr e => Done (s, f :: rest, os, RErr e)
      | ROk =>
        os <- overlap window (idx * hop) f os ;;
        '(s, rest, os, r) <- istft_frames window hop (idx + 1) s rest os ;; Done (s, f :: rest, os, r)
      end
  end.
(* 150-154 *)
Definition normalize (out scr : list T) : exec (list T) :=
  for_range 0 (length out) (fun i out =>
    q <- get scr i ;;
    if fltb eps8 q then o <- get out i ;; set out i (fdiv o q) else Done out) out.
(* istft, 117-156 *)
Definition istft (s : S) (frames : list (list cx)) (window : list T) (hop : nat) (output scratch : list T)
  : exec (S * list (list cx) * list T * list T * rres) :=
  if hop =? 0 then Done (s, frames, output, scratch, RErr InvalidHopSize)
  else if negb (length scratch =? length output) then Done (s, frames, output, scratch, RErr MismatchedLengths)
  else
    let scratch := map (fun _ => fzero) scratch in
    '(s, frames, os, r) <- istft_frames window hop 0 s frames (output, scratch) ;;
    let '(output, scratch) := os in
    match r with
    | RErr e => Done (s, frames, output, scratch, RErr e)
    | ROk => output <- normalize output scratch ;; Done (s, frames, output, scratch, ROk)
    end.

(* StftStream::new, 169-185: the stream state that changes is pos *)
Definition stream_new (hop : nat) : result nat := if hop =? 0 then Err InvalidHopSize else Ok 0.
(* StftStream::next_frame, 186-205 *)
Definition next_frame (signal window : list T) (hop pos : nat) (s : S) (out : list cx)
  : exec (S * nat * list cx * result bool) :=
  if negb (length out =? length window) then Done (s, pos, out, Err MismatchedLengths)
  else if length signal <=? pos then Done (s, pos, out, Ok false)
  else
    out <- load signal window pos out ;;
    '(s, out, r) <- op s out ;;
    match r with
    | RErr e => Done (s, pos, out, Err e)
    | ROk => Done (s, pos + hop, out, Ok true)
    end.

(* frame, 355-373 *)
Definition frame (s : S) (signal window : list T) (start : nat) (out : list cx) : exec (S * list cx * rres) :=
  out <- load signal window start out ;; op s out.
(* inverse_frame, 384-399 *)
Definition inverse_frame (s : S) (fr : list cx) (window : list T) (start : nat) (output : list T)
  : exec (S * list cx * list T * rres) :=
  '(s, fr, r) <- op s fr ;;
  match r with
  | RErr e => Done (s, fr, output, RErr e)
  | ROk =>
    output <- for_range 0 (length window) (fun i out =>
      if start + i <? length out then
        o <- get out (start + i) ;; z <- get fr i ;; w <- get window i ;; set out (start + i) (fadd o (fmul (re z) w))
      else Done out) output ;;
    Done (s, fr, output, ROk)
  end.

(* IstftStream, 407-419 *)
Record istream := mkIs {
  is_win : nat; is_hop : nat; is_window : list T;
  is_buf : list T; is_norm : list T; is_time : list cx;
  is_pos : nat; is_out : nat; is_count : nat }.
(* IstftStream::new, 422-446 *)
Definition istream_new (win_len hop : nat) (window : list T) : result istream :=
  if hop =? 0 then Err InvalidHopSize
  else Ok (mkIs win_len hop window (repeat fzero (win_len + hop * 2)) (repeat fzero (win_len + hop * 2))
    (repeat czero win_len) 0 0 0).
(* 472-477, 511-516: normalise positions a..b *)
Definition norm_range (a b : nat) (bn : list T * list T) : exec (list T * list T) :=
  for_range a b (fun i '(buf, nrm) =>
    q <- get nrm i ;;
    buf <- (if fltb eps8 q then o <- get buf i ;; set buf i (fdiv o q) else Done buf) ;;
    nrm <- set nrm i fzero ;;
    Done (buf, nrm)) bn.
(* &v[a..b] *)
Definition slice {A} (l : list A) (a b : nat) : exec (list A) :=
  if (a <=? b) && (b <=? length l) then Done (firstn (b - a) (skipn a l)) else Panic.
(* IstftStream::push_frame, 453-494 *)
Definition push_frame (s : S) (st : istream) (fr : list cx) : exec (S * istream * result (list T)) :=
  let '(mkIs wl hop window buf nrm time pos out cnt) := st in
  if negb (length fr =? wl) then Done (s, st, Err MismatchedLengths)
  else if negb (length time =? length fr) then Panic
  else
    '(s, time, r) <- op s fr ;;
    match r with
    | RErr e => Done (s, mkIs wl hop window buf nrm time pos out cnt, Err e)
    | ROk =>
      '(buf, nrm) <- for_range 0 wl (fun i '(buf, nrm) =>
        w <- get window i ;; z <- get time i ;;
        b <- get buf (pos + i) ;; buf <- set buf (pos + i) (fadd b (fmul (re z) w)) ;;
        q <- get nrm (pos + i) ;; nrm <- set nrm (pos + i) (fadd q (fmul w w)) ;;
        Done (buf, nrm)) (buf, nrm) ;;
      '(buf, nrm) <- norm_range out (out + hop) (buf, nrm) ;;
      let out' := out + hop in
      let pos := pos + hop in
      let '(buf, nrm) :=
        if length buf <? pos + wl then (resize buf (pos + wl) fzero, resize nrm (pos + wl) fzero) else (buf, nrm) in
      '(buf, nrm) <- for_range 0 hop (fun i '(buf, nrm) =>
        if pos + wl <? hop then Panic else
        buf <- set buf (pos + wl - hop + i) fzero ;;
        nrm <- set nrm (pos + wl - hop + i) fzero ;; Done (buf, nrm)) (buf, nrm) ;;
      piece <- slice buf out out' ;;
      Done (s, mkIs wl hop window buf nrm time pos out' (cnt + 1), Ok piece)
    end.
(* IstftStream::flush, 502-519 *)
Definition flush (st : istream) : exec (istream * list T) :=
  let '(mkIs wl hop window buf nrm time pos out cnt) := st in
  if cnt =? 0 then Done (st, [])
  else if pos + wl <? hop then Panic
  else
    let e := pos + wl - hop in
    if e <=? out then Done (st, [])
    else
      '(buf, nrm) <- norm_range out e (buf, nrm) ;;
      piece <- slice buf out e ;;
      Done (mkIs wl hop window buf nrm time pos e cnt, piece).
End Stft.

Section Parallel.
Context {T : Type} {F : Float T} {X : FloatX T}.
Local Notation cx := (cx T).
Variable c : cfg.

(* parallel, 232-263. The frames are processed in the order sched (one thread
   at a time: the closures share nothing); rayon's try_for_each stops at an
   error. Each closure builds its own ScalarFftImpl. *)
Fixpoint par_frames (signal window : list T) (hop : nat) (sched : list nat) (output : list (list cx))
  : exec (list (list cx) * rres) :=
  match sched with
  | [] => Done (output, ROk)
  | i :: rest =>
    f <- for_range 0 (length window) (fun j f => x <- wsample signal window (i * hop) j ;; Done (f ++ [mkcx x fzero])) [] ;;
    '(_, f, r) <- fft c new_planner f ;;
    output <- set output i f ;;
    match r with RErr e => Done (output, RErr e) | ROk => par_frames signal window hop rest output end
  end.
Definition stft_parallel (sched : list nat) (signal window : list T) (hop : nat) (output : list (list cx))
  : exec (list (list cx) * rres) :=
  if hop =? 0 then Done (output, RErr InvalidHopSize) else par_frames signal window hop sched output.

(* 308-322: one frame's contribution *)
Definition contribution (window : list T) (fr : list cx) : exec (result (list T * list T)) :=
  '(_, t, r) <- ifft c new_planner fr ;;
  match r with
  | RErr e => Done (Err e)
  | ROk =>
    an <- for_range 0 (length window) (fun i '(acc, nrm) =>
      z <- get t i ;; w <- get window i ;;
      acc <- set acc i (fmul (re z) w) ;; nrm <- set nrm i (fmul w w) ;; Done (acc, nrm))
      (repeat fzero (length window), repeat fzero (length window)) ;;
    Done (Ok an)
  end.
(* the parallel map: slot i is filled when sched reaches i *)
Fixpoint par_map {A B} (f : A -> exec B) (l : list A) (sched : list nat) (slots : list (option B)) : exec (list (option B)) :=
  match sched with
  | [] => Done slots
  | i :: rest => a <- get l i ;; b <- f a ;; slots <- set slots i (Some b) ;; par_map f l rest slots
  end.
(* collect::<Result<Vec<_>, _>>: the values in index order, or an error *)
Fixpoint collect {B} (slots : list (option (result B))) : exec (result (list B)) :=
  match slots with
  | [] => Done (Ok [])
  | None :: _ => NoFuel
  | Some (Err e) :: _ => Done (Err e)
  | Some (Ok b) :: rest => r <- collect rest ;; Done (match r with Ok l => Ok (b :: l) | Err e => Err e end)
  end.
(* 325-334 *)
Fixpoint add_partials (wl hop idx : nat) (parts : list (list T * list T)) (os : list T * list T) : exec (list T * list T) :=
  match parts with
  | [] => Done os
  | (acc, nrm) :: rest =>
    os <- for_range 0 wl (fun i '(out, scr) =>
      if idx * hop + i <? length out then
        o <- get out (idx * hop + i) ;; a <- get acc i ;; out <- set out (idx * hop + i) (fadd o a) ;;
        q <- get scr (idx * hop + i) ;; b <- get nrm i ;; scr <- set scr (idx * hop + i) (fadd q b) ;;
        Done (out, scr)
      else Done (out, scr)) os ;;
    add_partials wl hop (idx + 1) rest os
  end.
(* inverse_parallel, 289-343 *)
Definition inverse_parallel (sched : list nat) (frames : list (list cx)) (window : list T) (hop : nat) (output : list T)
  : exec (list T * rres) :=
  if hop =? 0 then Done (output, RErr InvalidHopSize)
  else
    slots <- par_map (contribution window) frames sched (map (fun _ => None) frames) ;;
    parts <- collect slots ;;
    match parts with
    | Err e => Done (output, RErr e)
    | Ok parts =>
      '(output, nrm) <- add_partials (length window) hop 0 parts (output, repeat fzero (length output)) ;;
      output <- for_range 0 (length output) (fun i out =>
        q <- get nrm i ;;
        if fltb eps8 q then o <- get out i ;; set out i (fdiv o q) else set out i fzero) output ;;
      Done (output, ROk)
    end.
End Parallel.

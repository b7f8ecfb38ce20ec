(* usize arithmetic on a machine with W-bit words, for the public functions
   that multiply or add integers chosen by the caller: the strided transforms
   (src/fft.rs 1175-1260), the 2D and 3D transforms (src/ndfft.rs 74-153),
   stft, istft and the streaming analysis (src/stft.rs 76-205), the Kaiser window
   (src/window.rs 52-73, the one usize subtraction that can go below zero) and the chirp
   of the Bluestein transform (src/fft.rs 410-437). The other model files take
   usize to be unbounded; these definitions repeat the same code with every
   product and sum reduced.
     W       bits of usize: 64, or 32 on wasm32
     checks  overflow checks: on in debug builds (overflow panics), off in
             release builds (the result wraps) *)
From Verif Require Export M_nd M_stft M_win.
Set Implicit Arguments.
Open Scope nat_scope.

Section Word.
Variable W : nat.
Variable checks : bool.

(* the result n of a usize addition or multiplication, as the machine delivers it *)
Definition word (n : nat) : exec nat :=
  if n <? 2 ^ W then Done n else if checks then Panic else Done (n mod 2 ^ W).

Section Fft.
Context {T : Type} {F : Float T}.
Local Notation cx := (cx T).
Local Notation planner := (planner T).

(* fft_strided src/fft.rs 1175-1199, ifft_strided 1236-1260 *)
Definition wstrided (op : planner -> list cx -> exec (planner * list cx * rres))
  (p : planner) (input : list cx) (stride : nat) (scratch : list cx) : exec (planner * list cx * list cx * rres) :=
  if stride =? 0 then Done (p, input, scratch, RErr InvalidStride)
  else
    let n := length scratch in
    if n =? 0 then Done (p, input, scratch, ROk)
    else
      last <- word ((n - 1) * stride) ;;                             (* 1188, 1249 *)
      need <- word (last + 1) ;;
      if length input <? need then Done (p, input, scratch, RErr MismatchedLengths)
      else
        scratch <- for_range 0 n (fun i s => j <- word (i * stride) ;; v <- get input j ;; set s i v) scratch ;;
        '(p, scratch, r) <- op p scratch ;;
        match r with
        | RErr e => Done (p, input, scratch, RErr e)
        | ROk =>
          input <- for_range 0 n (fun i inp => v <- get scratch i ;; j <- word (i * stride) ;; set inp j v) input ;;
          Done (p, input, scratch, ROk)
        end.

Variable c : cfg.
(* fft.fft(&mut data[start..start + len]), src/ndfft.rs 93, 150 *)
Definition wfft_slice (start len : nat) (s : planner * list cx) : exec (planner * list cx * rres) :=
  let '(p, data) := s in
  stop <- word (start + len) ;;
  if (start <=? stop) && (stop <=? length data) then
    '(p, part, r) <- fft c p (firstn (stop - start) (skipn start data)) ;;
    Done (p, firstn start data ++ part ++ skipn stop data, r)
  else Panic.
(* fft.fft_strided(&mut data[start..], stride, scratch) *)
Definition wstrided_slice (start stride : nat) (s : planner * list cx * list cx)
  : exec (planner * list cx * list cx * rres) :=
  let '(p, data, scratch) := s in
  rest <- slice_from data start ;;
  '(p, rest, scratch, r) <- wstrided (fft c) p rest stride scratch ;;
  Done (p, firstn start data ++ rest, scratch, r).

(* fft2d_inplace, src/ndfft.rs 74-100 *)
Definition wfft2d (p : planner) (data : list cx) (rows cols : nat) (scratch_col : list cx)
  : exec (planner * list cx * list cx * rres) :=
  total <- word (rows * cols) ;;                                     (* 81 *)
  if negb (total =? length data) then Done (p, data, scratch_col, RErr MismatchedLengths)
  else if (rows =? 0) || (cols =? 0) then Done (p, data, scratch_col, ROk)
  else if negb (length scratch_col =? rows) then Done (p, data, scratch_col, RErr MismatchedLengths)
  else
    '(p, data, r) <- for_try rows 0 (fun r s => start <- word (r * cols) ;; wfft_slice start cols s) (p, data) ;;
    match r with
    | RErr e => Done (p, data, scratch_col, RErr e)
    | ROk => for_try cols 0 (fun k => wstrided_slice k cols) (p, data, scratch_col)
    end.

(* fft3d_inplace, src/ndfft.rs 114-153 *)
Definition wfft3d (p : planner) (data : list cx) (depth rows cols : nat) (tube row col : list cx)
  : exec (planner * list cx * (list cx * list cx * list cx) * rres) :=
  dr <- word (depth * rows) ;;
  total <- word (dr * cols) ;;                                       (* 122 *)
  if negb (total =? length data) then Done (p, data, (tube, row, col), RErr MismatchedLengths)
  else if (depth =? 0) || (rows =? 0) || (cols =? 0) then Done (p, data, (tube, row, col), ROk)
  else if negb ((length tube =? depth) && (length row =? rows) && (length col =? cols))
  then Done (p, data, (tube, row, col), RErr MismatchedLengths)
  else
    '(p, data, tube, r) <- for_try rows 0 (fun r => for_try cols 0 (fun k s =>
      rc <- word (r * cols) ;; start <- word (rc + k) ;; stride <- word (rows * cols) ;;
      wstrided_slice start stride s)) (p, data, tube) ;;
    match r with
    | RErr e => Done (p, data, (tube, row, col), RErr e)
    | ROk =>
      '(p, data, row, r) <- for_try depth 0 (fun d => for_try cols 0 (fun k s =>
        a <- word (d * rows) ;; a <- word (a * cols) ;; start <- word (a + k) ;;
        wstrided_slice start cols s)) (p, data, row) ;;
      match r with
      | RErr e => Done (p, data, (tube, row, col), RErr e)
      | ROk =>
        '(p, data, r) <- for_try depth 0 (fun d => for_try rows 0 (fun r s =>
          a <- word (d * rows) ;; a <- word (a * cols) ;; b <- word (r * cols) ;; start <- word (a + b) ;;
          wfft_slice start cols s)) (p, data) ;;
        Done (p, data, (tube, row, col), r)
      end
    end.
End Fft.

Section Stft.
Context {T : Type} {F : Float T} {X : FloatX T}.
Local Notation cx := (cx T).
Context {S : Type}.
Variable op : S -> list cx -> exec (S * list cx * rres).

(* src/stft.rs 94-101, 194-201 *)
Definition wwsample (signal window : list T) (start i : nat) : exec T :=
  j <- word (start + i) ;;
  if j <? length signal
  then s <- get signal j ;; w <- get window i ;; Done (fmul s w)
  else Done fzero.
Definition wload (signal window : list T) (start : nat) (frame : list cx) : exec (list cx) :=
  for_range 0 (length window) (fun i fr => x <- wwsample signal window start i ;; set fr i (mkcx x fzero)) frame.
(* 91-104 *)
Fixpoint wstft_frames (signal window : list T) (hop idx : nat) (s : S) (frames : list (list cx))
  : exec (S * list (list cx) * rres) :=
  match frames with
  | [] => Done (s, [], ROk)
  | f :: rest =>
    start <- word (idx * hop) ;;
    f <- wload signal window start (resize f (length window) czero) ;;
    '(s, f, r) <- op s f ;;
    match r with
    | RErr e => Done (s, f :: rest, RErr e)
    | ROk => '(s, rest, r) <- wstft_frames signal window hop (idx + 1) s rest ;; Done (s, f :: rest, r)
    end
  end.
(* stft, 76-106 *)
Definition wstft (s : S) (signal window : list T) (hop : nat) (output : list (list cx)) : exec (S * list (list cx) * rres) :=
  if hop =? 0 then Done (s, output, RErr InvalidHopSize)
  else required <- div_ceil (length signal) hop ;;
    if length output <? required then Done (s, output, RErr MismatchedLengths)
    else wstft_frames signal window hop 0 s output.

(* 142-147 *)
Definition woverlap (window : list T) (start : nat) (frame : list cx) (os : list T * list T) : exec (list T * list T) :=
  for_range 0 (length window) (fun i '(out, scr) =>
    j <- word (start + i) ;;
    if j <? length out then
      o <- get out j ;; z <- get frame i ;; w <- get window i ;;
      out <- set out j (fadd o (fmul (re z) w)) ;;
      q <- get scr j ;;
      scr <- set scr j (fadd q (fmul w w)) ;;
      Done (out, scr)
    else Done (out, scr)) os.
(* 136-148 *)
Fixpoint wistft_frames (window : list T) (hop idx : nat) (s : S) (frames : list (list cx)) (os : list T * list T)
  : exec (S * list (list cx) * (list T * list T) * rres) :=
  match frames with
  | [] => Done (s, [], os, ROk)
  | f :: rest =>
    start <- word (idx * hop) ;;
    if negb (length f =? length window) then Done (s, f :: rest, os, RErr MismatchedLengths)
    else
      '(s, f, r) <- op s f ;;
      match r with
      | RErr e => Done (s, f :: rest, os, RErr e)
      | ROk =>
        os <- woverlap window start f os ;;
        '(s, rest, os, r) <- wistft_frames window hop (idx + 1) s rest os ;; Done (s, f :: rest, os, r)
      end
  end.
(* istft, 117-156 *)
Definition wistft (s : S) (frames : list (list cx)) (window : list T) (hop : nat) (output scratch : list T)
  : exec (S * list (list cx) * list T * list T * rres) :=
  if hop =? 0 then Done (s, frames, output, scratch, RErr InvalidHopSize)
  else if negb (length scratch =? length output) then Done (s, frames, output, scratch, RErr MismatchedLengths)
  else
    let scratch := map (fun _ => fzero) scratch in
    '(s, frames, os, r) <- wistft_frames window hop 0 s frames (output, scratch) ;;
    let '(output, scratch) := os in
    match r with
    | RErr e => Done (s, frames, output, scratch, RErr e)
    | ROk => output <- normalize output scratch ;; Done (s, frames, output, scratch, ROk)
    end.

(* StftStream::next_frame, 186-205 *)
Definition wnext_frame (signal window : list T) (hop pos : nat) (s : S) (out : list cx)
  : exec (S * nat * list cx * result bool) :=
  if negb (length out =? length window) then Done (s, pos, out, Err MismatchedLengths)
  else if length signal <=? pos then Done (s, pos, out, Ok false)
  else
    out <- wload signal window pos out ;;
    '(s, out, r) <- op s out ;;
    match r with
    | RErr e => Done (s, pos, out, Err e)
    | ROk => pos <- word (pos + hop) ;; Done (s, pos, out, Ok true)   (* 203 *)
    end.
End Stft.

(* a - b on usize *)
Definition wsub (a b : nat) : exec nat :=
  if b <=? a then Done (a - b) else if checks then Panic else Done (2 ^ W - b + a).
(* kaiser, src/window.rs 52-61, 64-73 *)
Definition wkaiser {T : Type} {F : Float T} {X : FloatX T} (len : nat) (beta : T) : exec (list T) :=
  let denom := bessel0 beta in
  l1 <- wsub len 1 ;;
  let m := fdiv (fas l1) two in
  Done (tab len (fun i =>
    let r := fdiv (fsub (fas i) m) m in
    fdiv (bessel0 (fmul beta (fsqrt (fsub fone (fmul r r))))) denom)).
End Word.

(* The transforms of src/fft.rs on a W-bit machine without overflow checks:
   every integer they compute and convert to floating point, (i * i) of
   get_bluestein (line 417) and the lengths, is reduced modulo 2^W first. *)
Definition word_float {T : Type} (W : nat) (F : Float T) : Float T := {|
  fzero := fzero; fone := fone; fadd := fadd; fsub := fsub; fmul := fmul; fdiv := fdiv; fneg := fneg;
  fmul_add := fmul_add; fcos := fcos; fsin := fsin; fsin_cos := fsin_cos; fpi := fpi;
  fofnat := fun n => fofnat (n mod 2 ^ W);
  fas := fas; freparse := freparse; flit := flit; fk707 := fk707; fk924 := fk924; fk383 := fk383 |}.

(* FftPlanner::get_bluestein, src/fft.rs 411-433, in a build with overflow checks: 2 * n - 1 and next_power_of_two
   (line 413) and each i * i (line 417) panic when they do not fit; otherwise the rest is as in M_fft.v *)
Definition checked_bluestein {T : Type} {F : Float T} (W : nat) (c : cfg) (p : planner T) (n : nat) : exec (planner T * (list (cx T) * list (cx T))) :=
  match assoc n (pl_blue p) with
  | Some pr => Done (p, pr)
  | None =>
    d <- word W true (2 * n) ;;
    _ <- word W true (next_pow2 (d - 1)) ;;
    _ <- for_range 0 n (fun i _ => word W true (i * i)) 0 ;;
    get_bluestein c p n
  end.

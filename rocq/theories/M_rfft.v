(* Model of src/rfft.rs: real FFT planner, kernels (scalar, AVX, NEON), the
   trait-level wrappers and the stack versions. The complex FFT provider
   (F: FftImpl<T>) is any state-passing operation `op`; S is its state. Input
   slices are only read, so they are not returned. *)
From Verif Require Export M_fft.
Set Implicit Arguments.

Section Rfft.
Context {T : Type} {F : Float T}.
Variable c : cfg.
Local Notation cx := (cx T).

(* build_twiddle_table, 172-183 *)
Fixpoint rtw_loop (m : nat) (w current : cx) : list cx :=
  match m with 0 => [] | S k => current :: rtw_loop k w (cmul c current w) end.
Definition build_twiddle_table (m : nat) : list cx :=
  let angle := fdiv (fneg fpi) (fofnat m) in
  let '(sn, cs) := fsin_cos angle in
  rtw_loop m (mkcx cs sn) (mkcx fone fzero).

(* RfftPlanner, 193-201 *)
Record rplanner := mkRpl {
  rp_cache : list (nat * list cx); rp_pack : list (nat * list cx); rp_scratch : list cx }.
Definition rpre_sizes : list nat := [2; 4; 8; 16; 32; 64; 128; 256].           (* 214 *)
(* entry(m).or_insert_with(..) *)
Definition or_insert (l : list (nat * list cx)) (m : nat) : list (nat * list cx) :=
  match assoc m l with Some _ => l | None => (m, build_twiddle_table m) :: l end.
(* RfftPlanner::new, 217-242; compile-time-rfft loads empty tables (165-170) *)
Definition rnew : rplanner :=
  mkRpl (fold_left or_insert rpre_sizes []) (fold_left or_insert rpre_sizes []) [].
(* get_twiddles 246-252, get_pack_twiddles 255-261: the lookup after the
   insertion is unwrapped *)
Definition rtwiddles (l : list (nat * list cx)) (m : nat) : exec (list (nat * list cx) * list cx) :=
  let l := match assoc m l with Some _ => l | None => (m, build_twiddle_table m) :: l end in
  match assoc m l with Some t => Done (l, t) | None => Panic end.
Definition rget_twiddles (rp : rplanner) (m : nat) : exec (rplanner * list cx) :=
  '(l, t) <- rtwiddles (rp_cache rp) m ;; Done (mkRpl l (rp_pack rp) (rp_scratch rp), t).
Definition rget_pack (rp : rplanner) (m : nat) : exec (rplanner * list cx) :=
  '(l, t) <- rtwiddles (rp_pack rp) m ;; Done (mkRpl (rp_cache rp) l (rp_scratch rp), t).

(* ---- the arithmetic of one bin ---- *)
Definition half : T := flit (1 # 2).
(* scalar, 455-462 *)
Definition post_scalar (a sb w : cx) : cx :=
  let b := mkcx (re sb) (fneg (im sb)) in
  let sum := cadd a b in
  let diff := csub a b in
  let t := cmul c w diff in
  let temp := cadd sum (mkcx (im t) (fneg (re t))) in
  mkcx (fmul (re temp) half) (fmul (im temp) half).
(* scalar inverse, 493-500; w is the table entry *)
Definition ipost_scalar (a sb tw : cx) : cx :=
  let b := mkcx (re sb) (fneg (im sb)) in
  let sum := cadd a b in
  let diff := csub a b in
  let w := mkcx (re tw) (fneg (im tw)) in
  let t := cmul c w diff in
  let temp := csub sum (mkcx (im t) (fneg (re t))) in
  mkcx (fmul (re temp) half) (fmul (im temp) half).
(* four-lane registers *)
Definition splat (v : T) : list T := repeat v 4.               (* _mm_set1_ps, vdupq_n_f32 *)
Definition lane0 (v : list T) : T := nth 0 v fzero.            (* _mm_cvtss_f32, vgetq_lane_f32 0 *)
Definition vmul := zip_with (fun x y : T => fmul x y).         (* _mm_mul_ps, vmulq_f32 *)
Definition vadd := zip_with (fun x y : T => fadd x y).
Definition vsub := zip_with (fun x y : T => fsub x y).
Definition set_ss (v : T) : list T := [v; fzero; fzero; fzero].   (* _mm_set_ss *)
Definition mul_ss (a b : list T) : list T :=                   (* _mm_mul_ss *)
  fmul (lane0 a) (lane0 b) :: skipn 1 a.
(* complex product of the SIMD kernels, 554-565 / 615-626 / 686-697 / 747-758 *)
Definition simd_cmul (diff w : cx) : cx :=
  let v_re := splat (re diff) in let v_im := splat (im diff) in
  let w_re := splat (re w) in let w_im := splat (im w) in
  let vw_re := vsub (vmul v_re w_re) (vmul v_im w_im) in
  let vw_im := vadd (vmul v_re w_im) (vmul v_im w_re) in
  mkcx (lane0 vw_re) (lane0 vw_im).
(* multiplication by one half: AVX 568-571, NEON 700-703 *)
Definition half_avx (v : T) : T := lane0 (mul_ss (set_ss v) (splat half)).
Definition half_neon (v : T) : T := lane0 (vmul (splat v) (splat half)).
Definition post_simd (h : T -> T) (a sb w : cx) : cx :=        (* 547-571, 679-703 *)
  let b := mkcx (re sb) (fneg (im sb)) in
  let sum_re := fadd (re a) (re b) in let sum_im := fadd (im a) (im b) in
  let diff := mkcx (fsub (re a) (re b)) (fsub (im a) (im b)) in
  let t := simd_cmul diff w in
  mkcx (h (fadd sum_re (im t))) (h (fsub sum_im (re t))).
Definition ipost_simd (h : T -> T) (a sb tw : cx) : cx :=      (* 608-632, 740-764 *)
  let b := mkcx (re sb) (fneg (im sb)) in
  let sum_re := fadd (re a) (re b) in let sum_im := fadd (im a) (im b) in
  let diff := mkcx (fsub (re a) (re b)) (fsub (im a) (im b)) in
  let w := mkcx (re tw) (fneg (im tw)) in
  let t := simd_cmul diff w in
  mkcx (h (fsub sum_re (im t))) (h (fadd sum_im (re t))).
(* which kernel is compiled in, 59-89, 100-130, 142-162 *)
Inductive rpath := PScalar | PAvx | PNeon.
Definition post (v : rpath) : cx -> cx -> cx -> cx :=
  match v with PScalar => post_scalar | PAvx => post_simd half_avx | PNeon => post_simd half_neon end.
Definition ipost (v : rpath) : cx -> cx -> cx -> cx :=
  match v with PScalar => ipost_scalar | PAvx => ipost_simd half_avx | PNeon => ipost_simd half_neon end.
(* scratch[0] of the inverse: 488-491, 600-606, 732-738 *)
Definition ihalf (v : rpath) (x : T) : T :=
  match v with PScalar => fmul x half | PAvx => half_avx x | PNeon => half_neon x end.

Section Op.
Context {S : Type}.
Variable op : S -> list cx -> exec (S * list cx * rres).

(* the common argument checks: 434-443, 477-486, ... *)
Definition rcheck (n spec scratch : nat) : option ferr :=
  if n =? 0 then Some EmptyInput
  else if negb (n mod 2 =? 0) then Some InvalidValue
  else if negb (spec =? n / 2 + 1) || (scratch <? n / 2) then Some MismatchedLengths
  else None.

(* for k in 1..m { out[k] = f(src[k], src[m-k], twiddles[k]) } *)
Definition bins (f : cx -> cx -> cx -> cx) (m : nat) (src tw out : list cx) : exec (list cx) :=
  for_range 1 m (fun k out =>
    a <- get src k ;; b <- get src (m - k) ;; w <- get tw k ;; set out k (f a b w)) out.

(* rfft_direct 425-465, rfft_direct_f32_avx 515-574, rfft_direct_f32_neon 647-706 *)
Definition rfft_direct (v : rpath) (s : S) (input : list T) (output scratch tw : list cx)
  : exec (S * list cx * list cx * rres) :=
  let n := length input in
  match rcheck n (length output) (length scratch) with
  | Some e => Done (s, output, scratch, RErr e)
  | None =>
    let m := n / 2 in
    output <- for_range 0 m (fun i out =>
        v <- (a <- get input (2 * i) ;; b <- get input (2 * i + 1) ;; Done (mkcx a b)) ;; set out i v) output ;;
    part <- slice_to output m ;;
    '(s, part, r) <- op s part ;;
    let output := part ++ skipn m output in
    match r with
    | RErr e => Done (s, output, scratch, RErr e)
    | ROk =>
      src <- slice_to output m ;;
      let scratch := src ++ skipn m scratch in
      y0 <- get scratch 0 ;;
      output <- set output 0 (mkcx (fadd (re y0) (im y0)) fzero) ;;
      output <- set output m (mkcx (fsub (re y0) (im y0)) fzero) ;;
      output <- bins (post v) m scratch tw output ;;
      Done (s, output, scratch, ROk)
    end
  end.

(* for i in 0..m { output[2*i] = scratch[i].re; output[2*i+1] = scratch[i].im } *)
Definition unpack (m : nat) (scratch : list cx) (output : list T) : exec (list T) :=
  for_range 0 m (fun i out =>
    v <- get scratch i ;; out <- set out (2 * i) (re v) ;; set out (2 * i + 1) (im v)) output.

(* irfft_direct 468-508, _avx 578-640, _neon 710-772 *)
Definition irfft_direct (v : rpath) (s : S) (input : list cx) (output : list T) (scratch tw : list cx)
  : exec (S * list T * list cx * rres) :=
  let n := length output in
  match rcheck n (length input) (length scratch) with
  | Some e => Done (s, output, scratch, RErr e)
  | None =>
    let m := n / 2 in
    i0 <- get input 0 ;; im_ <- get input m ;;
    scratch <- set scratch 0 (mkcx (ihalf v (fadd (re i0) (re im_))) (ihalf v (fsub (re i0) (re im_)))) ;;
    scratch <- bins (ipost v) m input tw scratch ;;
    part <- slice_to scratch m ;;
    '(s, part, r) <- op s part ;;
    let scratch := part ++ skipn m scratch in
    match r with
    | RErr e => Done (s, output, scratch, RErr e)
    | ROk => output <- unpack m scratch output ;; Done (s, output, scratch, ROk)
    end
  end.

(* rfft_packed 341-379 *)
Definition rfft_packed (rp : rplanner) (s : S) (input : list T) (output scratch : list cx)
  : exec (rplanner * S * list cx * list cx * rres) :=
  let n := length input in
  match rcheck n (length output) (length scratch) with
  | Some e => Done (rp, s, output, scratch, RErr e)
  | None =>
    let m := n / 2 in
    scratch <- for_range 0 m (fun i out =>
        v <- (a <- get input (2 * i) ;; b <- get input (2 * i + 1) ;; Done (mkcx a b)) ;; set out i v) scratch ;;
    part <- slice_to scratch m ;;
    '(s, part, r) <- op s part ;;
    let scratch := part ++ skipn m scratch in
    match r with
    | RErr e => Done (rp, s, output, scratch, RErr e)
    | ROk =>
      y0 <- get scratch 0 ;;
      output <- set output 0 (mkcx (fadd (re y0) (im y0)) fzero) ;;
      output <- set output m (mkcx (fsub (re y0) (im y0)) fzero) ;;
      '(rp, tw) <- rget_twiddles rp m ;;
      output <- bins post_scalar m scratch tw output ;;
      Done (rp, s, output, scratch, ROk)
    end
  end.
(* irfft_packed 382-422: the body is irfft_direct's with the table fetched from
   the planner *)
Definition irfft_packed (rp : rplanner) (s : S) (input : list cx) (output : list T) (scratch : list cx)
  : exec (rplanner * S * list T * list cx * rres) :=
  let n := length output in
  match rcheck n (length input) (length scratch) with
  | Some e => Done (rp, s, output, scratch, RErr e)
  | None =>
    '(rp, tw) <- rget_twiddles rp (n / 2) ;;
    '(s, output, scratch, r) <- irfft_direct PScalar s input output scratch tw ;;
    Done (rp, s, output, scratch, r)
  end.

(* RfftPlanner::rfft_with_scratch 264-282 *)
Definition rfft_with_scratch (v : rpath) (rp : rplanner) (s : S) (input : list T) (output scratch : list cx)
  : exec (rplanner * S * list cx * list cx * rres) :=
  let m := length input / 2 in
  '(rp, tw) <- rget_twiddles rp m ;;
  '(rp, _) <- rget_pack rp m ;;
  '(s, output, scratch, r) <- rfft_direct v s input output scratch tw ;;
  Done (rp, s, output, scratch, r).
(* RfftPlanner::irfft_with_scratch 302-320 *)
Definition irfft_with_scratch (v : rpath) (rp : rplanner) (s : S) (input : list cx) (output : list T) (scratch : list cx)
  : exec (rplanner * S * list T * list cx * rres) :=
  let m := length output / 2 in
  '(rp, tw) <- rget_twiddles rp m ;;
  '(rp, _) <- rget_pack rp m ;;
  '(s, output, scratch, r) <- irfft_direct v s input output scratch tw ;;
  Done (rp, s, output, scratch, r).
(* RfftPlanner::rfft 285-299: the planner's own scratch *)
Definition take_scratch (rp : rplanner) := mkRpl (rp_cache rp) (rp_pack rp) [].
Definition put_scratch (rp : rplanner) l := mkRpl (rp_cache rp) (rp_pack rp) l.
Definition prfft (v : rpath) (rp : rplanner) (s : S) (input : list T) (output : list cx)
  : exec (rplanner * S * list cx * rres) :=
  let k := length input / 2 in
  let scratch := grow (rp_scratch rp) k czero in
  part <- slice_to scratch k ;;
  '(rp, s, output, part, r) <- rfft_with_scratch v (take_scratch rp) s input output part ;;
  Done (put_scratch rp (part ++ skipn k scratch), s, output, r).
(* RfftPlanner::irfft 323-337 *)
Definition pirfft (v : rpath) (rp : rplanner) (s : S) (input : list cx) (output : list T)
  : exec (rplanner * S * list T * rres) :=
  let k := length output / 2 in
  let scratch := grow (rp_scratch rp) k czero in
  part <- slice_to scratch k ;;
  '(rp, s, output, part, r) <- irfft_with_scratch v (take_scratch rp) s input output part ;;
  Done (put_scratch rp (part ++ skipn k scratch), s, output, r).

(* RealFftImpl: rfft_with_scratch 780-788, irfft_with_scratch 809-817: a new planner per call *)
Definition trfft_with_scratch (v : rpath) (s : S) (input : list T) (output scratch : list cx)
  : exec (S * list cx * list cx * rres) :=
  '(_, s, output, scratch, r) <- rfft_with_scratch v rnew s input output scratch ;; Done (s, output, scratch, r).
Definition tirfft_with_scratch (v : rpath) (s : S) (input : list cx) (output : list T) (scratch : list cx)
  : exec (S * list T * list cx * rres) :=
  '(_, s, output, scratch, r) <- irfft_with_scratch v rnew s input output scratch ;; Done (s, output, scratch, r).
(* RealFftImpl::rfft 791-804, irfft 820-833: `uninit` is whatever the
   uninitialised scratch memory contains *)
Definition trfft (v : rpath) (uninit : nat -> cx) (s : S) (input : list T) (output : list cx)
  : exec (S * list cx * rres) :=
  '(s, output, _, r) <- trfft_with_scratch v s input output (tab (length input / 2) uninit) ;; Done (s, output, r).
Definition tirfft (v : rpath) (uninit : nat -> cx) (s : S) (input : list cx) (output : list T)
  : exec (S * list T * rres) :=
  '(s, output, _, r) <- tirfft_with_scratch v s input output (tab (length output / 2) uninit) ;; Done (s, output, r).
End Op.

(* rfft_stack 842-859; N = length input, M = length output *)
Definition rfft_stack (input : list T) (output : list cx) : exec (list cx * rres) :=
  let n := length input in
  if n =? 0 then Done (output, RErr EmptyInput)
  else if negb (length output =? n / 2 + 1) then Done (output, RErr MismatchedLengths)
  else
    let buf := zip_apply (fun _ x => mkcx x fzero) (repeat (mkcx fzero fzero) n) input in
    '(buf, r) <- fft_inplace_stack c buf ;;
    match r with
    | RErr e => Done (output, RErr e)
    | ROk =>
      src <- slice_to buf (n / 2 + 1) ;;
      _ <- slice_to output (n / 2 + 1) ;;
      Done (src ++ skipn (n / 2 + 1) output, ROk)
    end.
(* irfft_stack 864-884 *)
Definition irfft_stack (input : list cx) (output : list T) : exec (list T * rres) :=
  let n := length output in
  if n =? 0 then Done (output, RErr EmptyInput)
  else if negb (length input =? n / 2 + 1) then Done (output, RErr MismatchedLengths)
  else
    let buf := repeat (mkcx fzero fzero) n in
    _ <- slice_to buf (n / 2 + 1) ;;
    src <- slice_to input (n / 2 + 1) ;;
    let buf := src ++ skipn (n / 2 + 1) buf in
    buf <- for_range 1 (n / 2) (fun k buf =>
       v <- get input k ;; set buf (n - k) (mkcx (re v) (fneg (im v)))) buf ;;
    '(buf, r) <- ifft_inplace_stack c buf ;;
    match r with
    | RErr e => Done (output, RErr e)
    | ROk => Done (zip_apply (fun _ b => re b) output buf, ROk)
    end.
End Rfft.
Arguments rplanner T : clear implicits.

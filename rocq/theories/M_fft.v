(* Model of src/fft.rs: planner, Stockham, Bluestein, inverse, strided,
   out-of-place, split, strategies, plans, batches.
   Buffers are lists; &mut arguments are returned. `Result<(),FftError>` is the
   last component of the returned tuple. usize is nat (no overflow). *)
From Verif Require Export M_fft_kernels.
Set Implicit Arguments.

Section Fft.
Context {T : Type} {F : Float T}.
Variable c : cfg.
Local Notation cx := (cx T).

(* FftPlanner, 332-346. HashMaps are association lists. *)
Record planner := mkPl {
  pl_cache : list (nat * list cx);
  pl_blue : list (nat * (list cx * list cx));
  pl_scratch : list cx;
  pl_bscratch : list cx;
  pl_sre : list T; pl_sim : list T;
  pl_ssre : list T; pl_ssim : list T }.

Definition new_planner : planner := mkPl [] [] [] [] [] [] [] [].   (* 355-366 *)

Definition with_cache p v := mkPl v (pl_blue p) (pl_scratch p) (pl_bscratch p) (pl_sre p) (pl_sim p) (pl_ssre p) (pl_ssim p).
Definition with_blue p v := mkPl (pl_cache p) v (pl_scratch p) (pl_bscratch p) (pl_sre p) (pl_sim p) (pl_ssre p) (pl_ssim p).
Definition with_scratch p v := mkPl (pl_cache p) (pl_blue p) v (pl_bscratch p) (pl_sre p) (pl_sim p) (pl_ssre p) (pl_ssim p).
Definition with_bscratch p v := mkPl (pl_cache p) (pl_blue p) (pl_scratch p) v (pl_sre p) (pl_sim p) (pl_ssre p) (pl_ssim p).
Definition with_split p r i := mkPl (pl_cache p) (pl_blue p) (pl_scratch p) (pl_bscratch p) r i (pl_ssre p) (pl_ssim p).
Definition with_sscratch p r i := mkPl (pl_cache p) (pl_blue p) (pl_scratch p) (pl_bscratch p) (pl_sre p) (pl_sim p) r i.

Fixpoint assoc {A} (k : nat) (l : list (nat * A)) : option A :=
  match l with
  | [] => None
  | (k', v) :: t => if k =? k' then Some v else assoc k t
  end.

(* the running-product table of get_twiddles, 392-404 *)
Fixpoint tw_loop (n : nat) (cs sn wre wim : T) : list cx :=
  match n with
  | 0 => []
  | S m => mkcx wre wim ::
           tw_loop m cs sn (fmul_add wre cs (fneg (fmul wim sn)))
                           (fmul_add wim cs (fmul wre sn))
  end.
Definition tw_table (n : nat) : list cx :=
  let angle := fdiv (fmul (fneg (flit 2)) fpi) (fofnat n) in
  let '(sn, cs) := fsin_cos angle in
  tw_loop (n / 2) cs sn fone fzero.

(* build.rs 7, 17-66: precomputed tables; computed there in f32 (f64) with the
   host's cos/sin, printed in decimal and compiled back in. *)
Definition pre_sizes : list nat := [2; 4; 8; 16; 32; 64; 128; 256; 512; 1024].
Definition pre_table (n : nat) : list cx :=
  tab (n / 2) (fun k =>
    let angle := fdiv (fmul (fmul (fneg (flit 2)) fpi) (fofnat k)) (fofnat n) in
    mkcx (freparse (fcos angle)) (freparse (fsin angle))).
Definition lookup_pre (n : nat) : option (list cx) :=
  if c_precomp c && match c_kind c with OtherT => false | _ => true end
     && existsb (Nat.eqb n) pre_sizes
  then Some (pre_table n) else None.

(* FftPlanner::get_twiddles, 370-408 *)
Definition get_twiddles (p : planner) (n : nat) : planner * list cx :=
  match lookup_pre n with
  | Some t => (p, t)
  | None =>
    match assoc n (pl_cache p) with
    | Some t => (p, t)
    | None => let t := tw_table n in (with_cache p ((n, t) :: pl_cache p), t)
    end
  end.

(* type of fft with planner state *)
Definition fft_ty := planner -> list cx -> exec (planner * list cx * rres).

(* the chirp and padded conjugate chirp of get_bluestein, 413-424 *)
Definition blue_angle (n i : nat) : T := fdiv (fmul fpi (fofnat (i * i))) (fofnat n).
Definition blue_m (n : nat) : nat := next_pow2 (2 * n - 1).
Definition blue_chirp (n : nat) : list cx := tab n (fun i => expi (fneg (blue_angle n i))).
Definition blue_b0 (n : nat) : list cx :=
  resize (tab n (fun i => expi (blue_angle n i))) (blue_m n) czero.
Definition blue_b (n : nat) : exec (list cx) :=
  for_range 1 n (fun i b => v <- get b i ;; set b (blue_m n - i) v) (blue_b0 n).

(* FftPlanner::get_bluestein, 411-433; `rec` is ScalarFftImpl::fft. The
   n = 0 call underflows (2 * n - 1): Panic. *)
Definition get_bluestein_ (rec : fft_ty) (p : planner) (n : nat)
  : exec (planner * (list cx * list cx)) :=
  match assoc n (pl_blue p) with
  | Some pr => Done (p, pr)
  | None =>
    if n =? 0 then Panic else
    b <- blue_b n ;;
    '(_, bfft, r) <- rec new_planner b ;;
    match r with
    | ROk => let pr := (blue_chirp n, bfft) in Done (with_blue p ((n, pr) :: pl_blue p), pr)
    | RErr _ => Panic      (* .unwrap() *)
    end
  end.

(* one butterfly of the scalar tail of fft_split_simd, 881-893 / 1020-1032 *)
Definition split_bf (tw : cx) (sre sim : list T) (eb ob d0 d1 j : nat)
  (d : list T * list T) : exec (list T * list T) :=
  let '(dre, dim) := d in
  er <- get sre (eb + j) ;; ei <- get sim (eb + j) ;;
  or <- get sre (ob + j) ;; oi <- get sim (ob + j) ;;
  let tr := fsub (fmul or (re tw)) (fmul oi (im tw)) in
  let ti := fadd (fmul or (im tw)) (fmul oi (re tw)) in
  dre <- set dre (d0 + j) (fadd er tr) ;;
  dim <- set dim (d0 + j) (fadd ei ti) ;;
  dre <- set dre (d1 + j) (fsub er tr) ;;
  dim <- set dim (d1 + j) (fsub ei ti) ;;
  Done (dre, dim).

(* SIMD loads and stores of L lanes; an access beyond the slice (undefined
   behaviour in the code) is Panic here *)
Definition loadv (l : list T) (off L : nat) : exec (list T) :=
  if off + L <=? length l then Done (firstn L (skipn off l)) else Panic.
Definition storev (l : list T) (off : nat) (v : list T) : exec (list T) :=
  if off + length v <=? length l
  then Done (firstn off l ++ v ++ skipn (off + length v) l) else Panic.

(* one iteration of the lane loop, 849-861 / 867-879 / 974-1000 / 1006-1018 *)
Definition split_bf_simd (L : nat) (tw : cx) (sre sim : list T) (eb ob d0 d1 j : nat)
  (d : list T * list T) : exec (list T * list T) :=
  let '(dre, dim) := d in
  er <- loadv sre (eb + j) L ;; ei <- loadv sim (eb + j) L ;;
  or <- loadv sre (ob + j) L ;; oi <- loadv sim (ob + j) L ;;
  let mulw := fun v w => map (fun x => fmul x w) v in
  let tr := zip_with fsub (mulw or (re tw)) (mulw oi (im tw)) in
  let ti := zip_with fadd (mulw or (im tw)) (mulw oi (re tw)) in
  dre <- storev dre (d0 + j) (zip_with fadd er tr) ;;
  dim <- storev dim (d0 + j) (zip_with fadd ei ti) ;;
  dre <- storev dre (d1 + j) (zip_with fsub er tr) ;;
  dim <- storev dim (d1 + j) (zip_with fsub ei ti) ;;
  Done (dre, dim).

(* body of `for k in 0..n1`, 838-894 / 963-1033 *)
Definition split_group (L n1 n2 : nat) (twiddles : list cx) (sre sim : list T) (k : nat)
  (d : list T * list T) : exec (list T * list T) :=
  tw <- get twiddles (k * n2) ;;
  let eb := 2 * k * n2 in
  let ob := eb + n2 in
  let d0 := k * n2 in
  let d1 := (k + n1) * n2 in
  '(j, d) <-
    (if L =? 0 then Done (0, d) else
     while_ (S n2) (fun '(j, _) => j + L <=? n2)
       (fun '(j, d) => d' <- split_bf_simd L tw sre sim eb ob d0 d1 j d ;; Done (j + L, d'))
       (0, d)) ;;
  '(_, d) <-
     while_ (S n2) (fun '(j, _) => j <? n2)
       (fun '(j, d) => d' <- split_bf tw sre sim eb ob d0 d1 j d ;; Done (j + 1, d'))
       (j, d) ;;
  Done d.

(* stage loop state: (n1, n2, src, dst, src-is-scratch) *)
Definition split_state := (nat * nat * (list T * list T) * (list T * list T) * bool)%type.
Definition split_stages (L n : nat) (twiddles : list cx) (re im sre sim : list T) : exec split_state :=
  while_ (S n) (fun '(n1, _, _, _, _) => n1 <? n)
    (fun '(n1, n2, (s_re, s_im), d, flip) =>
       let n2 := n2 / 2 in
       d' <- for_range 0 n1 (split_group L n1 n2 twiddles s_re s_im) d ;;
       Done (n1 * 2, n2, d', (s_re, s_im), negb flip))
    (1, n, (re, im), (sre, sim), false).

(* fft_split_simd, 790-911 (f32) and 915-1050 (f64) *)
Definition fft_split_simd_ (rec : fft_ty) (p : planner) (re_ im_ : list T)
  : exec (planner * list T * list T * rres) :=
  let n := length re_ in
  if n =? 0 then Done (p, re_, im_, RErr EmptyInput)
  else if negb (is_pow2 n) || (n <=? 16) then
    '(p, buf, r) <- rec p (zipc re_ im_) ;;
    match r with
    | RErr e => Done (p, re_, im_, RErr e)
    | ROk =>
      '(re', im') <- for_range 0 n (fun i '(a, b) =>
          v <- get buf i ;; a <- set a i (re v) ;; b <- set b i (im v) ;; Done (a, b)) (re_, im_) ;;
      Done (p, re', im', ROk)
    end
  else
    let '(p, twiddles) := get_twiddles p n in
    let sre := grow (pl_ssre p) n fzero in
    let sim := grow (pl_ssim p) n fzero in
    let p := with_sscratch p [] [] in
    '(_, _, (s_re, s_im), (d_re, d_im), flip) <- split_stages (c_lanes c) n twiddles re_ im_ sre sim ;;
    if (flip : bool) then
      (* src is the scratch pair: copy n elements back, 899-904 *)
      sr <- slice_to s_re n ;; si <- slice_to s_im n ;;
      Done (with_sscratch p s_re s_im, sr ++ skipn n d_re, si ++ skipn n d_im, ROk)
    else
      Done (with_sscratch p d_re d_im, s_re, s_im, ROk).

(* generic Stockham stages on interleaved data, 732-770 *)
Definition stk_bf (w : cx) (src : list cx) (b0 b1 d0 d1 j : nat) (dst : list cx) : exec (list cx) :=
  u <- get src (b0 + j) ;; v <- get src (b1 + j) ;;
  let v := cmul c v w in
  dst <- set dst (d0 + j) (cadd u v) ;;
  set dst (d1 + j) (csub u v).
Definition stk_group (n1 n2 : nat) (twiddles : list cx) (src : list cx) (k : nat)
  (dst : list cx) : exec (list cx) :=
  w <- get twiddles (k * n2) ;;
  let b0 := 2 * k * n2 in
  let b1 := b0 + n2 in
  '(_, dst) <- while_ (S n2) (fun '(j, _) => j <? n2)
     (fun '(j, dst) => d' <- stk_bf w src b0 b1 (k * n2) ((k + n1) * n2) j dst ;; Done (j + 1, d'))
     (0, dst) ;;
  Done dst.
Definition stk_stages (n : nat) (twiddles : list cx) (input scratch : list cx)
  : exec (nat * nat * list cx * list cx * bool) :=
  while_ (S n) (fun '(n1, _, _, _, _) => n1 <? n)
    (fun '(n1, n2, src, dst, flip) =>
       let n2 := n2 / 2 in
       d' <- for_range 0 n1 (stk_group n1 n2 twiddles src) dst ;;
       Done (n1 * 2, n2, d', src, negb flip))
    (1, n, input, scratch, false).

(* match n { 2 => fft2, 4 => .. } , 656-662 / 1063-1069 *)
Definition small_kernel (p : planner) (x : list cx) : exec (planner * list cx * rres) :=
  let n := length x in
  y <- (if n =? 2 then fft2 x
        else if n =? 4 then fft4 c x
        else if n =? 8 then fft8 c x
        else if n =? 16 then fft16 c x
        else Panic (* unreachable!() *)) ;;
  Done (p, y, ROk).

(* stockham_fft_with_threshold, 642-786 (the threshold argument is unused) *)
Definition stockham_ (rec : fft_ty) (p : planner) (x : list cx) : exec (planner * list cx * rres) :=
  let n := length x in
  if n =? 0 then Done (p, x, RErr EmptyInput)
  else if negb (is_pow2 n) then rec p x
  else if n <=? 16 then small_kernel p x
  else
    let '(p, twiddles) := get_twiddles p n in
    let scratch := grow (pl_scratch p) n czero in
    let sre := grow (pl_sre p) n fzero in
    let sim := grow (pl_sim p) n fzero in
    let p := with_split (with_scratch p []) [] [] in      (* mem::take *)
    match c_kind c with
    | F32 | F64 =>
      (* 685-706, 707-728 *)
      let sre := zip_apply (fun _ v => re v) sre x in
      let sim := zip_apply (fun _ v => im v) sim x in
      '(p, sre, sim, r) <- fft_split_simd_ rec p sre sim ;;
      match r with
      | RErr e => Done (p, x, RErr e)       (* `?`: taken buffers are dropped *)
      | ROk =>
        let x := zip_apply (fun _ v => v) x (zipc sre sim) in
        Done (with_split (with_scratch p scratch) sre sim, x, ROk)
      end
    | OtherT =>
      dst <- slice_to scratch n ;;
      '(_, _, src, dst, flip) <- stk_stages n twiddles x dst ;;
      let '(x, used) := if (flip : bool) then (firstn n src ++ skipn n dst, src) else (src, dst) in
      Done (with_split (with_scratch p (used ++ skipn n scratch)) sre sim, x, ROk)
    end.

(* c.re * scale, c.im * scale *)
Definition cscale (s : T) (v : cx) : cx := mkcx (fmul (re v) s) (fmul (im v) s).

(* ScalarFftImpl::fft, 1054-1133 *)
Definition fft_body (rec : fft_ty) (p : planner) (x : list cx) : exec (planner * list cx * rres) :=
  let n := length x in
  if n =? 0 then Done (p, x, RErr EmptyInput)
  else if n =? 1 then Done (p, x, ROk)
  else if (n <=? 16) && is_pow2 n then small_kernel p x
  else if Nat.land n (n - 1) =? 0 then stockham_ rec p x
  else if negb (c_std c) then Done (p, x, RErr NonPowerOfTwoNoStd)
  else
    '(p, (chirp, fft_b)) <- get_bluestein_ rec p n ;;
    let m := length fft_b in
    let a := grow (pl_bscratch p) m czero in
    let p := with_bscratch p [] in
    (* 1102-1104 *)
    a <- for_range 0 n (fun i a =>
           v <- (v <- get x i ;; ch <- get chirp i ;; Done (cmul c v ch)) ;; set a i v) a ;;
    (* 1105-1107 *)
    a <- (if (n <=? m) && (m <=? length a)
          then Done (firstn n a ++ repeat czero (m - n) ++ skipn m a) else Panic) ;;
    '(p, a, r) <- rec p a ;;
    match r with
    | RErr e => Done (p, x, RErr e)
    | ROk =>
      let a := zip_apply (cmul c) a fft_b in
      let a := map cconj a in
      '(p, a, r) <- rec p a ;;
      match r with
      | RErr e => Done (p, x, RErr e)
      | ROk =>
        let a := map cconj a in
        let scale := fdiv fone (fofnat m) in
        let a := map (cscale scale) a in
        x <- for_range 0 n (fun i x =>
               v <- (v <- get a i ;; ch <- get chirp i ;; Done (cmul c v ch)) ;; set x i v) x ;;
        Done (with_bscratch p a, x, ROk)
      end
    end.

(* the recursion fft -> stockham/split -> fft, by fuel *)
Fixpoint fft_fuel (fuel : nat) : fft_ty :=
  match fuel with
  | 0 => fun _ _ => NoFuel
  | S f => fft_body (fft_fuel f)
  end.
(* nesting depth is at most 3 on reachable planners (proved); 6 is ample *)
Definition FUEL := 6.
Definition fft : fft_ty := fft_fuel FUEL.
Definition stockham_fft : fft_ty := stockham_ fft.               (* 634-640 *)
Definition get_bluestein := get_bluestein_ fft.
Definition fft_split_simd := fft_split_simd_ fft.

(* ifft, sequential branch 1134-1141, 1163-1174 *)
Definition ifft : fft_ty := fun p x =>
  let n := length x in
  if n =? 0 then Done (p, x, RErr EmptyInput)
  else if n =? 1 then Done (p, x, ROk)
  else
    let x := map cconj x in
    '(p, x, r) <- fft p x ;;
    match r with
    | RErr e => Done (p, x, RErr e)
    | ROk => let scale := fdiv fone (fofnat n) in
             Done (p, map (fun v => cscale scale (cconj v)) x, ROk)
    end.

(* fft_strided 1175-1199 and ifft_strided 1236-1260, for op = fft or ifft *)
Definition strided (op : fft_ty) (p : planner) (input : list cx) (stride : nat) (scratch : list cx)
  : exec (planner * list cx * list cx * rres) :=
  if stride =? 0 then Done (p, input, scratch, RErr InvalidStride)
  else
    let n := length scratch in
    if n =? 0 then Done (p, input, scratch, ROk)
    else if length input <? (n - 1) * stride + 1 then Done (p, input, scratch, RErr MismatchedLengths)
    else
      scratch <- for_range 0 n (fun i s => v <- get input (i * stride) ;; set s i v) scratch ;;
      '(p, scratch, r) <- op p scratch ;;
      match r with
      | RErr e => Done (p, input, scratch, RErr e)
      | ROk =>
        input <- for_range 0 n (fun i inp => v <- get scratch i ;; set inp (i * stride) v) input ;;
        Done (p, input, scratch, ROk)
      end.
Definition fft_strided := strided fft.
Definition ifft_strided := strided ifft.

(* fft_strided_alloc 1201-1217, ifft_strided_alloc 1219-1235 (ScalarFftImpl) *)
Definition strided_alloc (op : fft_ty) (p : planner) (input : list cx) (stride : nat)
  : exec (planner * list cx * rres) :=
  let n := if stride =? 0 then 0 else length input / stride in
  let scratch := grow (pl_scratch p) n czero in
  let p := with_scratch p [] in
  part <- slice_to scratch n ;;
  '(p, input, part, r) <- strided op p input stride part ;;
  Done (with_scratch p (part ++ skipn n scratch), input, r).
Definition fft_strided_alloc := strided_alloc fft.
Definition ifft_strided_alloc := strided_alloc ifft.

(* trait default fft_strided_alloc 530-541 / 543-554: `uninit` is whatever the
   uninitialised scratch memory of n elements happens to contain *)
Definition strided_alloc_default (op : fft_ty) (uninit : nat -> cx) (p : planner)
  (input : list cx) (stride : nat) : exec (planner * list cx * rres) :=
  let n := if stride =? 0 then 0 else length input / stride in
  '(p, input, _, r) <- strided op p input stride (tab n uninit) ;;
  Done (p, input, r).

(* fft_out_of_place_strided 1261-1298, ifft_ 1299-1336 *)
Definition oop_strided (op : fft_ty) (p : planner) (input : list cx) (in_stride : nat)
  (output : list cx) (out_stride : nat) : exec (planner * list cx * rres) :=
  if (in_stride =? 0) || (out_stride =? 0) then Done (p, output, RErr InvalidStride)
  else if negb (length input mod in_stride =? 0) || negb (length output mod out_stride =? 0)
  then Done (p, output, RErr InvalidStride)
  else
    let n := length input / in_stride in
    if negb (length output / out_stride =? n) then Done (p, output, RErr MismatchedLengths)
    else
      let scratch := grow (pl_scratch p) n czero in
      let p := with_scratch p [] in
      scratch <- for_range 0 n (fun i s => v <- get input (i * in_stride) ;; set s i v) scratch ;;
      part <- slice_to scratch n ;;
      '(p, part, r) <- op p part ;;
      match r with
      | RErr e => Done (p, output, RErr e)
      | ROk =>
        let scratch := part ++ skipn n scratch in
        output <- for_range 0 n (fun i o => v <- get scratch i ;; set o (i * out_stride) v) output ;;
        Done (with_scratch p scratch, output, ROk)
      end.
Definition fft_out_of_place_strided := oop_strided fft.
Definition ifft_out_of_place_strided := oop_strided ifft.

(* fft_out_of_place 469-479, ifft_out_of_place 480-490 *)
Definition out_of_place (op : fft_ty) (p : planner) (input output : list cx)
  : exec (planner * list cx * rres) :=
  if negb (length input =? length output) then Done (p, output, RErr MismatchedLengths)
  else op p input.          (* output.copy_from_slice(input); op(output) *)

(* fft_vec 1444-1448, ifft_vec 1449-1453 *)
Definition op_vec (op : fft_ty) (p : planner) (input : list cx) : exec (planner * result (list cx)) :=
  '(p, out, r) <- op p input ;;
  match r with ROk => Done (p, Ok out) | RErr e => Done (p, Err e) end.

(* trait default fft_split 556-570 / ifft_split 572-586 and the OtherT tail of
   ScalarFftImpl::fft_split 1381-1390 / ifft_split 1429-1438 *)
Definition split_default (op : fft_ty) (p : planner) (re_ im_ : list T)
  : exec (planner * list T * list T * rres) :=
  if negb (length re_ =? length im_) then Done (p, re_, im_, RErr MismatchedLengths)
  else
    '(p, buf, r) <- op p (zipc re_ im_) ;;
    match r with
    | RErr e => Done (p, re_, im_, RErr e)
    | ROk =>
      '(re', im') <- for_range 0 (length re_) (fun i '(a, b) =>
          v <- get buf i ;; a <- set a i (re v) ;; b <- set b i (im v) ;; Done (a, b)) (re_, im_) ;;
      Done (p, re', im', ROk)
    end.

(* ScalarFftImpl::fft_split 1365-1391 *)
Definition fft_split (p : planner) (re_ im_ : list T) : exec (planner * list T * list T * rres) :=
  if negb (length re_ =? length im_) then Done (p, re_, im_, RErr MismatchedLengths)
  else match c_kind c with
       | OtherT => split_default fft p re_ im_
       | _ => fft_split_simd p re_ im_
       end.

(* ScalarFftImpl::ifft_split 1393-1439; `1.0 / re.len() as f32|f64` is fas *)
Definition ifft_split (p : planner) (re_ im_ : list T) : exec (planner * list T * list T * rres) :=
  if negb (length re_ =? length im_) then Done (p, re_, im_, RErr MismatchedLengths)
  else match c_kind c with
       | OtherT => split_default ifft p re_ im_
       | _ =>
         let im_ := map fneg im_ in
         '(p, re_, im_, r) <- fft_split_simd p re_ im_ ;;
         match r with
         | RErr e => Done (p, re_, im_, RErr e)
         | ROk =>
           let scale := fdiv fone (fas (length re_)) in
           Done (p, map (fun r => fmul r scale) re_, map (fun i => fmul (fneg i) scale) im_, ROk)
         end
       end.

(* FftStrategy 457-463 *)
Inductive strategy := Radix2 | Radix4 | SplitRadix | Auto.
(* plan_strategy 438-444 *)
Definition plan_strategy (n : nat) : strategy :=
  if is_pow2 n && (1 <? n) then SplitRadix else Auto.

(* slice::swap *)
Definition swap {A} (l : list A) (i j : nat) : exec (list A) :=
  a <- get l i ;; b <- get l j ;; l <- set l i b ;; set l j a.

(* the counter step of the (bit/digit) reversal loops,
   1464-1469 (shift 2) and 2211-2216 (shift 1) *)
Definition rev_step (shift n j : nat) : exec nat :=
  '(j, bit) <- while_ (S (S n)) (fun '(j, bit) => negb (Nat.land j bit =? 0))
     (fun '(j, bit) => Done (Nat.lxor j bit, Nat.shiftr bit shift)) (j, Nat.shiftr n shift) ;;
  Done (Nat.lxor j bit).
(* 1462-1473 / 2209-2220 *)
Definition rev_permute (shift : nat) (x : list cx) : exec (list cx) :=
  let n := length x in
  '(_, x) <- for_range 1 n (fun i '(j, x) =>
     j <- rev_step shift n j ;;
     x <- (if i <? j then swap x i j else Done x) ;;
     Done (j, x)) (0, x) ;;
  Done x.

(* butterfly4 1596-1607 *)
Definition butterfly4 (a b c0 d : cx) : cx * cx * cx * cx :=
  let t0 := cadd a c0 in
  let t1 := csub a c0 in
  let t2 := cadd b d in
  let t3 := cmul c (csub b d) (mkcx fzero (fneg fone)) in
  (cadd t0 t2, cadd t1 t3, csub t0 t2, csub t1 t3).

(* in-place radix-4 butterfly at i+j, i+j+q, i+j+len/2, i+j+3q *)
Definition r4_bf (len i j : nat) (w1 w2 w3 : cx) (x : list cx) : exec (list cx) :=
  let q := len / 4 in
  a <- get x (i + j) ;; b <- get x (i + j + q) ;;
  c0 <- get x (i + j + len / 2) ;; d <- get x (i + j + 3 * q) ;;
  let '(x0, x1, x2, x3) := butterfly4 a (cmul c b w1) (cmul c c0 w2) (cmul c d w3) in
  x <- set x (i + j) x0 ;; x <- set x (i + j + q) x1 ;;
  x <- set x (i + j + len / 2) x2 ;; set x (i + j + 3 * q) x3.
(* len = 4 branch 1477-1486: no twiddle multiplication *)
Definition r4_bf4 (i : nat) (x : list cx) : exec (list cx) :=
  a <- get x i ;; b <- get x (i + 1) ;; c0 <- get x (i + 2) ;; d <- get x (i + 3) ;;
  let '(x0, x1, x2, x3) := butterfly4 a b c0 d in
  x <- set x i x0 ;; x <- set x (i + 1) x1 ;; x <- set x (i + 2) x2 ;; set x (i + 3) x3.
(* 1494-1543: the 2x unrolled j loop is the loop over j with the twiddles
   advanced after each butterfly (the last advance is not observable) *)
Definition r4_block (len i : nat) (s1 s2 s3 : cx) (x : list cx) : exec (list cx) :=
  let one := mkcx fone fzero in
  '(_, _, _, x) <- for_range 0 (len / 4) (fun j '(w1, w2, w3, x) =>
      x <- r4_bf len i j w1 w2 w3 x ;;
      Done (cmul c w1 s1, cmul c w2 s2, cmul c w3 s3, x)) (one, one, one, x) ;;
  Done x.
(* fft_radix4 1455-1548. trailing_zeros of a power of two is its log2. *)
Definition fft_radix4 : fft_ty := fun p x =>
  let n := length x in
  if negb (is_pow2 n) || negb (Nat.even (Nat.log2 n)) then fft p x
  else
    x <- rev_permute 2 x ;;
    '(_, p, x) <- while_ (S n) (fun '(len, _, _) => len <=? n)
      (fun '(len, p, x) =>
        '(p, x) <- (if len =? 4 then
           '(_, x) <- while_ (S n) (fun '(i, _) => i <? n)
             (fun '(i, x) => x <- r4_bf4 i x ;; Done (i + len, x)) (0, x) ;;
           Done (p, x)
         else
           let '(p, tw) := get_twiddles p len in
           s1 <- get tw 1 ;; s2 <- get tw 2 ;; s3 <- get tw 3 ;;
           '(_, x) <- while_ (S n) (fun '(i, _) => i <? n)
             (fun '(i, x) => x <- r4_block len i s1 s2 s3 x ;; Done (i + len, x)) (0, x) ;;
           Done (p, x)) ;;
        Done (len * 4, p, x)) (4, p, x) ;;
    Done (p, x, ROk).

(* fft_with_strategy 1337-1363 *)
Definition fft_with_strategy (s : strategy) : fft_ty := fun p x =>
  let n := length x in
  if n =? 0 then Done (p, x, RErr EmptyInput)
  else if n =? 1 then Done (p, x, ROk)
  else
    let chosen := match s with Auto => plan_strategy n | _ => s end in
    match chosen with
    | Radix2 => fft p x
    | Radix4 => if c_std c then fft_radix4 p x else fft p x
    | SplitRadix => stockham_fft p x
    | Auto => fft p x
    end.

(* TwiddleFactorBuffer 1553-1571: `new` and `get` *)
Definition tfb_new (n : nat) : list cx :=
  tab (n / 2) (fun k => expi (fdiv (fmul (fmul (fneg (flit 2)) fpi) (fofnat k)) (fofnat n))).
Definition tfb_get (n k : nat) : exec cx :=
  if n / 2 =? 0 then Panic (* remainder by zero *) else get (tfb_new n) (k mod (n / 2)).

(* factorize 1573-1593. `fuel` bounds the number of loop iterations. *)
Fixpoint strip (fuel p n : nat) (acc : list nat) : exec (nat * list nat) :=
  match fuel with
  | 0 => NoFuel
  | S f => if n mod p =? 0 then strip f p (n / p) (acc ++ [p]) else Done (n, acc)
  end.
Fixpoint fact_loop (fuel f n : nat) (acc : list nat) : exec (nat * list nat) :=
  match fuel with
  | 0 => NoFuel
  | S g => if f * f <=? n
           then '(n, acc) <- strip g f n acc ;; fact_loop g (f + 2) n acc
           else Done (n, acc)
  end.
Definition factorize_fuel (fuel n : nat) : exec (list nat) :=
  '(n, acc) <- strip fuel 2 n [] ;;
  '(n, acc) <- strip fuel 3 n acc ;;
  '(n, acc) <- strip fuel 5 n acc ;;
  '(n, acc) <- fact_loop fuel 7 n acc ;;
  Done (if 1 <? n then acc ++ [n] else acc).
Definition factorize (n : nat) : exec (list nat) := factorize_fuel (S (S n)) n.

(* fft_mixed_radix_with_twiddles 1662-1678 (radix2/radix4_with_twiddles are
   stockham_fft, 1644-1660); factorize 0 does not terminate *)
Definition fft_mixed_radix_with_twiddles : fft_ty := fun p x =>
  factors <- factorize (length x) ;;
  if forallb (fun f => (f =? 2) || (f =? 4)) factors then
    if forallb (fun f => f =? 4) factors then stockham_fft p x else stockham_fft p x
  else fft p x.
(* fft_mixed_radix 1679-1706 *)
Definition fft_mixed_radix : fft_ty := fun p x =>
  let n := length x in
  if n =? 0 then Done (p, x, RErr EmptyInput)
  else if n =? 1 then Done (p, x, ROk)
  else
    factors <- factorize n ;;
    if forallb (fun f => (f =? 2) || (f =? 4)) factors then
      if c_std c && forallb (fun f => f =? 4) factors then fft_radix4 p x else stockham_fft p x
    else fft p x.

(* SIMD objects 1714-1951: stateless, each call uses a fresh scalar object.
   `wide` = the wide target feature (avx2/avx512f, neon, simd128) is enabled. *)
Definition simd_fft (wide : bool) (x : list cx) : exec (list cx * rres) :=
  '(_, y, r) <- (if wide then stockham_fft new_planner x
                 else if is_pow2 (length x) then stockham_fft new_planner x
                 else fft new_planner x) ;;
  Done (y, r).
Definition simd_ifft (x : list cx) : exec (list cx * rres) :=
  '(_, y, r) <- ifft new_planner x ;; Done (y, r).

(* FftPlan 1989-2094: length, strategy and the inner object's planner *)
Record plan := mkPlan { plan_n : nat; plan_strat : strategy; plan_pl : planner }.
Definition plan_new (n : nat) (s : strategy) : plan := mkPlan n s new_planner.
Definition plan_fft (pn : plan) (x : list cx) : exec (plan * list cx * rres) :=      (* 2013-2038 *)
  if negb (length x =? plan_n pn) then Done (pn, x, RErr MismatchedLengths)
  else
    match c_kind c, plan_strat pn with
    | F32, Radix2 | F32, Radix4 =>
      '(_, y, r) <- stockham_fft new_planner x ;; Done (pn, y, r)
    | _, _ =>
      '(p, y, r) <- fft_with_strategy (plan_strat pn) (plan_pl pn) x ;;
      Done (mkPlan (plan_n pn) (plan_strat pn) p, y, r)
    end.
Definition plan_ifft (pn : plan) (x : list cx) : exec (plan * list cx * rres) :=     (* 2040-2055 *)
  if negb (length x =? plan_n pn) then Done (pn, x, RErr MismatchedLengths)
  else
    let x := map cconj x in
    '(pn', x, r) <- plan_fft pn x ;;
    match r with
    | RErr e => Done (pn', x, RErr e)
    | ROk => let scale := fdiv fone (fofnat (plan_n pn)) in
             Done (pn', map (fun v => cscale scale (cconj v)) x, ROk)
    end.
Definition plan_oop (op : plan -> list cx -> exec (plan * list cx * rres))           (* 2057-2079 *)
  (pn : plan) (input output : list cx) : exec (plan * list cx * rres) :=
  if negb (length input =? plan_n pn) || negb (length output =? plan_n pn)
  then Done (pn, output, RErr MismatchedLengths)
  else op pn input.
Definition plan_split (op : planner -> list T -> list T -> exec (planner * list T * list T * rres))
  (pn : plan) (re_ im_ : list T) : exec (plan * list T * list T * rres) :=           (* 2081-2093 *)
  if negb (length re_ =? plan_n pn) || negb (length im_ =? plan_n pn)
  then Done (pn, re_, im_, RErr MismatchedLengths)
  else '(p, a, b, r) <- op (plan_pl pn) re_ im_ ;;
       Done (mkPlan (plan_n pn) (plan_strat pn) p, a, b, r).

(* batch 2156-2164, batch_inverse 2167-2175; multi_channel 2178-2191 delegates *)
Fixpoint batch {S A} (op : S -> A -> exec (S * A * rres)) (s : S) (bs : list A)
  : exec (S * list A * rres) :=
  match bs with
  | [] => Done (s, [], ROk)
  | b :: t =>
    '(s, b, r) <- op s b ;;
    match r with
    | RErr e => Done (s, b :: t, RErr e)
    | ROk => '(s, t, r) <- batch op s t ;; Done (s, b :: t, r)
    end
  end.

(* fft_inplace_stack 2197-2244 *)
Definition stack_block (len i : nat) (cs sn : T) (x : list cx) : exec (list cx) :=
  '(_, _, x) <- for_range 0 (len / 2) (fun j '(wre, wim, x) =>
     u <- get x (i + j) ;; v <- get x (i + j + len / 2) ;;
     let v := cmul c v (mkcx wre wim) in
     x <- set x (i + j) (cadd u v) ;;
     x <- set x (i + j + len / 2) (csub u v) ;;
     Done (fmul_add wre cs (fneg (fmul wim sn)), fmul_add wim cs (fmul wre sn), x))
     (fone, fzero, x) ;;
  Done x.
Definition fft_inplace_stack (x : list cx) : exec (list cx * rres) :=
  let n := length x in
  if n =? 0 then Done (x, RErr EmptyInput)
  else if n =? 1 then Done (x, ROk)
  else if negb (is_pow2 n) then Done (x, RErr NonPowerOfTwoNoStd)
  else
    x <- rev_permute 1 x ;;
    '(_, x) <- while_ (S n) (fun '(len, _) => len <=? n)
      (fun '(len, x) =>
        let '(sn, cs) := fsin_cos (fdiv (fmul (fneg (flit 2)) fpi) (fofnat len)) in
        '(_, x) <- while_ (S n) (fun '(i, _) => i <? n)
           (fun '(i, x) => x <- stack_block len i cs sn x ;; Done (i + len, x)) (0, x) ;;
        Done (len * 2, x)) (2, x) ;;
    Done (x, ROk).
(* ifft_inplace_stack 2247-2270 *)
Definition ifft_inplace_stack (x : list cx) : exec (list cx * rres) :=
  let n := length x in
  if n =? 0 then Done (x, RErr EmptyInput)
  else if n =? 1 then Done (x, ROk)
  else if negb (is_pow2 n) then Done (x, RErr NonPowerOfTwoNoStd)
  else
    '(x, r) <- fft_inplace_stack (map cconj x) ;;
    match r with
    | RErr e => Done (x, RErr e)
    | ROk => let scale := fdiv fone (fas n) in
             Done (map (fun v => cscale scale (cconj v)) x, ROk)
    end.

(* Parallel settings 47-307. Environment values are those held by the OnceLocks
   (read once per process); overrides are the AtomicUsize statics. *)
Record parenv := mkPar {
  o_thr : nat; o_cache : nat; o_work : nat; o_block : nat; o_threads : nat;   (* overrides *)
  e_thr : nat; e_cache : nat; e_work : nat; e_block : nat; e_threads : nat;   (* environment/default *)
  e_calib : nat }.                                                            (* calibrated_per_core_work *)
Definition bytes_per_elem := 8.   (* size_of::<Complex32>() *)
Definition parallel_fft_threshold (e : parenv) : nat :=                        (* 143-160 *)
  if negb (e_thr e =? 0) then e_thr e
  else Nat.max (e_cache e / bytes_per_elem)
         (Nat.max (Nat.max (e_work e) (e_calib e)) (e_block e)) * e_threads e.
Definition should_parallelize_fft (e : parenv) (n base : nat) : bool :=        (* 244-307 *)
  let threshold := if negb (o_thr e =? 0) then o_thr e else base in
  if negb (threshold =? 0) then threshold <=? n
  else
    let threads := if negb (o_threads e =? 0) then o_threads e
                   else if c_std c then e_threads e else 1 in
    let block := if negb (o_block e =? 0) then o_block e
                 else if c_std c then e_block e else 1024 in
    let cache := if negb (o_cache e =? 0) then o_cache e
                 else if c_std c then e_cache e else 32 * 1024 in
    let work := if negb (o_work e =? 0) then o_work e
                else if c_std c then e_work e else 4096 in
    let work := if c_std c then Nat.max work (e_calib e) else work in
    Nat.max (cache / bytes_per_elem) (Nat.max work block) * threads <=? n.
(* the setters 176-209: Some setter value stored *)
Definition set_parallel_fft_threshold e v := mkPar v (o_cache e) (o_work e) (o_block e) (o_threads e) (e_thr e) (e_cache e) (e_work e) (e_block e) (e_threads e) (e_calib e).
Definition set_parallel_fft_l1_cache e v := mkPar (o_thr e) v (o_work e) (o_block e) (o_threads e) (e_thr e) (e_cache e) (e_work e) (e_block e) (e_threads e) (e_calib e).
Definition set_parallel_fft_per_core_work e v := mkPar (o_thr e) (o_cache e) v (o_block e) (o_threads e) (e_thr e) (e_cache e) (e_work e) (e_block e) (e_threads e) (e_calib e).
Definition set_parallel_fft_block_size e v := mkPar (o_thr e) (o_cache e) (o_work e) v (o_threads e) (e_thr e) (e_cache e) (e_work e) (e_block e) (e_threads e) (e_calib e).
Definition set_parallel_fft_threads e v := mkPar (o_thr e) (o_cache e) (o_work e) (o_block e) v (e_thr e) (e_cache e) (e_work e) (e_block e) (e_threads e) (e_calib e).

(* rayon par_iter_mut().for_each(f): element tasks executed in the order given
   by `sched` (each task reads and writes only its own element, atomically with
   respect to the others because the elements are disjoint) *)
Definition par_for_each {A} (f : A -> A) (sched : list nat) (l : list A) : exec (list A) :=
  fold_left (fun e i => l <- e ;; v <- get l i ;; set l i (f v)) sched (Done l).

(* whole ifft including the parallel branch, 1134-1174 *)
Definition base_threshold (e : parenv) : nat := if c_std c then parallel_fft_threshold e else 0.
Definition ifft_full (e : parenv) (s1 s2 : list nat) : fft_ty := fun p x =>
  let n := length x in
  if n =? 0 then Done (p, x, RErr EmptyInput)
  else if n =? 1 then Done (p, x, ROk)
  else if c_parallel c && should_parallelize_fft e n (base_threshold e)
          && match c_kind c with F32 => true | _ => false end then
    x <- par_for_each cconj s1 x ;;
    '(p, x, r) <- fft p x ;;
    match r with
    | RErr e => Done (p, x, RErr e)
    | ROk => let scale := fdiv fone (fas n) in
             x <- par_for_each (fun v => cscale scale (cconj v)) s2 x ;;
             Done (p, x, ROk)
    end
  else ifft p x.
End Fft.
Arguments planner T : clear implicits.
Arguments plan T : clear implicits.

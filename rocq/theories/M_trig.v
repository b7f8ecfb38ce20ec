(* Model of src/dct.rs, src/dst.rs, src/hartley.rs, src/goertzel.rs, src/czt.rs.
   The functions are written for f32 in the source (DstPlanner for any T); they are
   stated here for any T, `n as f32` being fas n and a literal q being flit q.
   The `slow` module of src/dct.rs (199-213) and #[cfg(test)] code are not modelled. *)
From Verif Require Export M_rfft.
Set Implicit Arguments.

Section Trig.
Context {T : Type} {F : Float T} {X : FloatX T} (c : cfg).

(* the literal 0.5 is M_rfft.half *)
Local Notation half := (@half T F).
Definition two : T := flit 2.
(* `n as f32 + 0.5` *)
Definition ph (n : nat) : T := fadd (fas n) half.
(* `n as f32 + 1.0` *)
Definition p1 (n : nat) : T := fadd (fas n) fone.

(* for (i, &x) in l.iter().enumerate() { sum += f(i, x) }, counting from i *)
Fixpoint enum_sum (f : nat -> T -> T) (i : nat) (l : list T) (sum : T) : T :=
  match l with
  | nil => sum
  | x :: l => enum_sum f (S i) l (fadd sum (f i x))
  end.
(* for (k, out) in output.iter_mut().enumerate() { *out = .. } *)
Definition fill (out : list T) (f : nat -> exec T) : exec (list T) :=
  for_range 0 (length out) (fun k out => v <- f k ;; set out k v) out.

(* the loop bodies of the transforms: the sum for output k of an input x *)
(* dct.rs 121-128 and 228-236; factor = pi / (n as f32 - 1.0) *)
Definition dct1_sum (factor : T) (x : list T) (k : nat) : exec T :=
  let n := length x in
  x0 <- get x 0 ;;
  xl <- get x (n - 1) ;;
  Done (enum_sum (fun i v => fmul (fmul two v) (fcos (fmul (fmul factor (fas i)) (fas k))))
              1 (skipn 1 (firstn (n - 1) x))
              (fadd x0 (if Nat.even k then xl else fneg xl))).
(* dct.rs 139-142 and 253-256 *)
Definition dct2_sum (factor : T) (x : list T) (k : nat) : exec T :=
  Done (enum_sum (fun i v => fmul v (fcos (fmul (fmul factor (ph i)) (fas k)))) 0 x fzero).
(* dct.rs 154-157 *)
Definition dct3_sum (factor : T) (x : list T) (k : nat) : exec T :=
  x0 <- get x 0 ;;
  Done (enum_sum (fun i v => fmul v (fcos (fmul (fmul factor (fas i)) (ph k))))
              1 (skipn 1 x) (fdiv x0 two)).
(* dct.rs 169-172 *)
Definition dct4_sum (factor : T) (x : list T) (k : nat) : exec T :=
  Done (enum_sum (fun i v => fmul v (fcos (fmul (fmul factor (ph i)) (ph k)))) 0 x fzero).
(* dst.rs 94-97; factor = pi / (n as f32 + 1.0) *)
Definition dst1_sum (factor : T) (x : list T) (k : nat) : exec T :=
  Done (enum_sum (fun i v => fmul v (fsin (fmul (fmul (p1 i) (p1 k)) factor))) 0 x fzero).
(* dst.rs 109-112, 204-208, 226-229 *)
Definition dst2_sum (factor : T) (x : list T) (k : nat) : exec T :=
  Done (enum_sum (fun i v => fmul v (fsin (fmul (fmul factor (ph i)) (p1 k)))) 0 x fzero).
(* dst.rs 124-127, 247-251 *)
Definition dst3_sum (factor : T) (x : list T) (k : nat) : exec T :=
  x0 <- get x 0 ;;
  Done (enum_sum (fun i v => fmul v (fsin (fmul (fmul factor (ph k)) (fas i))))
              1 (skipn 1 x) (fdiv x0 two)).
(* dst.rs 139-142, 268-272 *)
Definition dst4_sum (factor : T) (x : list T) (k : nat) : exec T :=
  Done (enum_sum (fun i v => fmul v (fsin (fmul (fmul factor (ph i)) (ph k)))) 0 x fzero).
(* hartley.rs 17-23 and 35-41 *)
Definition dht_sum (factor : T) (x : list T) (k : nat) : exec T :=
  Done (enum_sum (fun i v => let angle := fmul factor (fas (i * k)) in
                          fmul v (fadd (fcos angle) (fsin angle))) 0 x fzero).

Definition zvec (n : nat) : list T := repeat fzero n.

(* dct1 108-131 *)
Definition dct1 (x : list T) : exec (list T) :=
  match x with
  | nil => Done nil
  | v :: nil => Done (fmul v two :: nil)
  | _ => let n := length x in
         fill (zvec n) (dct1_sum (fdiv fpi (fsub (fas n) fone)) x)
  end.
(* dct2 134-146 *)
Definition dct2 (x : list T) : exec (list T) :=
  let n := length x in fill (zvec n) (dct2_sum (fdiv fpi (fas n)) x).
(* dct3 149-161 *)
Definition dct3 (x : list T) : exec (list T) :=
  let n := length x in fill (zvec n) (dct3_sum (fdiv fpi (fas n)) x).
(* dct4 164-176 *)
Definition dct4 (x : list T) : exec (list T) :=
  let n := length x in fill (zvec n) (dct4_sum (fdiv fpi (fas n)) x).
(* dst1 89-101, dst2 104-116, dst3 119-131, dst4 134-146 of dst.rs *)
Definition dst1 (x : list T) : exec (list T) :=
  let n := length x in fill (zvec n) (dst1_sum (fdiv fpi (p1 n)) x).
Definition dst2 (x : list T) : exec (list T) :=
  let n := length x in fill (zvec n) (dst2_sum (fdiv fpi (fas n)) x).
Definition dst3 (x : list T) : exec (list T) :=
  let n := length x in fill (zvec n) (dst3_sum (fdiv fpi (fas n)) x).
Definition dst4 (x : list T) : exec (list T) :=
  let n := length x in fill (zvec n) (dst4_sum (fdiv fpi (fas n)) x).
(* dht 11-27 (std) and 29-45 (no_std): the same text *)
Definition dht (x : list T) : exec (list T) :=
  let n := length x in fill (zvec n) (dht_sum (fdiv (fmul two fpi) (fas n)) x).

(* The stack variants: the input and output arrays both have length N; the output is
   returned whatever the result. *)
(* `N == 0 || !N.is_multiple_of(2) || !N.is_power_of_two()` *)
Definition stack_bad (n : nat) : bool := (n =? 0) || negb (Nat.even n) || negb (is_pow2 n).
Definition stack_run (bad : bool) (f : nat -> exec T) (out : list T)
  : exec (list T * rres) :=
  if bad then Done (out, RErr NonPowerOfTwoNoStd)
  else out <- fill out f ;; Done (out, ROk).
(* dct1_inplace_stack 218-239 of dct.rs *)
Definition dct1_inplace_stack (x out : list T) : exec (list T * rres) :=
  let n := length x in
  stack_run ((n <? 2) || negb (Nat.even n) || negb (is_pow2 n))
    (dct1_sum (fdiv fpi (fsub (fas n) fone)) x) out.
(* dct2_inplace_stack 244-260 *)
Definition dct2_inplace_stack (x out : list T) : exec (list T * rres) :=
  let n := length x in stack_run (stack_bad n) (dct2_sum (fdiv fpi (fas n)) x) out.
(* dst2_inplace_stack 196-212 of dst.rs; take(N) keeps everything *)
Definition dst2_inplace_stack (x out : list T) : exec (list T * rres) :=
  let n := length x in stack_run (stack_bad n) (dst2_sum (fdiv fpi (fas n)) x) out.
(* dst2_inplace_stack_fft 217-233 *)
Definition dst2_inplace_stack_fft (x out : list T) : exec (list T * rres) :=
  let n := length x in stack_run (stack_bad n) (dst2_sum (fdiv fpi (fas n)) x) out.
(* dst3_inplace_stack_fft 238-255 *)
Definition dst3_inplace_stack_fft (x out : list T) : exec (list T * rres) :=
  let n := length x in stack_run (stack_bad n) (dst3_sum (fdiv fpi (fas n)) x) out.
(* dst4_inplace_stack 260-276 *)
Definition dst4_inplace_stack (x out : list T) : exec (list T * rres) :=
  let n := length x in stack_run (stack_bad n) (dst4_sum (fdiv fpi (fas n)) x) out.

(* dst.copy_from_slice(src): panics when the lengths differ *)
Definition copy_from {A} (dst src : list A) : exec (list A) :=
  if length dst =? length src then Done src else Panic.
(* for batch in batches.iter_mut() { let out = f(batch); batch.copy_from_slice(&out) } *)
Fixpoint each_vec (f : list T -> exec (list T)) (bs : list (list T)) : exec (list (list T)) :=
  match bs with
  | nil => Done nil
  | b :: bs => o <- f b ;; b <- copy_from b o ;; bs <- each_vec f bs ;; Done (b :: bs)
  end.
(* dct.rs batch_i .. batch_iv 263-289, multi_channel_i .. iv 291-305 *)
Definition dct_batch_i := each_vec dct1.
Definition dct_batch_ii := each_vec dct2.
Definition dct_batch_iii := each_vec dct3.
Definition dct_batch_iv := each_vec dct4.
Definition dct_multi_i := dct_batch_i.
Definition dct_multi_ii := dct_batch_ii.
Definition dct_multi_iii := dct_batch_iii.
Definition dct_multi_iv := dct_batch_iv.
(* dst.rs 149-191 *)
Definition dst_batch_i := each_vec dst1.
Definition dst_batch_ii := each_vec dst2.
Definition dst_batch_iii := each_vec dst3.
Definition dst_batch_iv := each_vec dst4.
Definition dst_multi_i := dst_batch_i.
Definition dst_multi_ii := dst_batch_ii.
Definition dst_multi_iii := dst_batch_iii.
Definition dst_multi_iv := dst_batch_iv.
(* hartley.rs 48-57 *)
Definition dht_batch := each_vec dht.
Definition dht_multi := dht_batch.

(* DctPlanner 22-30 of dct.rs. The HashMap is an association list: an entry is only
   inserted when its key is absent. *)
Record dplanner := mkdp {
  dp_cache : list (nat * list T); dp_rfft : rplanner T; dp_buf : list T; dp_spec : list (cx T) }.
Definition dp_new : dplanner := mkdp nil (rnew c) nil nil.            (* 40-47 *)
(* the angle of 54 and 87: PI * k as f32 / (2.0 * n as f32) *)
Definition quarter (n k : nat) : T := fdiv (fmul fpi (fas k)) (fmul two (fas n)).
(* get_cos_table 50-59 *)
Definition get_cos_table (p : dplanner) (n : nat) : dplanner * list T :=
  match assoc n (dp_cache p) with
  | Some t => (p, t)
  | None => let t := tab n (fun k => fcos (quarter n k)) in
            (mkdp ((n, t) :: dp_cache p) (dp_rfft p) (dp_buf p) (dp_spec p), t)
  end.
(* dct2_with_table 63-94, with the fresh ScalarFftImpl of line 84; v is the kernel variant
   compiled into rfft.rs *)
Definition dct2_with_table (v : rpath) (p : dplanner) (x out cos : list T) : exec (dplanner * list T * rres) :=
  let n := length x in
  if negb (length out =? n) then Done (p, out, RErr MismatchedLengths) else
  let m := 2 * n in
  let buf0 := grow (dp_buf p) m fzero in
  buf <- slice_to buf0 m ;;
  buf <- for_range 0 n (fun i buf =>
           xi <- get x i ;; buf <- set buf i xi ;; set buf (m - 1 - i) xi) buf ;;
  let spec0 := grow (dp_spec p) (n + 1) czero in
  spec <- slice_to spec0 (n + 1) ;;
  '(rp, _, spec, r) <- prfft c (fft c) v (dp_rfft p) new_planner buf spec ;;
  let p := mkdp (dp_cache p) rp (buf ++ skipn m buf0) (spec ++ skipn (n + 1) spec0) in
  match r with
  | RErr e => Done (p, out, RErr e)
  | ROk =>
      out <- for_range 0 n (fun k out =>
               z <- get spec k ;;
               ck <- get cos k ;;
               set out k (fmul half (fadd (fmul (re z) ck)
                                          (fmul (im z) (fsin (quarter n k)))))) out ;;
      Done (p, out, ROk)
  end.

(* plan_dct2 98-104: the closure keeps the planner borrowed, so its calls follow each other
   directly; each call is dct2_with_table on the table obtained when planning *)
Fixpoint dct_calls (v : rpath) (p : dplanner) (cos : list T) (calls : list (list T * list T))
  : exec (dplanner * list (list T * rres)) :=
  match calls with
  | nil => Done (p, nil)
  | (x, out) :: calls =>
      '(p, out, r) <- dct2_with_table v p x out cos ;;
      '(p, rs) <- dct_calls v p cos calls ;;
      Done (p, (out, r) :: rs)
  end.
Definition plan_dct2 (v : rpath) (p : dplanner) (len : nat) (calls : list (list T * list T))
  : exec (dplanner * list (list T * rres)) :=
  let '(p, cos) := get_cos_table p len in dct_calls v p cos calls.

(* DstPlanner 18-28 of dst.rs *)
Record splanner := mksp {
  sp_2 : list (nat * list T); sp_3 : list (nat * list T); sp_4 : list (nat * list T);
  sp_scratch : list T }.
Definition sp_new : splanner := mksp nil nil nil nil.                   (* 32-39 *)
Definition build_table_offset (n : nat) (off : T) : list T :=           (* 41-50 *)
  let factor := fdiv fpi (fofnat n) in
  tab n (fun i => fsin (fmul factor (fadd (fofnat i) off))).
Definition cached (m : list (nat * list T)) (n : nat) (off : T) : list (nat * list T) * list T :=
  match assoc n m with
  | Some t => (m, t)
  | None => let t := build_table_offset n off in ((n, t) :: m, t)
  end.
Definition plan_dst2 (p : splanner) (n : nat) : splanner * list T :=    (* 53-59 *)
  let '(m, t) := cached (sp_2 p) n half in (mksp m (sp_3 p) (sp_4 p) (sp_scratch p), t).
Definition plan_dst3 (p : splanner) (n : nat) : splanner * list T :=    (* 62-68 *)
  let '(m, t) := cached (sp_3 p) n fzero in (mksp (sp_2 p) m (sp_4 p) (sp_scratch p), t).
Definition plan_dst4 (p : splanner) (n : nat) : splanner * list T :=    (* 71-77 *)
  let '(m, t) := cached (sp_4 p) n half in (mksp (sp_2 p) (sp_3 p) m (sp_scratch p), t).
(* scratch 80-85; the slice is handed out for writing, w is what the caller leaves in it *)
Definition dst_scratch (p : splanner) (len : nat) : exec (list T) :=
  slice_to (grow (sp_scratch p) len fzero) len.
Definition dst_scratch_put (p : splanner) (w : list T) : splanner :=
  let s := grow (sp_scratch p) (length w) fzero in
  mksp (sp_2 p) (sp_3 p) (sp_4 p) (w ++ skipn (length w) s).

(* goertzel_f32 16-36 (std) and 38-59 (no_std, cosf for cos) *)
Definition goertzel_step (coeff : T) (s : T * T) (x : T) : T * T :=
  let '(s_prev, s_prev2) := s in
  (fsub (fadd x (fmul coeff s_prev)) s_prev2, s_prev).
Definition goertzel (x : list T) (rate freq : T) : result T :=
  match x with
  | nil => Err EmptyInput
  | _ =>
    if fleb rate fzero then Err InvalidValue else
    let n := fas (length x) in
    let k := ffloorf (fdiv (fmul freq n) rate) in
    let omega := fdiv (fmul (fmul two fpi) k) n in
    let coeff := fmul two (fcos omega) in
    let '(s1, s2) := fold_left (goertzel_step coeff) x (fzero, fzero) in
    let power := fsub (fadd (fmul s2 s2) (fmul s1 s1)) (fmul (fmul coeff s1) s2) in
    Ok (fsqrt power)
  end.

(* czt_f32 16-54 of czt.rs; a pair (re, im) is written mkcx re im and its product
   spelled out as in the source *)
Definition pmul (a b : cx T) : cx T :=
  mkcx (fsub (fmul (re a) (re b)) (fmul (im a) (im b)))
       (fadd (fmul (re a) (im b)) (fmul (im a) (re b))).
Definition cone : cx T := mkcx fone fzero.
Fixpoint czt_wk (w : cx T) (k : nat) : cx T :=      (* 25-32 *)
  match k with O => cone | S k => pmul (czt_wk w k) w end.
Fixpoint czt_bin (wk ainv : cx T) (x : list T) (wnk apow out : cx T) : cx T := (* 37-51 *)
  match x with
  | nil => out
  | v :: x =>
      let t := pmul apow wnk in
      czt_bin wk ainv x (pmul wnk wk) (pmul apow ainv)
        (mkcx (fadd (re out) (fmul v (re t))) (fadd (im out) (fmul v (im t))))
  end.
Definition czt (x : list T) (m : nat) (w a : cx T) : list (cx T) :=
  let denom := fadd (fmul (re a) (re a)) (fmul (im a) (im a)) in
  let ainv := mkcx (if feqb denom fzero then fzero else fdiv (re a) denom)
                   (if feqb denom fzero then fzero else fdiv (fneg (im a)) denom) in
  tab m (fun k => czt_bin (czt_wk w k) ainv x cone cone (mkcx fzero fzero)).
End Trig.
Arguments dplanner : clear implicits.
Arguments splanner : clear implicits.

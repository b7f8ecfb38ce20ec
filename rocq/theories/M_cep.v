(* Model of src/hilbert.rs and src/cepstrum.rs (f32 in the source, any T here). Both use a
   fresh ScalarFftImpl for a forward and then an inverse transform. *)
From Verif Require Export M_trig.
Set Implicit Arguments.

Section Cep.
Context {T : Type} {F : Float T} {X : FloatX T} (c : cfg).
Local Notation cx := (cx T).

(* freq[i] = Complex32::new(x, 0.0), hilbert.rs 21-24 and cepstrum.rs 21-24 *)
Definition widen (x : list T) : list cx := map (fun v => mkcx v fzero) x.
(* l.iter_mut().take(hi).skip(lo): f applied to the entries lo <= i < hi; i is the position of
   the head of l *)
Fixpoint on_range (f : cx -> cx) (lo hi i : nat) (l : list cx) : list cx :=
  match l with
  | nil => nil
  | z :: l => (if (lo <=? i) && (i <? hi) then f z else z) :: on_range f lo hi (S i) l
  end.
Definition dbl (z : cx) : cx := mkcx (fmul (re z) two) (fmul (im z) two).
(* hilbert.rs 27-43 *)
Definition hilbert_mask (n : nat) (freq : list cx) : list cx :=
  if Nat.even n then
    on_range (fun _ => czero) (n / 2 + 1) n 0 (on_range dbl 1 (n / 2) 0 freq)
  else
    on_range (fun _ => czero) ((n + 1) / 2) n 0 (on_range dbl 1 ((n - 1) / 2 + 1) 0 freq).
(* the checks of hilbert.rs 13-18 and cepstrum.rs 13-18 *)
Definition pow2_check (n : nat) : option ferr :=
  if n =? 0 then Some EmptyInput else if negb (is_pow2 n) then Some NonPowerOfTwoNoStd else None.
(* forward transform, change of the spectrum, inverse transform on one new object *)
Definition via_spectrum (f : list cx -> list cx) (x : list T) : exec (result (list cx)) :=
  match pow2_check (length x) with
  | Some e => Done (Err e)
  | None =>
      '(p, freq, r) <- fft c new_planner (widen x) ;;
      match r with
      | RErr e => Done (Err e)
      | ROk =>
          '(p, freq, r) <- ifft c p (f freq) ;;
          match r with RErr e => Done (Err e) | ROk => Done (Ok freq) end
      end
  end.
(* hilbert_analytic 13-46 *)
Definition hilbert (x : list T) : exec (result (list cx)) := via_spectrum (hilbert_mask (length x)) x.

(* cepstrum.rs 27-31 *)
Definition tiny : T := flit (1 # 1000000000000).
Definition logmag (z : cx) : cx :=
  mkcx (fln (fadd (fsqrt (fadd (fmul (re z) (re z)) (fmul (im z) (im z)))) tiny)) fzero.
(* real_cepstrum 12-34 *)
Definition real_cepstrum (x : list T) : exec (result (list T)) :=
  r <- via_spectrum (map logmag) x ;;
  Done (match r with Ok freq => Ok (map (fun z => re z) freq) | Err e => Err e end).

(* mel_filterbank 37-72 *)
Definition mel_of (f : T) : T := fmul (flit 2595) (flog10 (fadd fone (fdiv f (flit 700)))).  (* 41-42 *)
Definition mel_point (rate : T) (nf i : nat) : T :=                                         (* 43-47 *)
  let mel_min := mel_of fzero in
  let mel_max := mel_of (fdiv rate two) in
  let m := fadd mel_min (fdiv (fmul (fsub mel_max mel_min) (fas i)) (fas (nf + 1))) in
  fmul (flit 700) (fsub (fpowf (flit 10) (fdiv m (flit 2595))) fone).
Definition mel_bins (n : nat) (rate : T) (nf : nat) : list nat :=                           (* 48-51 *)
  tab (nf + 2) (fun i => ffloor (fdiv (fmul (mel_point rate nf i) (fadd (fas n) fone)) rate)).
(* a - b on usize *)
Definition usub (a b : nat) : exec nat := if b <=? a then Done (a - b) else Panic.
(* 58-62: the rising side *)
Definition tri_up (mags : list T) (b0 b1 : nat) (e : T) : exec T :=
  for_range b0 b1 (fun k e =>
    match nth_error mags k with
    | Some v => num <- usub k b0 ;; den <- usub b1 b0 ;; Done (fadd e (fmul (fdiv (fas num) (fas den)) v))
    | None => Done e
    end) e.
(* 63-67: the falling side *)
Definition tri_down (mags : list T) (b1 b2 : nat) (e : T) : exec T :=
  for_range b1 b2 (fun k e =>
    match nth_error mags k with
    | Some v => num <- usub b2 k ;; den <- usub b2 b1 ;; Done (fadd e (fmul (fdiv (fas num) (fas den)) v))
    | None => Done e
    end) e.
Definition mel_filterbank (mags : list T) (rate : T) (nf : nat) : exec (list T) :=
  let bins := mel_bins (length mags) rate nf in
  for_range 0 nf (fun i es =>
    let m := i + 1 in
    bm <- get bins m ;; b0 <- get bins (m - 1) ;;
    if bm =? b0 then Done es else
    b2 <- get bins (m + 1) ;;
    if b2 =? bm then Done es else
    e <- get es i ;;
    e <- tri_up mags b0 bm e ;;
    e <- tri_down mags bm b2 e ;;
    set es i e) (zvec nf).
(* mfcc 75-88 *)
Definition mfcc (mags : list T) (rate : T) (nmel ncoef : nat) : exec (result (list T)) :=
  es <- mel_filterbank mags rate nmel ;;
  if length es <? ncoef then Done (Err InvalidValue) else
  d <- dct2 (map (fun x => fln (fadd x tiny)) es) ;;
  s <- slice_to d ncoef ;;
  Done (Ok s).
(* mfcc_batch 91-101: collect stops at the first error *)
Fixpoint mfcc_batch (batch : list (list T)) (rate : T) (nmel ncoef : nat) : exec (result (list (list T))) :=
  match batch with
  | nil => Done (Ok nil)
  | f :: batch =>
      r <- mfcc f rate nmel ncoef ;;
      match r with
      | Err e => Done (Err e)
      | Ok v =>
          rs <- mfcc_batch batch rate nmel ncoef ;;
          Done (match rs with Ok vs => Ok (v :: vs) | Err e => Err e end)
      end
  end.
End Cep.

(* Model of src/visual/spectrogram.rs (f32 in the source, any T here). Colours are triples of
   natural numbers below 256; the gradients of the external crate colorous are a parameter. *)
From Coq Require Import String Ascii.
From Verif Require Export M_win M_stft.
Set Implicit Arguments.
Open Scope nat_scope.

(* 16-31 *)
Inductive colormap := Fire | Legacy | Gray | Viridis | Plasma | Inferno | Rainbow.
(* str::to_ascii_lowercase *)
Definition lower_ascii (a : ascii) : ascii :=
  let n := nat_of_ascii a in if (65 <=? n) && (n <=? 90) then ascii_of_nat (n + 32) else a.
Fixpoint lower (s : string) : string :=
  match s with EmptyString => EmptyString | String a s => String (lower_ascii a) (lower s) end.
(* Colormap::parse 35-45 *)
Definition parse (s : string) : colormap :=
  let s := lower s in
  if String.eqb s "legacy" then Legacy else
  if String.eqb s "gray" then Gray else
  if String.eqb s "viridis" then Viridis else
  if String.eqb s "plasma" then Plasma else
  if String.eqb s "inferno" then Inferno else
  if String.eqb s "rainbow" then Rainbow else Fire.

Section Spec.
Context {T : Type} {F : Float T} {X : FloatX T}.
Local Notation cx := (cx T).

(* 67 *)
Definition cmag (z : cx) : T := fsqrt (fadd (fmul (re z) (re z)) (fmul (im z) (im z))).
(* 66-72: the cells of one row, from column y on *)
Fixpoint mag_cells (y : nat) (zs : list cx) (row : list T) (mx : T) : exec (list T * T) :=
  match zs with
  | nil => Done (row, mx)
  | z :: zs =>
      let mag := cmag z in
      row <- set row y mag ;;
      mag_cells (S y) zs row (if fltb mx mag then mag else mx)
  end.
(* 65-74: the rows from x on *)
Fixpoint mag_rows (height x : nat) (frames : list (list cx)) (mags : list (list T)) (mx : T) : exec (list (list T) * T) :=
  match frames with
  | nil => Done (mags, mx)
  | f :: frames =>
      row <- get mags x ;;
      '(row, mx) <- mag_cells 0 (firstn height f) row mx ;;
      mags <- set mags x row ;;
      mag_rows height (S x) frames mags mx
  end.
(* compute_stft 78-93: with the feature `parallel` each frame has its own transform object and
   sched is the order in which the threads run *)
Definition compute_stft (c : cfg) (sched : list nat) (signal window : list T) (hop : nat) (frames : list (list cx))
  : exec (list (list cx) * rres) :=
  if c_parallel c then stft_parallel c sched signal window hop frames
  else '(_, fs, r) <- stft (fft c) new_planner signal window hop frames ;; Done (fs, r).
(* stft_magnitudes 52-76 *)
Definition stft_magnitudes (c : cfg) (sched : list nat) (samples : list T) (win hop : nat)
  : exec (result (list (list T) * T)) :=
  let window := hann win in
  width <- div_ceil (length samples) hop ;;
  '(frames, r) <- compute_stft c sched samples window hop (repeat nil width) ;;
  match r with
  | RErr e => Done (Err e)
  | ROk =>
      let height := win / 2 in
      let width := length frames in
      '(mags, mx) <- mag_rows height 0 frames (repeat (repeat fzero height) width) fzero ;;
      Done (Ok (mags, mx))
  end.

(* magnitude_to_db 96-102 *)
Definition magnitude_to_db (mag max floor : T) : T :=
  if fleb max fzero || fleb mag fzero then floor
  else fmaxf (fmul (flit 20) (flog10 (fdiv mag max))) floor.
(* db_scale 107-110 *)
Definition db_scale (mag max range : T) : T :=
  let db := fmul (flit 20) (flog10 (fmaxf (fdiv mag max) (flit (1 # 10000000000)))) in
  fclamp (fdiv (fadd db range) range) fzero fone.

(* x as u8, x.round() as u8 *)
Definition as_u8 (x : T) : nat := Nat.min 255 (ffloor x).
Definition round_u8 (x : T) : nat := Nat.min 255 (fround_nat x).
Definition rgb := (nat * nat * nat)%type.
(* lerp_u8 162-164 *)
Definition lerp_u8 (a b : nat) (t : T) : nat := as_u8 (fadd (fas a) (fmul (fsub (fas b) (fas a)) t)).
Definition lerp3 (a b : rgb) (t : T) : rgb :=
  let '(a0, a1, a2) := a in let '(b0, b1, b2) := b in (lerp_u8 a0 b0 t, lerp_u8 a1 b1 t, lerp_u8 a2 b2 t).
Definition stop := (T * rgb)%type.
(* 117-123 *)
Definition fire_stops : list stop :=
  [(fzero, (0, 0, 0)); (flit (1 # 4), (128, 0, 128)); (flit (1 # 2), (255, 165, 0)); (flit (3 # 4), (255, 255, 0)); (fone, (255, 255, 255))].
(* t >= w[0].0 && t <= w[1].0 *)
Definition in_window (t : T) (w0 w1 : stop) : bool := fleb (fst w0) t && fleb t (fst w1).
(* 124-128: STOPS.windows(2).find(..) *)
Fixpoint find_window (t : T) (l : list stop) : option (stop * stop) :=
  match l with
  | w0 :: (w1 :: _) as r => if in_window t w0 w1 then Some (w0, w1) else find_window t r
  | _ => None
  end.
(* 116-135; the default is (STOPS[3], STOPS[4]) *)
Definition fire_color (t : T) : rgb :=
  let '(s, e) := match find_window t fire_stops with
                 | Some se => se
                 | None => ((flit (3 # 4), (255, 255, 0)), (fone, (255, 255, 255)))
                 end in
  lerp3 (snd s) (snd e) (fdiv (fsub t (fst s)) (fsub (fst e) (fst s))).
(* 166-175 *)
Definition rainbow_stops : list stop :=
  [(fzero, (0, 0, 0)); (flit (1 # 4), (0, 0, 255)); (flit (1 # 2), (0, 255, 255)); (flit (3 # 4), (255, 255, 0));
   (flit (9 # 10), (255, 0, 0)); (fone, (255, 255, 255))].
(* 176-180: the first stop i with i+1 = len or t <= STOPS[i+1].0, paired with STOPS[min(i+1, len-1)] *)
Fixpoint rainbow_pair (t : T) (l : list stop) : option (stop * stop) :=
  match l with
  | nil => None
  | s0 :: nil => Some (s0, s0)
  | s0 :: (s1 :: _) as r => if fltb (fst s1) t then rainbow_pair t r else Some (s0, s1)
  end.
(* rainbow_color_u8 166-187 *)
Definition rainbow_color (t : T) : rgb :=
  match rainbow_pair t rainbow_stops with
  | Some (s0, s1) =>
      let local := if fltb (fst s0) (fst s1) then fdiv (fsub t (fst s0)) (fsub (fst s1) (fst s0)) else fzero in
      lerp3 (snd s0) (snd s1) local
  | None => (0, 0, 0)
  end.

Variable colorous : colormap -> T -> rgb.
(* map_color_u8 113-160 *)
Definition map_color_u8 (t : T) (m : colormap) : rgb :=
  let t := fclamp t fzero fone in
  match m with
  | Fire => fire_color t
  | Legacy =>
      let l64 := flit 64 in let l255 := flit 255 in
      (as_u8 (fadd (fmul l64 (fsub fone t)) (fmul l255 t)),
       as_u8 (fmul l255 t),
       as_u8 (fadd (fmul l64 (fsub fone t)) (fmul (flit 224) t)))
  | Gray => let g := round_u8 (fmul t (flit 255)) in (g, g, g)
  | Viridis | Plasma | Inferno => colorous m t
  | Rainbow => rainbow_color t
  end.
(* r as u16 * 257 on u16, panics above 65535 = 255 * 257 *)
Definition mul257 (v : nat) : exec nat := if v * 257 <=? 255 * 257 then Done (v * 257) else Panic.
Definition wide (v : rgb) : exec rgb :=
  let '(r, g, b) := v in r <- mul257 r ;; g <- mul257 g ;; b <- mul257 b ;; Done (r, g, b).
(* map_color_u16 190-193 *)
Definition map_color_u16 (t : T) (m : colormap) : exec rgb := wide (map_color_u8 t m).
(* color_from_magnitude_u8 / _u16 196-206 *)
Definition color_from_magnitude_u8 (mag max floor : T) (m : colormap) : rgb :=
  let db := magnitude_to_db mag max floor in
  map_color_u8 (fdiv (fsub db floor) (fneg floor)) m.
Definition color_from_magnitude_u16 (mag max floor : T) (m : colormap) : exec rgb :=
  wide (color_from_magnitude_u8 mag max floor m).

(* map_bin_to_pixel 209-217 *)
Definition map_bin_to_pixel (bin max_bin : nat) : nat :=
  if max_bin =? 0 then 0 else
  let log_max := fln (fadd (fas max_bin) fone) in
  let pos := fln (fadd (fas bin) fone) in
  ffloor (fdiv (fmul (fas max_bin) pos) log_max).
(* 223-227 *)
Fixpoint bin_loop (max_bin bin : nat) (vs : list T) (acc : list T) (counts : list nat) : exec (list T * list nat) :=
  match vs with
  | nil => Done (acc, counts)
  | v :: vs =>
      let y := map_bin_to_pixel bin max_bin in
      a <- get acc y ;; acc <- set acc y (fadd a v) ;;
      n <- get counts y ;; counts <- set counts y (n + 1) ;;
      bin_loop max_bin (bin + 1) vs acc counts
  end.
(* log_scale_bins 220-234 *)
Definition log_scale_bins (values : list T) (max_bin : nat) : exec (list T) :=
  '(acc, counts) <- bin_loop max_bin 0 values (repeat fzero (max_bin + 1)) (repeat 0 (max_bin + 1)) ;;
  Done (map (fun '(a, n) => if 0 <? n then fdiv a (fas n) else a) (combine acc counts)).
End Spec.

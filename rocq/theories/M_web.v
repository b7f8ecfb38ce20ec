(* Model of web-spectrogram/src/lib.rs. The file at this commit does not parse (merge residue at
   122-123 and 166-167: two getters opened and never closed); the getters only copy fields out and
   are not modelled, every other function is modelled as written. wasm_bindgen, JsValue and the
   thread_local cell are transparent: one thread, one state. f32 in the source, any T here. *)
From Coq Require Import String.
From Verif Require Export M_spec M_wave.
Set Implicit Arguments.
Open Scope nat_scope.

(* 9-10 *)
Definition WIN_LEN : nat := 1024.
Definition HOP : nat := WIN_LEN / 2.

(* the enum of 15-23 and its conversion 25-37 *)
Inductive wcolormap := WFire | WLegacy | WGray | WViridis | WPlasma | WInferno | WRainbow.
Definition wcolor (m : wcolormap) : colormap :=
  match m with
  | WFire => Fire | WLegacy => Legacy | WGray => Gray | WViridis => Viridis
  | WPlasma => Plasma | WInferno => Inferno | WRainbow => Rainbow
  end.

Section Web.
Context {T : Type} {F : Float T} {X : FloatX T} (c : cfg).
Local Notation cx := (cx T).
Variable colorous : colormap -> T -> rgb.

(* Box<dyn FftImpl<f32>> from new_fft_impl, src/fft.rs 1954-1985: the scalar object or, when the
   target has one, a stateless SIMD object *)
Inductive fft_box := BoxScalar (p : planner T) | BoxSimd (wide : bool).
Definition new_fft_impl (simd : option bool) : fft_box :=
  match simd with Some w => BoxSimd w | None => BoxScalar new_planner end.
Definition box_fft (b : fft_box) (x : list cx) : exec (fft_box * list cx * rres) :=
  match b with
  | BoxScalar p => '(p, y, r) <- fft c p x ;; Done (BoxScalar p, y, r)
  | BoxSimd w => '(y, r) <- simd_fft c w x ;; Done (b, y, r)
  end.

(* stft_magnitudes 71-86: the flattened magnitudes, width, height, maximum *)
Definition flatten_rows (height : nat) (mags : list (list T)) : exec (list T) :=
  fold_left (fun acc frame => flat <- acc ;; s <- slice_to frame height ;; Done (flat ++ s)) mags (Done []).
Definition w_stft_magnitudes (sched : list nat) (samples : list T) (win hop : nat)
  : exec (result (list T * nat * nat * T)) :=
  r <- stft_magnitudes c sched samples win hop ;;
  match r with
  | Err e => Done (Err e)
  | Ok (mags, mx) =>
      let height := win / 2 in
      let width := length mags in
      flat <- flatten_rows height mags ;;
      Done (Ok (flat, width, height, mx))
  end.
(* 99-106 *)
Definition w_map_color_u8 (t : T) (m : wcolormap) : list nat :=
  let '(r, g, b) := map_color_u8 colorous t (wcolor m) in [r; g; b].
Definition w_color_from_magnitude_u8 (mag max floor : T) (m : wcolormap) : list nat :=
  let '(r, g, b) := color_from_magnitude_u8 colorous mag max floor (wcolor m) in [r; g; b].
(* fft_split 134-145; the error is the printed text of the FftError or "input length mismatch".
   The free function fft::fft_split (src/fft.rs 2129-2131) uses a fresh scalar object. *)
Inductive werr := WMismatch | WFft (e : ferr).
Definition w_fft_split (re_ im_ : list T) : exec (list T * list T + werr) :=
  if negb (length re_ =? length im_) then Done (inr WMismatch) else
  '(_, r, i, res) <- fft_split c new_planner re_ im_ ;;
  match res with RErr e => Done (inr (WFft e)) | ROk => Done (inl (r, i)) end.

(* State 192-198 *)
Record wstate := mkWs { ws_buf : list T; ws_fft : fft_box; ws_window : list T; ws_cmap : colormap; ws_max : T }.
(* 201-209 *)
Definition ws_new (simd : option bool) : wstate :=
  mkWs [] (new_fft_impl simd) (hann WIN_LEN) Rainbow (flit (1 # 1000000000000)).
(* the loop 223-231 *)
Fixpoint row_loop (m : colormap) (zs : list cx) (mx : T) (row : list nat) : list nat * T :=
  match zs with
  | [] => (row, mx)
  | z :: zs =>
      let mag := fsqrt (fadd (fmul (re z) (re z)) (fmul (im z) (im z))) in
      let mx := if fltb mx mag then mag else mx in
      let '(r, g, b) := color_from_magnitude_u8 colorous mag mx (flit (-80)) m in
      row_loop m zs mx (row ++ [r; g; b; 255])
  end.
(* compute_frame 211-234; the result of fft at 220 is dropped. `drain(0..HOP)` panics when the
   buffer is shorter. *)
Definition compute_frame (s : wstate) (samples : list T) : exec (wstate * list nat) :=
  let buf := ws_buf s ++ samples in
  if length buf <? WIN_LEN then Done (mkWs buf (ws_fft s) (ws_window s) (ws_cmap s) (ws_max s), [])
  else
    let frame := zip_apply (fun _ '(v, w) => mkcx (fmul v w) fzero) (repeat (mkcx fzero fzero) WIN_LEN)
                   (zip_with pair buf (ws_window s)) in
    '(b, frame, _) <- box_fft (ws_fft s) frame ;;
    front <- slice_to frame (WIN_LEN / 2) ;;
    let '(row, mx) := row_loop (ws_cmap s) front (ws_max s) [] in
    rest <- slice_from buf HOP ;;
    Done (mkWs rest b (ws_window s) (ws_cmap s) mx, row).

(* the exported functions 237-252 acting on the state *)
Inductive wcall := CFrame (samples : list T) | CMap (name : string) | CReset.
Definition web_call (simd : option bool) (s : wstate) (k : wcall) : exec (wstate * list nat) :=
  match k with
  | CFrame v => compute_frame s v
  | CMap n => Done (mkWs (ws_buf s) (ws_fft s) (ws_window s) (parse n) (ws_max s), [])
  | CReset => Done (ws_new simd, [])
  end.
(* a page that makes these calls in turn, with the rows it gets *)
Fixpoint web_run (simd : option bool) (s : wstate) (ks : list wcall) : exec (wstate * list (list nat)) :=
  match ks with
  | [] => Done (s, [])
  | k :: ks =>
      '(s, row) <- web_call simd s k ;;
      '(s, rows) <- web_run simd s ks ;;
      Done (s, row :: rows)
  end.
End Web.
Arguments fft_box : clear implicits.
Arguments wstate : clear implicits.
Arguments wcall : clear implicits.

(* Model of web-spectrogram/app.mjs (drawing) and of examples/spectrogram.rs.
   app.mjs at this commit does not parse: 68-71 hold the residue of a merge (a call left open before
   the declaration of fragmentShaderSource, repeated at 102-105) and the `if` of 162 is not closed.
   The functions are modelled with the residue 69-70 removed and the brace put after 168. *)
From Coq Require Import String Ascii QArith.
From Verif Require Export M_web M_sanity.
Set Implicit Arguments.
Open Scope nat_scope.

Section Page.
Context {T : Type} {F : Float T} {X : FloatX T}.
(* what a JavaScript number read outside an array (undefined) becomes as an f32 argument: NaN *)
Variable undef : T.

(* magnitudeToDb 31-34 *)
Definition js_magnitude_to_db (mag maxMag : T) : T :=
  fmul (flit 20) (flog10 (fmaxf (fdiv mag maxMag) (flit (1 # 1000000000000)))).

(* data[i] = v on a Uint8ClampedArray: writes outside are ignored, bytes above 255 are clamped *)
Definition js_put (data : list nat) (i v : nat) : list nat := upd data i (Nat.min 255 v).
(* drawSpectrogramCanvas 36-54: the canvas becomes width x height, its image data is the result;
   color is colorFn with its last two arguments -80 and colormap *)
Definition canvas_pixel (color : T -> T -> list nat) (mags : list T) (width height : nat) (max_mag : T) (x : nat) (data : list nat) (y : nat) : list nat :=
  let rgb := color (nth (x * height + y) mags undef) max_mag in
  let idx := 4 * (y * width + x) in
  js_put (js_put (js_put (js_put data idx (nth 0 rgb 0)) (idx + 1) (nth 1 rgb 0)) (idx + 2) (nth 2 rgb 0)) (idx + 3) 255.
Definition draw_canvas (color : T -> T -> list nat) (mags : list T) (width height : nat) (max_mag : T) : list nat :=
  fold_left (fun data x => fold_left (canvas_pixel color mags width height max_mag x) (seq 0 height) data) (seq 0 width)
    (repeat 0 (4 * (width * height))).

(* The fragment shader 71-101. A colour is a vec3; mix(a, b, s) is a*(1-s) + b*s componentwise. *)
Definition vec3 := (T * T * T)%type.
Definition mix1 (a b s : T) : T := fadd (fmul a (fsub fone s)) (fmul b s).
Definition gl_mix (a b : vec3) (s : T) : vec3 :=
  let '(a0, a1, a2) := a in let '(b0, b1, b2) := b in (mix1 a0 b0 s, mix1 a1 b1 s, mix1 a2 b2 s).
Definition gl_rainbow (t : T) : vec3 :=
  let q := flit (1 # 4) in
  if fltb t q then gl_mix (fzero, fzero, fzero) (fzero, fzero, fone) (fdiv t q)
  else if fltb t (flit (1 # 2)) then gl_mix (fzero, fzero, fone) (fzero, fone, fone) (fdiv (fsub t q) q)
  else if fltb t (flit (3 # 4)) then gl_mix (fzero, fone, fone) (fone, fone, fzero) (fdiv (fsub t (flit (1 # 2))) q)
  else if fltb t (flit (9 # 10)) then gl_mix (fone, fone, fzero) (fone, fzero, fzero) (fdiv (fsub t (flit (3 # 4))) (flit (15 # 100)))
  else gl_mix (fone, fzero, fzero) (fone, fone, fone) (fdiv (fsub t (flit (9 # 10))) (flit (1 # 10))).
(* 94-99; log is GLSL's natural logarithm *)
Definition gl_level (mag maxMag : T) : T :=
  let ratio := fdiv mag maxMag in
  let db := fmul (flit 20) (fln (fmaxf ratio (flit (1 # 1000000000000)))) in
  fclamp (fdiv (fsub db (flit (-80))) (flit 80)) fzero fone.
(* The quad 114-123 covers the canvas, so at the centre of column px the varying v.x of the vertex
   shader 64 is (px + 1/2) / width, and at row py counted from the bottom v.y is (py + 1/2) / height.
   texture2D with NEAREST (128-129) reads texel floor(v.x * width), floor(v.y * height). *)
Definition gl_varying (px size : nat) : T := fdiv (fadd (fas px) (flit (1 # 2))) (fas size).
Definition gl_texel (v : T) (size : nat) : nat := ffloor (fmul v (fas size)).
(* drawSpectrogramWebGL 56-149: the colour of the pixel in column px and row py, counted from the
   top as in the 2D canvas; texImage2D 130-140 takes its data row after row, width texels each.
   Simplification: the driver accepts the unsized format RED with FLOAT data. *)
Definition gl_pixel (mags : list T) (width height : nat) (max_mag : T) (px py : nat) : vec3 :=
  let i := gl_texel (gl_varying px width) width in
  let j := gl_texel (gl_varying (height - 1 - py) height) height in
  gl_rainbow (gl_level (nth (j * width + i) mags undef) max_mag).

(* drawSpectrogram 151-170: what is drawn, and how *)
Inductive drawing := ByCanvas (data : list nat) | ByWebGL (pixel : nat -> nat -> vec3).
Definition draw_spectrogram (webgl2 webgl gpu webgpu : bool) (color : T -> T -> list nat) (mags : list T) (width height : nat) (max_mag : T) : drawing :=
  if webgl2 || webgl then ByWebGL (gl_pixel mags width height max_mag)
  else if gpu then (if webgpu then ByCanvas (draw_canvas color mags width height max_mag) else ByCanvas (draw_canvas color mags width height max_mag))
  else ByCanvas (draw_canvas color mags width height max_mag).

Variable colorous : colormap -> T -> rgb.
(* initApp 186-189 for the decoded samples of a file; drawSpectrogram's default colour map is Rainbow 155 *)
Definition page_file (c : cfg) (sched : list nat) (webgl2 webgl gpu webgpu : bool) (samples : list T) : exec (result (nat * nat * drawing)) :=
  r <- w_stft_magnitudes c sched samples 1024 512 ;;
  match r with
  | Err e => Done (Err e)
  | Ok (mags, width, height, mx) =>
      Done (Ok (width, height, draw_spectrogram webgl2 webgl gpu webgpu
        (fun mag max => w_color_from_magnitude_u8 colorous mag max (flit (-80)) WRainbow) mags width height mx))
  end.

(* ---------- examples/spectrogram.rs ---------- *)
(* str::parse::<f32> *)
Variable parse_f32 : string -> option T.
Record settings := mkSet { s_input : option string; s_output : option string; s_floor : T; s_palette : colormap }.
(* the loop 25-48; None: usage message and exit code 1 at 43-44 *)
Fixpoint arg_loop (args : list string) (s : settings) : option settings :=
  match args with
  | [] => Some s
  | a :: args =>
      if String.eqb a "--floor" then
        match args with
        | v :: args => arg_loop args (mkSet (s_input s) (s_output s) (match parse_f32 v with Some f => f | None => s_floor s end) (s_palette s))
        | [] => Some s
        end
      else if String.eqb a "--palette" then
        match args with
        | v :: args => arg_loop args (mkSet (s_input s) (s_output s) (s_floor s) (parse v))
        | [] => Some s
        end
      else match s_input s, s_output s with
           | None, _ => arg_loop args (mkSet (Some a) (s_output s) (s_floor s) (s_palette s))
           | Some _, None => arg_loop args (mkSet (s_input s) (Some a) (s_floor s) (s_palette s))
           | Some _, Some _ => None
           end
  end.
(* 20-56: the input, the output, the floor and the palette, or the usage message *)
Definition example_args (args : list string) : option (string * string * T * colormap) :=
  match arg_loop args (mkSet None None (flit (-120)) Fire) with
  | Some (mkSet (Some i) (Some o) f p) => Some (i, o, f, p)
  | _ => None
  end.

(* 75-78: one column *)
Fixpoint ex_column (height x y : nat) (bins : list T) (mx floor : T) (m : colormap) (img : image) : exec image :=
  match bins with
  | [] => Done img
  | v :: bins =>
      let c := color_from_magnitude_u8 colorous v mx floor m in
      if height <? 1 + y then Panic else
      img <- put_pixel img x (height - 1 - y) c ;;
      ex_column height x (S y) bins mx floor m img
  end.
(* 74-79 *)
Fixpoint ex_frames (height x : nat) (mags : list (list T)) (mx floor : T) (m : colormap) (img : image) : exec image :=
  match mags with
  | [] => Done img
  | frame :: mags =>
      img <- ex_column height x 0 frame mx floor m img ;;
      ex_frames height (S x) mags mx floor m img
  end.
(* 58-79: the image that is saved; file is what hound delivers, one entry per 16-bit sample, None for a
   read error. Outer None: an error is returned. *)
Inductive ex_error := ExRead | ExStft (e : ferr).
Definition example_image (c : cfg) (sched : list nat) (file : list (option Z)) (floor : T) (m : colormap) : exec (image + ex_error) :=
  match wav_samples file with
  | None => Done (inr ExRead)
  | Some samples =>
      let win_len := 1024 in
      let hop := win_len / 2 in
      r <- stft_magnitudes c sched samples win_len hop ;;
      match r with
      | Err e => Done (inr (ExStft e))
      | Ok (mags, mx) =>
          let height := win_len / 2 in
          img <- ex_frames height 0 mags mx floor m (img_new (length mags) height) ;;
          Done (inl img)
      end
  end.
End Page.

(* Model of sanity-check/src/lib.rs and sanity-check/src/main.rs (f32 in the source, any T here). What the
   external crates deliver (container parsing, decoding, WAV parsing) is an input of the model; PNG
   compression and the text of the SVG file around the rectangles are not modelled. usize to u32 casts of
   the image dimensions are taken not to wrap. *)
From Coq Require Import ZArith String Ascii.
From Verif Require Export M_spec.
Set Implicit Arguments.
Open Scope nat_scope.

(* the ways read_audio can fail: open 34, probe 40-45, no track 47-49, codec 52, sample rate 53-55,
   channel count 56-59, decode 68, packet 90, WAV 100-105 *)
Inductive aerr := AOpen | AProbe | ANoTrack | ACodec | ANoRate | ANoChannels | ADecode | APacket | AWav.

Section Sanity.
Context {T : Type} {F : Float T} {X : FloatX T}.

(* one decoded packet: capacity of its buffer in frames, number of frames, channels of its own
   specification, interleaved samples (d_frames * d_ch of them in symphonia) *)
Record decoded := mkDec { d_capacity : nat; d_frames : nat; d_ch : nat; d_samples : list T }.
(* what format.next_packet() returns, with the decoder's answer for a packet (None: decode error) *)
Inductive pevent := EvPacket (d : option decoded) | EvEof | EvReset | EvError.

(* slice::chunks, panics for size 0; fuel = length of the list *)
Fixpoint chunks_fuel (fuel n : nat) (l : list T) : list (list T) :=
  match fuel, l with
  | S fuel, _ :: _ => firstn n l :: chunks_fuel fuel n (skipn n l)
  | _, _ => []
  end.
Definition chunks (n : nat) (l : list T) : exec (list (list T)) :=
  if n =? 0 then Panic else Done (chunks_fuel (length l) n l).
(* 78-81: frame.iter().sum::<f32>() / channels as f32; the sum starts from zero *)
Definition mix (channels : nat) (frame : list T) : T := fdiv (fold_left fadd frame fzero) (fas channels).
(* 69-82: one packet; cap is the capacity in samples of sample_buf, fixed by the first packet
   (SampleBuffer::new); copy_interleaved_ref asserts that the packet fits *)
Definition add_packet (channels : nat) (cap : option nat) (d : decoded) (samples : list T) : exec (option nat * list T) :=
  let cap := match cap with Some n => n | None => d_capacity d * d_ch d end in
  if cap <? d_frames d * d_ch d then Panic else
  slice <- slice_to (d_samples d) (d_frames d * channels) ;;
  if channels =? 1 then Done (Some cap, samples ++ slice)
  else cs <- chunks channels slice ;; Done (Some cap, samples ++ map (mix channels) cs).
(* the loop 65-92; running off the list of events is a source that never ends *)
Fixpoint packet_loop (channels : nat) (evs : list pevent) (cap : option nat) (samples : list T) : exec (list T + aerr) :=
  match evs with
  | [] => NoFuel
  | EvPacket None :: _ => Done (inr ADecode)
  | EvPacket (Some d) :: evs =>
      '(cap, samples) <- add_packet channels cap d samples ;; packet_loop channels evs cap samples
  | EvEof :: _ => Done (inl samples)
  | EvReset :: evs => packet_loop channels evs cap samples
  | EvError :: _ => Done (inr APacket)
  end.
(* the default track's codec_params and whether a decoder exists for them *)
Record track := mkTrack { t_frames : option nat; t_codec : bool; t_rate : option nat; t_channels : option nat }.
(* a file as the crates see it *)
Record audio_file := mkFile {
  a_ext : option string;                (* path.extension() *)
  a_wav : option (list (option Z) * nat);  (* hound: samples (None: read error) and sample rate, None: cannot open *)
  a_open : bool;                        (* File::open *)
  a_probe : option (option track);      (* None: probe error; Some None: no default track *)
  a_events : list pevent }.
(* read_wav 100-108: collect stops at the first error; i16 values are exact in f32 *)
Fixpoint wav_samples (l : list (option Z)) : option (list T) :=
  match l with
  | [] => Some []
  | None :: _ => None
  | Some v :: l => match wav_samples l with Some s => Some (fdiv (flit (inject_Z v)) (flit (inject_Z 32767)) :: s) | None => None end
  end.
Definition read_wav (f : audio_file) : exec ((list T * nat) + aerr) :=
  match a_wav f with
  | None => Done (inr AWav)
  | Some (l, rate) => match wav_samples l with Some s => Done (inl (s, rate)) | None => Done (inr AWav) end
  end.
(* read_audio 26-98 *)
Definition read_audio (f : audio_file) : exec ((list T * nat) + aerr) :=
  if match a_ext f with Some e => String.eqb (lower e) "wav" | None => false end then read_wav f else
  if negb (a_open f) then Done (inr AOpen) else
  match a_probe f with
  | None => Done (inr AProbe)
  | Some None => Done (inr ANoTrack)
  | Some (Some t) =>
      if negb (t_codec t) then Done (inr ACodec) else
      match t_rate t, t_channels t with
      | None, _ => Done (inr ANoRate)
      | _, None => Done (inr ANoChannels)
      | Some rate, Some channels =>
          r <- packet_loop channels (a_events f) None [] ;;
          match r with
          | inr e => Done (inr e)
          | inl samples => Done (inl (match t_frames t with Some n => firstn n samples | None => samples end, rate))
          end
      end
  end.

(* image::ImageBuffer<Rgb<_>>: row after row *)
Record image := mkImg { iw : nat; ih : nat; ipx : list rgb }.
Definition img_new (w h : nat) : image := mkImg w h (repeat (0, 0, 0) (w * h)).
Definition get_pixel (img : image) (x y : nat) : exec rgb :=
  if (x <? iw img) && (y <? ih img) then get (ipx img) (y * iw img + x) else Panic.
Definition put_pixel (img : image) (x y : nat) (c : rgb) : exec image :=
  if (x <? iw img) && (y <? ih img) then p <- set (ipx img) (y * iw img + x) c ;; Done (mkImg (iw img) (ih img) p) else Panic.

Variable colorous : colormap -> T -> rgb.
Inductive scale_mode := Linear | Log.
(* main.rs 79-82: one column; height - 1 - y on usize *)
Fixpoint draw_column (height x y : nat) (bins : list T) (mx floor : T) (m : colormap) (img : image) : exec image :=
  match bins with
  | [] => Done img
  | v :: bins =>
      c <- color_from_magnitude_u16 colorous v mx floor m ;;
      (if height <? 1 + y then Panic else
       img <- put_pixel img x (height - 1 - y) c ;;
       draw_column height x (S y) bins mx floor m img)
  end.
(* 73-83 *)
Fixpoint draw_frames (height : nat) (mode : scale_mode) (x : nat) (mags : list (list T)) (mx floor : T) (m : colormap) (img : image) : exec image :=
  match mags with
  | [] => Done img
  | frame :: mags =>
      bins <- match mode with
              | Linear => Done frame
              | Log => fr <- slice_to frame height ;; (if height <? 1 then Panic else log_scale_bins fr (height - 1))
              end ;;
      img <- draw_column height x 0 bins mx floor m img ;;
      draw_frames height mode (S x) mags mx floor m img
  end.
(* main.rs 64-83: the image of the samples *)
Definition sanity_image (c : cfg) (sched : list nat) (samples : list T) (win_len : nat) (mode : scale_mode) (dynamic_range : T) (m : colormap)
  : exec (result image) :=
  let hop := win_len / 2 in
  r <- stft_magnitudes c sched samples win_len hop ;;
  match r with
  | Err e => Done (Err e)
  | Ok (mags, mx) =>
      let height := win_len / 2 in
      img <- draw_frames height mode 0 mags mx (fneg dynamic_range) m (img_new (length mags) height) ;;
      Done (Ok img)
  end.
End Sanity.
Arguments decoded T : clear implicits.
Arguments pevent T : clear implicits.
Arguments audio_file T : clear implicits.

Inductive png_depth := Eight | Sixteen.
(* u16 >> 8 *)
Definition high (v : nat) : nat := v / 256.
Definition high3 (c : rgb) : rgb := let '(r, g, b) := c in (high r, high g, high b).
(* save_png 110-137: the samples handed to the encoder, ImageBuffer::from_fn fills row after row *)
Definition png_samples (img : image) (d : png_depth) : exec (list rgb) :=
  match d with
  | Eight => for_range 0 (ih img) (fun y out => for_range 0 (iw img) (fun x out => p <- get_pixel img x y ;; Done (out ++ [high3 p])) out) []
  | Sixteen => Done (ipx img)
  end.

(* {:x} on a u16, least significant digit last *)
Definition hex_digit (n : nat) : ascii := if n <? 10 then ascii_of_nat (48 + n) else ascii_of_nat (87 + n).
Fixpoint hex_fuel (fuel n : nat) (s : string) : string :=
  match fuel with
  | 0 => s
  | S fuel => let s := String (hex_digit (n mod 16)) s in if n <? 16 then s else hex_fuel fuel (n / 16) s
  end.
Definition hex (n : nat) : string := hex_fuel 4 n EmptyString.
(* {:02x} *)
Definition hex02 (n : nat) : string := let s := hex n in if String.length s <? 2 then String "0"%char s else s.
(* save_svg 146-151 *)
Definition fill (c : rgb) : string := let '(r, g, b) := c in
  String "#"%char (hex02 (high r) ++ hex02 (high g) ++ hex02 (high b))%string.
(* 145-159: one 1x1 rectangle per pixel, in the order of enumerate_pixels (row after row) *)
Definition svg_rects (img : image) : exec (list (nat * nat * string)) :=
  for_range 0 (ih img) (fun y out => for_range 0 (iw img) (fun x out => p <- get_pixel img x y ;; Done (out ++ [(x, y, fill p)])) out) [].

(* Properties C79, C80 and C81: the pictures drawn by the web page and by the spectrogram example. *)
From Coq Require Import Reals Lra ZArith Lia Permutation String Ascii.
From Verif Require Import M_page L_trig L_stft P_fft P_stft P_trig P_win P_cep P_spec P_web P_sanity.
Set Implicit Arguments.
Open Scope nat_scope.

(* ------------------------------------------------------------------ C79 *)
(* byte k (red, green, blue, alpha) of the pixel in column x, row y of w x h image data *)
Definition byte_at (data : list nat) (w x y k : nat) : nat := nth (4 * (y * w + x) + k) data 0.
Definition three_bytes (l : list nat) : Prop := exists r g b, l = [r; g; b] /\ r <= 255 /\ g <= 255 /\ b <= 255.
Section Canvas.
Context {T : Type} {F : Float T} {X : FloatX T} (undef : T).
Variable color : T -> T -> list nat.
Hypothesis Hcol : forall a b, three_bytes (color a b).
Variables (mags : list T) (w h : nat) (mx : T).
Definition want (x y k : nat) : nat := nth k (color (nth (x * h + y) mags undef) mx ++ [255]) 0.
Lemma js_put_nth data i v j : i < length data -> v <= 255 -> nth j (js_put data i v) 0 = if j =? i then v else nth j data 0.
Proof. intros Hi Hv. unfold js_put. rewrite Nat.min_r by exact Hv. apply nth_upd. exact Hi. Qed.
Lemma js_put_length data i v : length (js_put data i v) = length data.
Proof. apply upd_length. Qed.
Lemma pixel_set x y data : length data = 4 * (w * h) -> x < w -> y < h ->
  length (canvas_pixel undef color mags w h mx x data y) = length data /\
  forall u v k, u < w -> v < h -> k < 4 -> byte_at (canvas_pixel undef color mags w h mx x data y) w u v k =
    if (u =? x) && (v =? y) then want x y k else byte_at data w u v k.
Proof.
  intros L Hx Hy. unfold canvas_pixel. rewrite !js_put_length. split; [reflexivity|]. intros u v k Hu Hv Hk. unfold byte_at, want.
  destruct (Hcol (nth (x * h + y) mags undef) mx) as (r & g & b & -> & Hr & Hg & Hb). cbn [nth app].
  assert (Hi : y * w + x < w * h) by nia. set (i := y * w + x) in *. set (j := v * w + u) in *.
  assert (Hij : j = i <-> u = x /\ v = y) by (unfold i, j; split; [intros E; assert (v = y) by nia; subst; split; lia|intros [-> ->]; reflexivity]).
  rewrite !js_put_nth by (rewrite ?js_put_length; lia).
  destruct (Nat.eqb_spec (4 * j + k) (4 * i + 3)) as [E|N3].
  { assert (j = i) by lia. assert (k = 3) by lia. apply Hij in H. destruct H as [-> ->]. rewrite !Nat.eqb_refl. subst k. reflexivity. }
  destruct (Nat.eqb_spec (4 * j + k) (4 * i + 2)) as [E|N2].
  { assert (j = i) by lia. assert (k = 2) by lia. apply Hij in H. destruct H as [-> ->]. rewrite !Nat.eqb_refl. subst k. reflexivity. }
  destruct (Nat.eqb_spec (4 * j + k) (4 * i + 1)) as [E|N1].
  { assert (j = i) by lia. assert (k = 1) by lia. apply Hij in H. destruct H as [-> ->]. rewrite !Nat.eqb_refl. subst k. reflexivity. }
  destruct (Nat.eqb_spec (4 * j + k) (4 * i)) as [E|N0].
  { assert (j = i) by lia. assert (k = 0) by lia. apply Hij in H. destruct H as [-> ->]. rewrite !Nat.eqb_refl. subst k. reflexivity. }
  destruct (Nat.eqb_spec u x) as [->|]; [|reflexivity]. destruct (Nat.eqb_spec v y) as [->|]; [|reflexivity].
  unfold i, j in *. lia.
Qed.
Lemma column_set x : x < w -> forall n data, n <= h -> length data = 4 * (w * h) ->
  length (fold_left (canvas_pixel undef color mags w h mx x) (seq 0 n) data) = length data /\
  forall u v k, u < w -> v < h -> k < 4 -> byte_at (fold_left (canvas_pixel undef color mags w h mx x) (seq 0 n) data) w u v k =
    if (u =? x) && (v <? n) then want x v k else byte_at data w u v k.
Proof.
  intros Hx. induction n as [|n IH]; intros data Hn L.
  - cbn [seq fold_left]. split; [reflexivity|]. intros. rewrite andb_false_r. reflexivity.
  - rewrite seq_S, fold_left_app. cbn [fold_left Nat.add]. destruct (IH data) as [L1 P1]; [lia|exact L|].
    destruct (@pixel_set x n _ (eq_trans L1 L) Hx) as [L2 P2]; [lia|]. split; [congruence|].
    intros u v k Hu Hv Hk. rewrite P2, P1 by assumption. destruct (Nat.eqb_spec u x); cbn [andb]; [|reflexivity].
    destruct (Nat.eqb_spec v n) as [->|]; [destruct (Nat.ltb_spec n (S n)); [reflexivity|lia]|].
    destruct (Nat.ltb_spec v n), (Nat.ltb_spec v (S n)); try lia; reflexivity.
Qed.
Lemma canvas_set : forall n data, n <= w -> length data = 4 * (w * h) ->
  let out := fold_left (fun data x => fold_left (canvas_pixel undef color mags w h mx x) (seq 0 h) data) (seq 0 n) data in
  length out = length data /\
  forall u v k, u < w -> v < h -> k < 4 -> byte_at out w u v k = if u <? n then want u v k else byte_at data w u v k.
Proof.
  induction n as [|n IH]; intros data Hn L; cbv zeta.
  - cbn [seq fold_left]. split; reflexivity.
  - rewrite (seq_S n), fold_left_app. cbn [fold_left Nat.add]. destruct (IH data) as [L1 P1]; [lia|exact L|].
    destruct (@column_set n ltac:(lia) h _ ltac:(lia) (eq_trans L1 L)) as [L2 P2]. split; [congruence|].
    intros u v k Hu Hv Hk. rewrite P2, P1 by assumption. destruct (Nat.ltb_spec v h); [|lia]. rewrite andb_true_r.
    destruct (Nat.eqb_spec u n) as [->|]; [destruct (Nat.ltb_spec n (S n)); [reflexivity|lia]|].
    destruct (Nat.ltb_spec u n), (Nat.ltb_spec u (S n)); try lia; reflexivity.
Qed.
End Canvas.
(* any float type, any colour function: column x shows frame x, row y its bin y, opaque *)
Theorem C79_canvas : forall (T : Type) (undef : T) (color : T -> T -> list nat) (mags : list T) (w h : nat) (mx : T),
  (forall a b, three_bytes (color a b)) ->
  length (draw_canvas undef color mags w h mx) = 4 * (w * h) /\
  forall x y, x < w -> y < h ->
    map (byte_at (draw_canvas undef color mags w h mx) w x y) [0; 1; 2; 3] = color (nth (x * h + y) mags undef) mx ++ [255].
Proof.
  intros T undef color mags w h mx Hc. destruct (@canvas_set T undef color Hc mags w h mx w (repeat 0 (4 * (w * h))) (le_n w) (repeat_length _ _)) as [L P].
  rewrite repeat_length in L. split; [exact L|]. intros x y Hx Hy. unfold draw_canvas.
  cbn [map]. rewrite !P by (try assumption; lia). destruct (Nat.ltb_spec x w); [|lia]. unfold want.
  destruct (Hc (nth (x * h + y) mags undef) mx) as (r & g & b & -> & _). reflexivity.
Qed.
Print Assumptions C79_canvas.
Definition bytes_of (c : rgb) : list nat := let '(r, g, b) := c in [r; g; b].
Lemma w_color_bytes {T} {F : Float T} {X : FloatX T} (colorous : colormap -> T -> rgb) a b fl m :
  (forall m t, byte3 (colorous m t)) -> three_bytes (w_color_from_magnitude_u8 colorous a b fl m).
Proof.
  intros Hc. unfold w_color_from_magnitude_u8. unfold color_from_magnitude_u8. cbv zeta.
  pose proof (C60_wide F X colorous (fdiv (fsub (magnitude_to_db a b fl) fl) (fneg fl)) (wcolor m) Hc) as H.
  destruct (map_color_u8 colorous _ (wcolor m)) as [[r g] bl]. destruct H as [(H1 & H2 & H3) _]. exists r, g, bl. auto.
Qed.
Lemma canvas_of_mags (undef : R) (colorous : colormap -> R -> rgb) (samples : list R) N n K mags (mx : R) : 0 < n ->
  (forall m t, byte3 (colorous m t)) -> length mags = K * n ->
  (forall k y, k < K -> y < n -> nth (k * n + y) mags 0%R = frame_mag samples N n k y) -> (forall v, In v mags -> (v <= mx)%R) -> (mx = 0%R \/ In mx mags) ->
  let data := draw_canvas undef (fun mag max : R => w_color_from_magnitude_u8 colorous mag max (flit (-80)) WRainbow) mags K n mx in
  length data = 4 * (K * n) /\
  (forall x y, x < K -> y < n -> (frame_mag samples N n x y <= mx)%R) /\
  (mx = 0%R \/ exists x y, x < K /\ y < n /\ mx = frame_mag samples N n x y) /\
  forall x y, x < K -> y < n ->
    map (byte_at data K x y) [0; 1; 2; 3] = bytes_of (color_from_magnitude_u8 colorous (frame_mag samples N n x y) mx (-80)%R Rainbow) ++ [255].
Proof.
  intros P0 Hb L M M1 M2. set (color := fun mag max : R => w_color_from_magnitude_u8 colorous mag max (flit (-80)) WRainbow).
  destruct (@C79_canvas R undef color mags K n mx) as [LD PD]; [intros; apply w_color_bytes; exact Hb|]. cbv zeta.
  split; [exact LD|]. split; [|split].
  - intros x y Hx Hy. rewrite <- M by assumption. apply M1. apply nth_In. rewrite L. nia.
  - destruct M2 as [M2|M2]; [left; exact M2|right]. destruct (In_nth _ _ 0%R M2) as (i & Hi & <-). rewrite L in Hi.
    exists (i / n), (i mod n). assert (Hd : i / n < K) by (apply Nat.div_lt_upper_bound; lia). assert (Hm : i mod n < n) by (apply Nat.mod_upper_bound; lia).
    split; [exact Hd|]. split; [exact Hm|]. rewrite <- M by assumption. f_equal. rewrite (Nat.div_mod_eq i n) at 1. lia.
  - intros x y Hx Hy. rewrite PD by assumption. f_equal. unfold color, w_color_from_magnitude_u8. cbn [wcolor]. rewrite flit_m80.
    rewrite (nth_indep mags undef 0%R) by (rewrite L; nia). rewrite M by assumption. reflexivity.
Qed.
(* the page on a browser without WebGL, exact arithmetic: one column per half-overlapping frame of the
   file, 512 rows, each pixel the library's colour for the magnitude of that bin, 80 dB below the loudest *)
Theorem C79_page : forall (c : cfg) (undef : R) (colorous : colormap -> R -> rgb) sched (gpu webgpu : bool) (samples : list R) K,
  (forall m t, byte3 (colorous m t)) ->
  length samples <= K * 512 -> (forall k, k < K -> k * 512 < length samples) -> Permutation sched (seq 0 K) ->
  exists data mx, page_file undef colorous c sched false false gpu webgpu samples = Done (Ok (K, 512, ByCanvas data)) /\ length data = 4 * (K * 512) /\
    (forall x y, x < K -> y < 512 -> (frame_mag samples 1024 512 x y <= mx)%R) /\
    (mx = 0%R \/ exists x y, x < K /\ y < 512 /\ mx = frame_mag samples 1024 512 x y) /\
    forall x y, x < K -> y < 512 ->
      map (byte_at data K x y) [0; 1; 2; 3] = bytes_of (color_from_magnitude_u8 colorous (frame_mag samples 1024 512 x y) mx (-80)%R Rainbow) ++ [255].
Proof.
  intros c undef colorous sched gpu webgpu samples K Hb H1 H2 Hp.
  assert (E2 : 1024 / 2 = 512) by (vm_compute; reflexivity). assert (P0 : 0 < 512) by (apply Nat.ltb_lt; reflexivity). assert (P1 : 0 < 1024) by (apply Nat.ltb_lt; reflexivity).
  assert (P2 : 1024 = 2 ^ 10) by (vm_compute; reflexivity).
  destruct (@C69_flat_magnitudes c sched samples 1024 512 K P0 P1 (or_intror (ex_intro _ 10 P2)) H1 H2 Hp) as (mags & mx & E & L & M & M1 & M2).
  rewrite E2 in *. eexists _, mx. split.
  - unfold page_file. rewrite E. cbn [bind]. unfold draw_spectrogram. cbn [orb]. destruct gpu; [destruct webgpu|]; reflexivity.
  - exact (@canvas_of_mags undef colorous samples 1024 512 K mags mx P0 Hb L M M1 M2).
Qed.
Print Assumptions C79_page.
(* the decibel helper exported by the page is the library's with a floor of -240 *)
Theorem C79_db : forall mag max : R, (0 < mag)%R -> (0 < max)%R -> js_magnitude_to_db mag max = magnitude_to_db mag max (-240)%R.
Proof.
  intros mag max H1 H2. destruct (C60_db max (-240)) as (_ & _ & _ & _ & D & _). rewrite D by assumption. unfold js_magnitude_to_db. fr.
  assert (Hq : (0 < mag / max)%R) by (apply Rdiv_lt_0_compat; assumption).
  assert (L10 := ln10_pos).
  assert (E : (ln (/ 1000000000000) / ln 10 = -12)%R).
  { replace 1000000000000%R with (10 ^ 12)%R by ring. rewrite ln_Rinv by (apply pow_lt; lra). rewrite <- Rpower_pow by lra. unfold Rpower. rewrite ln_exp. cbn [INR]. field. lra. }
  unfold Q2R. cbn [Qnum Qden flog10 fmaxf RX]. fold (log10 (Rmax (mag / max) (1 * / 1000000000000))).
  destruct (Rle_dec (mag / max) (/ 1000000000000)) as [Hle|Hgt].
  - rewrite Rmult_1_l, (Rmax_right (mag / max)) by exact Hle. unfold log10 at 1. rewrite E.
    assert (log10 (mag / max) <= log10 (/ 1000000000000))%R by (apply log10_mono; assumption). unfold log10 at 2 in H. rewrite E in H.
    rewrite Rmax_right by lra. field.
  - rewrite Rmult_1_l, (Rmax_left (mag / max)) by lra.
    assert (log10 (/ 1000000000000) <= log10 (mag / max))%R by (apply log10_mono; lra). unfold log10 at 1 in H. rewrite E in H.
    rewrite Rmax_left by lra. field.
Qed.
Print Assumptions C79_db.
Example C79_example : length [1; 2; 3]%R <= 1 * 512 /\ (forall k, k < 1 -> k * 512 < length [1; 2; 3]%R) /\ Permutation [0] (seq 0 1) /\
  (forall (a b : R), three_bytes [0; 128; 255]) /\
  draw_canvas 0 (fun a b => [a; b; 7]) [1; 2; 3; 4; 5; 6] 2 3 9 =
    [1; 9; 7; 255; 4; 9; 7; 255;   2; 9; 7; 255; 5; 9; 7; 255;   3; 9; 7; 255; 6; 9; 7; 255].
Proof.
  split; [apply Nat.leb_le; reflexivity|]. split; [intros k Hk; replace k with 0 by lia; cbn; lia|]. split; [reflexivity|].
  split; [intros; exists 0, 128, 255; repeat split; lia|reflexivity].
Qed.

(* ------------------------------------------------------------------ C80 *)
Open Scope R_scope.
(* a shader colour as the bytes the library's truncation gives *)
Definition gl_bytes (c : R * R * R) : nat * nat * nat := let '(r, g, b) := c in (Rfloor_nat (255 * r), Rfloor_nat (255 * g), Rfloor_nat (255 * b)).
Lemma floor3 a b c a' b' c' : a = a' -> b = b' -> c = c' -> (Rfloor_nat a, Rfloor_nat b, Rfloor_nat c) = (Rfloor_nat a', Rfloor_nat b', Rfloor_nat c').
Proof. intros -> -> ->. reflexivity. Qed.
(* the shader's palette is the library's *)
Theorem C80_palette : forall (colorous : colormap -> R -> rgb) (t : R), 0 <= t <= 1 -> gl_bytes (gl_rainbow t) = map_color_u8 colorous t Rainbow.
Proof.
  intros colorous t Ht. destruct (C60_gradients colorous) as [_ G]. unfold gl_rainbow. fr. unfold Q2R. cbn [Qnum Qden fltb RX].
  assert (N0 : INR 0 = 0) by reflexivity. pose proof INR_255 as N255.
  repeat match goal with |- context [if (if Rlt_dec ?a ?b then true else false) then _ else _] => destruct (Rlt_dec a b) end.
  - rewrite (G 0%nat _ _ _ _ eq_refl eq_refl t) by lra. unfold blend, gl_bytes, gl_mix, mix1. fr. rewrite N0, N255. apply floor3; field.
  - rewrite (G 1%nat _ _ _ _ eq_refl eq_refl t) by lra. unfold blend, gl_bytes, gl_mix, mix1. fr. rewrite N0, N255. apply floor3; field.
  - rewrite (G 2%nat _ _ _ _ eq_refl eq_refl t) by lra. unfold blend, gl_bytes, gl_mix, mix1. fr. rewrite N0, N255. apply floor3; field.
  - rewrite (G 3%nat _ _ _ _ eq_refl eq_refl t) by lra. unfold blend, gl_bytes, gl_mix, mix1. fr. rewrite N0, N255. apply floor3; field.
  - rewrite (G 4%nat _ _ _ _ eq_refl eq_refl t) by lra. unfold blend, gl_bytes, gl_mix, mix1. fr. rewrite N0, N255. apply floor3; field.
Qed.
Print Assumptions C80_palette.
(* which magnitude a pixel shows: the texture is read row after row and from the bottom *)
Lemma gl_texel_ok px size : (px < size)%nat -> gl_texel (F := RF) (X := RX) (gl_varying px size) size = px.
Proof.
  intros H. unfold gl_texel, gl_varying. fr. cbn [ffloor RX]. apply Rfloor_nat_spec. unfold Q2R. cbn [Qnum Qden].
  assert (0 < INR size) by (apply lt_0_INR; lia). replace ((INR px + / 2) / INR size * INR size) with (INR px + / 2) by (field; lra). lra.
Qed.
Theorem C80_texel : forall (undef : R) (mags : list R) (w h : nat) (mx : R) (px py : nat), (px < w)%nat -> (py < h)%nat ->
  gl_pixel undef mags w h mx px py = gl_rainbow (gl_level (nth ((h - 1 - py) * w + px) mags undef) mx).
Proof. intros undef mags w h mx px py Hx Hy. unfold gl_pixel. rewrite !gl_texel_ok by lia. reflexivity. Qed.
Print Assumptions C80_texel.
(* its brightness: the natural logarithm where the library takes the decimal one *)
Lemma gl_level_R mag max : 0 < max -> gl_level mag max = clamp01 (1 + ln (Rmax (mag / max) (/ 1000000000000)) / 4).
Proof.
  intros H. unfold gl_level. fr. rewrite fclamp_R. unfold Q2R. cbn [Qnum Qden fln fmaxf RX]. rewrite Rmult_1_l. f_equal. field.
Qed.
Lemma exp_m4 : / 81 <= exp (-4).
Proof.
  replace (-4) with (- (1 + 1 + 1 + 1)) by ring. rewrite exp_Ropp, !exp_plus. pose proof exp_le_3. pose proof (exp_pos 1).
  assert (exp 1 * exp 1 <= 9) by nra. assert (exp 1 * exp 1 * exp 1 * exp 1 <= 81) by nra.
  apply Rinv_le_contravar; [|assumption]. repeat apply Rmult_lt_0_compat; assumption.
Qed.
(* below 35 dB under the loudest (e^-4) everything is black *)
Theorem C80_floor : forall mag max : R, 0 < max -> mag <= max * exp (-4) -> gl_level mag max = 0 /\ gl_bytes (gl_rainbow (gl_level mag max)) = (0, 0, 0)%nat.
Proof.
  intros mag max Hm H. assert (E : gl_level mag max = 0).
  { rewrite gl_level_R by exact Hm. apply clamp01_lo.
    assert (Hq : mag / max <= exp (-4)). { apply Rmult_le_reg_r with max; [lra|]. unfold Rdiv. rewrite Rmult_assoc, Rinv_l by lra. lra. }
    assert (Ht : / 1000000000000 <= exp (-4)) by (pose proof exp_m4; lra).
    assert (HL : ln (Rmax (mag / max) (/ 1000000000000)) <= -4).
    { rewrite <- (ln_exp (-4)). assert (P : 0 < Rmax (mag / max) (/ 1000000000000)) by (eapply Rlt_le_trans; [|apply Rmax_r]; lra).
      assert (Q : Rmax (mag / max) (/ 1000000000000) <= exp (-4)) by (apply Rmax_lub; assumption).
      destruct Q as [Q|Q]; [left; apply ln_increasing; assumption|rewrite Q; right; reflexivity]. }
    lra. }
  split; [exact E|]. rewrite E. rewrite (C80_palette (fun _ _ => (0, 0, 0)%nat)) by lra. destruct (C60_end_points (fun _ _ => (0, 0, 0)%nat)) as (_ & _ & H0 & _). exact H0.
Qed.
Print Assumptions C80_floor.
(* every bin that is not silent, not the loudest and within the 80 dB is drawn too dark *)
Theorem C80_too_dark : forall mag max : R, 0 < mag < max -> -80 < 20 * log10 (mag / max) -> gl_level mag max < 1 + 20 * log10 (mag / max) / 80.
Proof.
  intros mag max [H0 H1] Hl. assert (Hm : 0 < max) by lra. assert (Hq : 0 < mag / max) by (apply Rdiv_lt_0_compat; lra).
  assert (Hq1 : mag / max < 1) by (apply Rmult_lt_reg_r with max; [lra|]; unfold Rdiv; rewrite Rmult_assoc, Rinv_l by lra; lra).
  assert (Ln : ln (mag / max) < 0) by (rewrite <- ln_1; apply ln_increasing; lra).
  assert (L10 : 1 < ln 10). { rewrite <- (ln_exp 1) at 1. apply ln_increasing; [apply exp_pos|]. pose proof exp_le_3. lra. }
  assert (Eq : log10 (mag / max) * ln 10 = ln (mag / max)) by (unfold log10; field; lra).
  assert (Hlt : ln (mag / max) < log10 (mag / max)) by nra.
  assert (Hbig : / 1000000000000 <= mag / max).
  { left. apply ln_lt_inv; [lra|exact Hq|]. replace 1000000000000 with (10 ^ 12) by ring. rewrite ln_Rinv by (apply pow_lt; lra). rewrite <- Rpower_pow by lra. unfold Rpower. rewrite ln_exp. cbn [INR]. nra. }
  rewrite gl_level_R by exact Hm. rewrite Rmax_left by exact Hbig. unfold clamp01. apply Rmax_lub_lt; [lra|]. eapply Rle_lt_trans; [apply Rmin_l|]. lra.
Qed.
Print Assumptions C80_too_dark.
Lemma gl_silent max : 0 < max -> gl_level 0 max = 0.
Proof. intros H. apply (C80_floor H). pose proof (exp_pos (-4)). nra. Qed.
Lemma gl_loudest max : 0 < max -> gl_level max max = 1.
Proof.
  intros H. rewrite gl_level_R by exact H. replace (max / max) with 1 by (field; lra). rewrite Rmax_left by lra. rewrite ln_1. apply clamp01_hi. lra.
Qed.
(* with only silent and loudest bins the brightness is right; still the two pictures differ for every
   size of more than one row: the first bin of the first frame is at the top left of the canvas, and
   not there in the texture *)
Theorem C80_same_picture_refuted : forall (undef : R) (colorous : colormap -> R -> rgb) (w h : nat), (0 < w)%nat -> (1 < h)%nat -> (forall m t, byte3 (colorous m t)) ->
  exists mags, length mags = (w * h)%nat /\ (forall v, In v mags -> 0 <= v <= 1) /\
    let data := draw_canvas undef (fun mag max => w_color_from_magnitude_u8 colorous mag max (-80) WRainbow) mags w h 1 in
    map (byte_at data w 0 0) [0; 1; 2]%nat = [255; 255; 255]%nat /\ gl_bytes (gl_pixel undef mags w h 1 0 0) = (0, 0, 0)%nat.
Proof.
  intros undef colorous w h Hw Hh Hb. assert (W : (2 <= w * h)%nat) by nia. exists (1 :: repeat 0 (w * h - 1)). split; [cbn [length]; rewrite repeat_length; lia|].
  split. { intros v [<-|Hv]; [lra|]. apply repeat_spec in Hv. subst v. lra. }
  cbv zeta. split.
  - destruct (@C79_canvas R undef (fun mag max => w_color_from_magnitude_u8 colorous mag max (-80) WRainbow) (1 :: repeat 0 (w * h - 1)) w h 1 (fun a b => w_color_bytes colorous a b _ _ Hb)) as [_ P].
    specialize (P 0%nat 0%nat Hw ltac:(lia)). cbn [Nat.mul Nat.add nth] in P. unfold w_color_from_magnitude_u8 in P at 2. cbn [wcolor] in P.
    destruct (@C60_from_magnitude colorous Rainbow 1 (-80) ltac:(lra) ltac:(lra)) as (_ & E & _). rewrite E in P.
    destruct (C60_end_points colorous) as (_ & _ & _ & E1 & _). rewrite E1 in P. cbn [app map] in P. injection P as P1 P2 P3 P4. cbn [map]. rewrite P1, P2, P3. reflexivity.
  - rewrite C80_texel by lia. replace (nth ((h - 1 - 0) * w + 0) (1 :: repeat 0 (w * h - 1)) undef) with 0.
    + apply C80_floor; [lra|]. pose proof (exp_pos (-4)). lra.
    + set (i := ((h - 1 - 0) * w + 0)%nat). assert (Hi : (0 < i < w * h)%nat) by (unfold i; nia). clearbody i. destruct i as [|i]; [lia|]. cbn [nth].
      symmetry. rewrite (nth_indep _ undef 0) by (rewrite repeat_length; lia). apply nth_repeat.
Qed.
Print Assumptions C80_same_picture_refuted.
(* and the brightness alone: a lone bin at the position both paths share, 60 dB down, is visible on the
   canvas and black with WebGL *)
Theorem C80_same_brightness_refuted : forall (undef : R) (colorous : colormap -> R -> rgb), (forall m t, byte3 (colorous m t)) ->
  let mags := [1; / 1000] in
  let data := draw_canvas undef (fun mag max => w_color_from_magnitude_u8 colorous mag max (-80) WRainbow) mags 2 1 1 in
  map (byte_at data 2 1 0) [0; 1; 2]%nat = [0; 0; 255]%nat /\ gl_bytes (gl_pixel undef mags 2 1 1 1 0) = (0, 0, 0)%nat.
Proof.
  intros undef colorous Hb mags data. split.
  - destruct (@C79_canvas R undef (fun mag max => w_color_from_magnitude_u8 colorous mag max (-80) WRainbow) mags 2 1 1 (fun a b => w_color_bytes colorous a b _ _ Hb)) as [_ P].
    specialize (P 1%nat 0%nat ltac:(lia) ltac:(lia)). cbn [Nat.mul Nat.add nth mags] in P. unfold w_color_from_magnitude_u8 in P at 2. cbn [wcolor] in P.
    assert (EL : 20 * log10 (/ 1000 / 1) = -60).
    { unfold log10. replace (/ 1000 / 1) with (/ 10 ^ 3) by field. pose proof ln10_pos. rewrite ln_Rinv by (apply pow_lt; lra). rewrite <- Rpower_pow by lra. unfold Rpower. rewrite ln_exp. cbn [INR]. field. lra. }
    destruct (@C60_from_magnitude colorous Rainbow 1 (-80) ltac:(lra) ltac:(lra)) as (_ & _ & E). rewrite E in P by (rewrite ?EL; lra). rewrite EL in P. replace (1 + -60 / - -80) with (1 / 4) in P by field.
    destruct (C60_gradients colorous) as [_ G]. rewrite (G 0%nat _ _ _ _ eq_refl eq_refl) in P by lra.
    replace ((1 / 4 - 0) / (1 / 4 - 0)) with 1 in P by field. rewrite blend_1 in P. apply (f_equal (firstn 3)) in P. exact P.
  - rewrite C80_texel by lia. cbn [Nat.sub Nat.mul Nat.add nth mags]. apply C80_floor; [lra|].
    pose proof exp_m4. lra.
Qed.
Print Assumptions C80_same_brightness_refuted.
Close Scope R_scope.
(* WebGL is used whenever the browser has it *)
Theorem C80_preferred : forall (T : Type) (F : Float T) (X : FloatX T) (undef : T) webgl2 webgl gpu webgpu color mags w h (mx : T),
  (exists p, draw_spectrogram undef webgl2 webgl gpu webgpu color mags w h mx = ByWebGL p) <-> webgl2 = true \/ webgl = true.
Proof.
  intros. unfold draw_spectrogram. split.
  - intros [p H]. destruct webgl2; [left; reflexivity|]. destruct webgl; [right; reflexivity|]. cbn [orb] in H. destruct gpu; [destruct webgpu|]; discriminate H.
  - intros [-> | ->]; [|rewrite orb_true_r]; eexists; reflexivity.
Qed.
Print Assumptions C80_preferred.
Example C80_example : (0 < / 1000 < 1)%R /\ (1 < 2)%nat /\ (0 <= 9 / 10 <= 1)%R /\ gl_bytes (gl_rainbow (9 / 10)%R) = (255, 0, 0)%nat.
Proof.
  split; [lra|]. split; [lia|]. split; [lra|]. rewrite (C80_palette (fun _ _ => (0, 0, 0))) by lra. destruct (C60_gradients (fun _ _ => (0, 0, 0))) as [_ G].
  rewrite (G 4%nat _ _ _ _ eq_refl eq_refl) by lra. replace ((9 / 10 - 9 / 10) / (1 - 9 / 10))%R with 0%R by field. apply blend_0.
Qed.

(* ------------------------------------------------------------------ C81 *)
(* the command line: positional arguments, values given to --floor and values given to --palette, each
   in order; an option without a value at the very end does nothing *)
Inductive cmdline : list string -> list string -> list string -> list string -> Prop :=
| cl_nil : cmdline [] [] [] []
| cl_floor v a p f q : cmdline a p f q -> cmdline ("--floor"%string :: v :: a) p (v :: f) q
| cl_palette v a p f q : cmdline a p f q -> cmdline ("--palette"%string :: v :: a) p f (v :: q)
| cl_last o : o = "--floor"%string \/ o = "--palette"%string -> cmdline [o] [] [] []
| cl_file x a p f q : x <> "--floor"%string -> x <> "--palette"%string -> cmdline a p f q -> cmdline (x :: a) (x :: p) f q.
(* every command line reads in one way *)
Lemma cmdline_total n : forall args, length args <= n -> exists p f q, cmdline args p f q.
Proof.
  induction n as [|n IH]; intros args Hn.
  - destruct args; [|cbn in Hn; lia]. exists [], [], []. constructor.
  - destruct args as [|a args]; [exists [], [], []; constructor|]. cbn [length] in Hn.
    destruct (String.eqb_spec a "--floor") as [->|N1].
    { destruct args as [|v args]; [exists [], [], []; apply cl_last; left; reflexivity|]. cbn [length] in Hn. destruct (IH args ltac:(lia)) as (p & f & q & H). exists p, (v :: f), q. constructor. exact H. }
    destruct (String.eqb_spec a "--palette") as [->|N2].
    { destruct args as [|v args]; [exists [], [], []; apply cl_last; right; reflexivity|]. cbn [length] in Hn. destruct (IH args ltac:(lia)) as (p & f & q & H). exists p, f, (v :: q). constructor. exact H. }
    destruct (IH args ltac:(lia)) as (p & f & q & H). exists (a :: p), f, q. constructor; assumption.
Qed.
(* the last value that is a number wins *)
Definition last_number {T} (parse_f32 : string -> option T) (vs : list string) (d : T) : T :=
  last (flat_map (fun v => match parse_f32 v with Some x => [x] | None => [] end) vs) d.
Definition last_palette (vs : list string) (d : colormap) : colormap := last (map parse vs) d.
Lemma last_cons {A} (l : list A) : forall a d, last (a :: l) d = last l a.
Proof. induction l as [|b l IH]; intros a d; [reflexivity|]. change (last (a :: b :: l) d) with (last (b :: l) d). rewrite !IH. reflexivity. Qed.
Section Args.
Context {T : Type} {F : Float T} {X : FloatX T} (parse_f32 : string -> option T).
Lemma last_number_cons v vs (d : T) : last_number parse_f32 (v :: vs) d = last_number parse_f32 vs (match parse_f32 v with Some x => x | None => d end).
Proof. unfold last_number. cbn [flat_map]. destruct (parse_f32 v) as [x|]; [cbn [app]; apply last_cons|reflexivity]. Qed.
Lemma loop_cmdline args pos fl pal : cmdline args pos fl pal -> forall s,
  arg_loop parse_f32 args s =
    match s_input s, s_output s, pos with
    | None, None, [] => Some (mkSet None None (last_number parse_f32 fl (s_floor s)) (last_palette pal (s_palette s)))
    | None, None, [i] => Some (mkSet (Some i) None (last_number parse_f32 fl (s_floor s)) (last_palette pal (s_palette s)))
    | None, None, [i; o] => Some (mkSet (Some i) (Some o) (last_number parse_f32 fl (s_floor s)) (last_palette pal (s_palette s)))
    | Some i, None, [] => Some (mkSet (Some i) None (last_number parse_f32 fl (s_floor s)) (last_palette pal (s_palette s)))
    | Some i, None, [o] => Some (mkSet (Some i) (Some o) (last_number parse_f32 fl (s_floor s)) (last_palette pal (s_palette s)))
    | Some i, Some o, [] => Some (mkSet (Some i) (Some o) (last_number parse_f32 fl (s_floor s)) (last_palette pal (s_palette s)))
    | None, Some o, _ => arg_loop parse_f32 args s
    | _, _, _ => None
    end.
Proof.
  induction 1 as [|v a p f q H IH|v a p f q H IH|o Ho|x a p f q N1 N2 H IH]; intros [[i|] [o'|] fl0 pal0]; try reflexivity;
    cbn [s_input s_output s_floor s_palette].
  all: try (cbn [arg_loop]; change (String.eqb "--floor" "--floor") with true; cbv iota; rewrite IH; cbn [s_input s_output s_floor s_palette]; rewrite ?last_number_cons; reflexivity).
  all: try (cbn [arg_loop]; change (String.eqb "--palette" "--floor") with false; change (String.eqb "--palette" "--palette") with true; cbv iota; rewrite IH; cbn [s_input s_output s_floor s_palette]; unfold last_palette; cbn [map]; rewrite ?last_cons; reflexivity).
  all: try (destruct Ho as [-> | ->]; reflexivity).
  all: cbn [arg_loop]; apply String.eqb_neq in N1, N2; rewrite N1, N2; cbn [s_input s_output s_floor s_palette]; try reflexivity.
  all: rewrite IH; cbn [s_input s_output s_floor s_palette]; destruct p as [|? [|? ?]]; reflexivity.
Qed.
End Args.
(* exactly two files: the options may stand anywhere, the last number given to --floor and the last
   palette win, -120 dB and fire are the defaults; otherwise the usage message *)
Theorem C81_arguments : forall (T : Type) (F : Float T) (X : FloatX T) (parse_f32 : string -> option T) (args : list string),
  exists pos fl pal, cmdline args pos fl pal /\
  example_args parse_f32 args =
    match pos with
    | [i; o] => Some (i, o, last_number parse_f32 fl (flit (-120)), last_palette pal Fire)
    | _ => None
    end.
Proof.
  intros T F X parse_f32 args. destruct (@cmdline_total _ args (le_n _)) as (pos & fl & pal & H). exists pos, fl, pal. split; [exact H|].
  unfold example_args. rewrite (loop_cmdline parse_f32 H). cbn [s_input s_output s_floor s_palette]. destruct pos as [|i [|o [|x pos]]]; reflexivity.
Qed.
Print Assumptions C81_arguments.
(* the reading is unique *)
Theorem C81_unambiguous : forall args p f q, cmdline args p f q -> forall p' f' q', cmdline args p' f' q' -> p = p' /\ f = f' /\ q = q'.
Proof.
  induction 1 as [|v a p f q H IH|v a p f q H IH|o Ho|x a p f q N1 N2 H IH]; intros p' f' q' H'; inversion H'; subst;
    try (exfalso; intuition congruence);
    repeat match goal with H1 : cmdline a _ _ _ |- _ => destruct (IH _ _ _ H1) as (? & ? & ?); clear H1 end; try (inversion H); subst; auto.
Qed.
Print Assumptions C81_unambiguous.
Section ExDraw.
Context {T : Type} {F : Float T} {X : FloatX T}.
Variable colorous : colormap -> T -> rgb.
Lemma ex_column_ok x mx fl m h : forall bins y img, length (ipx img) = iw img * ih img -> x < iw img -> ih img = h -> y + length bins <= h ->
  exists img', ex_column colorous h x y bins mx fl m img = Done img' /\ iw img' = iw img /\ ih img' = h /\ length (ipx img') = iw img * ih img /\
    (forall i, i < length bins -> pixel_at img' x (h - 1 - (y + i)) = color_from_magnitude_u8 colorous (nth i bins fzero) mx fl m) /\
    (forall u v, u < iw img -> v < h -> u <> x \/ h - 1 - v < y -> pixel_at img' u v = pixel_at img u v).
Proof.
  induction bins as [|b bins IH]; intros y img L Hx Hh Hy; cbn [ex_column length] in *.
  - exists img. split; [reflexivity|]. split; [reflexivity|]. split; [exact Hh|]. split; [exact L|]. split; [intros i Hi; lia|reflexivity].
  - cbv zeta. destruct (Nat.ltb_spec h (1 + y)); [lia|].
    destruct (@put_ok img x (h - 1 - y) (color_from_magnitude_u8 colorous b mx fl m) L Hx) as (i1 & E1 & W1 & H1 & L1 & P1); [lia|]. rewrite E1. cbn [bind].
    destruct (IH (S y) i1) as (i2 & E2 & W2 & H2 & L2 & P2 & Q2); [lia|lia|lia|lia|]. rewrite E2. exists i2. split; [reflexivity|]. split; [lia|]. split; [exact H2|]. split; [lia|]. split.
    + intros [|i] Hi; cbn [nth].
      * rewrite Nat.add_0_r. rewrite Q2 by lia. rewrite P1 by lia. rewrite !Nat.eqb_refl. reflexivity.
      * rewrite <- P2 by lia. do 2 f_equal. lia.
    + intros u v Hu Hv Hc. rewrite Q2 by lia. rewrite P1 by lia. destruct (Nat.eqb_spec u x), (Nat.eqb_spec v (h - 1 - y)); cbn [andb]; try reflexivity. lia.
Qed.
Lemma ex_frames_ok h mx fl m : forall mags, (forall fr, In fr mags -> length fr = h) ->
  forall x img, length (ipx img) = iw img * ih img -> ih img = h -> x + length mags <= iw img ->
  exists img', ex_frames colorous h x mags mx fl m img = Done img' /\ iw img' = iw img /\ ih img' = h /\ length (ipx img') = iw img * ih img /\
    (forall k y, k < length mags -> y < h -> pixel_at img' (x + k) (h - 1 - y) = color_from_magnitude_u8 colorous (nth y (nth k mags []) fzero) mx fl m) /\
    (forall u v, u < iw img -> v < h -> u < x -> pixel_at img' u v = pixel_at img u v).
Proof.
  induction mags as [|fr mags IH]; intros HF x img L Hi Hx; cbn [ex_frames length] in *.
  - exists img. split; [reflexivity|]. split; [reflexivity|]. split; [exact Hi|]. split; [exact L|]. split; [intros; lia|reflexivity].
  - pose proof (HF fr (or_introl eq_refl)) as F1.
    destruct (@ex_column_ok x mx fl m h fr 0 img L) as (i1 & E1 & W1 & H1 & L1 & P1 & Q1); [lia|exact Hi|lia|]. rewrite E1. cbn [bind].
    destruct (IH (fun f Hf => HF f (or_intror Hf)) (S x) i1) as (i2 & E2 & W2 & H2 & L2 & P2 & Q2); [lia|exact H1|lia|]. rewrite E2. exists i2. split; [reflexivity|]. split; [lia|]. split; [exact H2|]. split; [lia|]. split.
    + intros [|k] y Hk Hy; cbn [nth].
      * rewrite Nat.add_0_r. rewrite Q2 by lia. apply P1. lia.
      * rewrite <- P2 by lia. f_equal. lia.
    + intros u v Hu Hv Hc. rewrite Q2 by lia. apply Q1; lia.
Qed.
End ExDraw.
Lemma wav_samples_R zs : wav_samples (T := R) (map Some zs) = Some (map (fun z => IZR z / 32767)%R zs).
Proof.
  induction zs as [|z zs IH]; cbn [map wav_samples]; [reflexivity|]. rewrite IH. apply (f_equal Some). apply (f_equal2 cons); [|reflexivity].
  fr. unfold Q2R, inject_Z. cbn [Qnum Qden]. field.
Qed.
(* the saved picture: one column per frame, 512 rows with bin 0 at the bottom, each pixel the library's
   colour for the magnitude of that bin of the samples divided by 32767 *)
Lemma ex_image_gen (c : cfg) (colorous : colormap -> R -> rgb) sched (samples : list R) N n floor m K :
  0 < n -> 0 < N -> N / 2 = n -> (exists e, N = 2 ^ e) -> length samples <= K * n -> (forall k, k < K -> k * n < length samples) -> Permutation sched (seq 0 K) ->
  exists img mags mx, stft_magnitudes c sched samples N n = Done (Ok (mags, mx)) /\ ex_frames colorous n 0 mags mx floor m (img_new (length mags) n) = Done img /\
    iw img = K /\ ih img = n /\ length (ipx img) = K * n /\
    (forall x y, x < K -> y < n -> (frame_mag samples N n x y <= mx)%R) /\
    (mx = 0%R \/ exists x y, x < K /\ y < n /\ mx = frame_mag samples N n x y) /\
    forall x y, x < K -> y < n -> pixel_at img x (n - 1 - y) = color_from_magnitude_u8 colorous (frame_mag samples N n x y) mx floor m.
Proof.
  intros P0 P1 E2 Pe H1 H2 Hp.
  destruct (@C58_magnitudes c sched samples N n K P0 P1 (or_intror Pe) H1 H2 Hp) as (mx & E & M0 & M1 & M2). rewrite E2 in *.
  set (mags := tab K (fun k => tab n (frame_mag samples N n k))) in *. assert (Lm : length mags = K) by apply tab_length.
  destruct (@ex_frames_ok R RF RX colorous n mx floor m mags) with (x := 0) (img := img_new K n) as (img & Ei & W & Hi & L & P & _).
  { intros fr Hf. apply in_map_iff in Hf. destruct Hf as (k & <- & _). apply tab_length. } { cbn [img_new ipx iw ih]. apply repeat_length. } { reflexivity. } { cbn [img_new iw]. lia. }
  exists img, mags, mx. split; [exact E|]. rewrite Lm. split; [exact Ei|]. split; [exact W|]. split; [exact Hi|]. split; [exact L|]. split; [exact M1|]. split; [exact M2|].
  intros x y Hx Hy. rewrite Lm in P. specialize (P x y Hx Hy). rewrite Nat.add_0_l in P. rewrite P. unfold mags. rewrite nth_tab by exact Hx. change (@fzero R RF) with 0%R. rewrite nth_tab by exact Hy. reflexivity.
Qed.
Theorem C81_image : forall (c : cfg) (colorous : colormap -> R -> rgb) sched (zs : list Z) floor m K,
  length zs <= K * 512 -> (forall k, k < K -> k * 512 < length zs) -> Permutation sched (seq 0 K) ->
  let samples := map (fun z => IZR z / 32767)%R zs in
  exists img mx, example_image colorous c sched (map Some zs) floor m = Done (inl img) /\ iw img = K /\ ih img = 512 /\ length (ipx img) = K * 512 /\
    (forall x y, x < K -> y < 512 -> (frame_mag samples 1024 512 x y <= mx)%R) /\
    (mx = 0%R \/ exists x y, x < K /\ y < 512 /\ mx = frame_mag samples 1024 512 x y) /\
    forall x y, x < K -> y < 512 -> pixel_at img x (512 - 1 - y) = color_from_magnitude_u8 colorous (frame_mag samples 1024 512 x y) mx floor m.
Proof.
  intros c colorous sched zs floor m K H1 H2 Hp samples.
  assert (E2 : 1024 / 2 = 512) by (vm_compute; reflexivity). assert (P0 : 0 < 512) by (apply Nat.ltb_lt; reflexivity). assert (P1 : 0 < 1024) by (apply Nat.ltb_lt; reflexivity).
  assert (P2 : exists e, 1024 = 2 ^ e) by (exists 10; vm_compute; reflexivity). assert (LS : length samples = length zs) by apply map_length. rewrite <- LS in H1, H2.
  destruct (@ex_image_gen c colorous sched samples 1024 512 floor m K P0 P1 E2 P2 H1 H2 Hp) as (img & mags & mx & E & Ei & R).
  exists img, mx. split; [|exact R]. unfold example_image. rewrite wav_samples_R. fold samples. cbv zeta. rewrite E2, E. cbn [bind]. rewrite Ei. reflexivity.
Qed.
Print Assumptions C81_image.
(* a sample that cannot be read stops the program without a picture *)
Theorem C81_read_error : forall (T : Type) (F : Float T) (X : FloatX T) (c : cfg) (colorous : colormap -> T -> rgb) sched file (floor : T) m,
  In None file -> example_image colorous c sched file floor m = Done (inr ExRead).
Proof.
  intros T F X c colorous sched file floor m H. unfold example_image. replace (wav_samples file) with (@None (list T)); [reflexivity|].
  induction file as [|[z|] file IH]; cbn [wav_samples]; [destruct H| |reflexivity]. destruct H as [H|H]; [discriminate H|]. rewrite <- (IH H). reflexivity.
Qed.
Print Assumptions C81_read_error.
(* a third file name, or fewer than two, is answered by the usage message whatever the options *)
Example C81_example : cmdline ["in.wav"; "--floor"; "-60"; "out.png"; "--palette"; "viridis"; "--floor"]%string ["in.wav"; "out.png"]%string ["-60"]%string ["viridis"]%string /\
  last_number (fun s => if String.eqb s "-60" then Some 60 else None) ["abc"; "-60"; "x"]%string 7 = 60 /\ last_palette ["fire"; "Viridis"]%string Fire = Viridis /\
  length [1%Z; 2%Z] <= 1 * 512 /\ (forall k, k < 1 -> k * 512 < length [1%Z; 2%Z]).
Proof.
  split; [|split; [reflexivity|split; [reflexivity|split; [apply Nat.leb_le; reflexivity|intros k Hk; replace k with 0 by lia; cbn; lia]]]].
  apply cl_file; [discriminate|discriminate|]. apply cl_floor. apply cl_file; [discriminate|discriminate|]. apply cl_palette. apply cl_last. left. reflexivity.
Qed.

(* Properties C70, C71 and C72: the sanity-check program. *)
From Coq Require Import Reals Lra ZArith Lia Permutation String Ascii.
From Verif Require Import M_sanity L_case L_trig L_stft P_fft P_stft P_trig P_win P_spec.
Set Implicit Arguments.
Open Scope nat_scope.

(* ------------------------------------------------------------------ C70 *)
(* ch-channel audio delivered in any number of packets with resets in between: fs are the frames (one list
   of ch samples per point in time) up to the event e that ends the reading; every packet fits the buffer
   made for the first one *)
Inductive ends {T} : pevent T -> Prop := ends_eof : ends EvEof | ends_err : ends EvError | ends_dec : ends (EvPacket None).
Inductive delivers {T} (ch : nat) : option nat -> list (pevent T) -> list (list T) -> pevent T -> Prop :=
| dl_end cap e rest : ends e -> delivers ch cap (e :: rest) [] e
| dl_reset cap evs fs e : delivers ch cap evs fs e -> delivers ch cap (EvReset :: evs) fs e
| dl_packet cap room d frs evs fs e : d_ch d = ch -> d_frames d = length frs -> d_samples d = concat frs -> (forall fr, In fr frs -> length fr = ch) ->
    room = match cap with Some n => n | None => d_capacity d * ch end -> length frs * ch <= room ->
    delivers ch (Some room) evs fs e -> delivers ch cap (EvPacket (Some d) :: evs) (frs ++ fs) e.
(* one frame as a mono sample *)
Definition mono {T} {F : Float T} {X : FloatX T} (fr : list T) : T :=
  match fr with [a] => a | _ => fdiv (fold_left fadd fr fzero) (fas (length fr)) end.

Section Audio.
Context {T : Type} {F : Float T} {X : FloatX T}.
Lemma concat_length (ch : nat) (frs : list (list T)) : (forall fr, In fr frs -> length fr = ch) -> length (concat frs) = length frs * ch.
Proof.
  induction frs as [|fr frs IH]; intros H; [reflexivity|]. cbn [concat length Nat.mul]. rewrite app_length, IH by (intros; apply H; right; assumption).
  rewrite (H fr) by (left; reflexivity). reflexivity.
Qed.
Lemma chunks_concat (ch : nat) (frs : list (list T)) : 0 < ch -> (forall fr, In fr frs -> length fr = ch) -> forall fuel, length frs <= fuel -> chunks_fuel fuel ch (concat frs) = frs.
Proof.
  intros Hc. induction frs as [|fr frs IH]; intros H fuel Hf; [destruct fuel; reflexivity|]. destruct fuel as [|fuel]; [cbn in Hf; lia|].
  pose proof (H fr (or_introl eq_refl)) as Hfr. cbn [concat]. destruct fr as [|a fr]; [cbn in Hfr; lia|].
  change ((a :: fr) ++ concat frs) with (a :: (fr ++ concat frs)). cbn [chunks_fuel].
  change (a :: fr ++ concat frs) with ((a :: fr) ++ concat frs).
  rewrite firstn_app, skipn_app, Hfr, Nat.sub_diag. cbn [firstn skipn]. rewrite firstn_all2, skipn_all2 by lia. rewrite app_nil_r. cbn [app].
  f_equal. apply IH; [intros; apply H; right; assumption|cbn in Hf; lia].
Qed.
Lemma mono_1 (frs : list (list T)) : (forall fr, In fr frs -> length fr = 1) -> map mono frs = concat frs.
Proof.
  induction frs as [|fr frs IH]; intros H; [reflexivity|]. cbn [map concat]. rewrite IH by (intros; apply H; right; assumption).
  pose proof (H fr (or_introl eq_refl)) as Hf. destruct fr as [|a [|b fr]]; cbn in Hf; try lia. reflexivity.
Qed.
Lemma mono_n (ch : nat) (frs : list (list T)) : ch <> 1 -> (forall fr, In fr frs -> length fr = ch) -> map mono frs = map (mix ch) frs.
Proof.
  intros Hc H. apply map_ext_in. intros fr Hfr. specialize (H fr Hfr). destruct fr as [|a [|b fr]]; cbn [length] in H; try lia; unfold mono, mix; cbn [length]; rewrite H; reflexivity.
Qed.
Definition answer (e : pevent T) (s : list T) : list T + aerr :=
  match e with EvPacket _ => inr ADecode | EvError => inr APacket | _ => inl s end.
Lemma loop_ok ch cap evs fs e : 0 < ch -> delivers ch cap evs fs e -> forall pre, packet_loop ch evs cap pre = Done (answer e (pre ++ map mono fs)).
Proof.
  intros Hc H. induction H as [cap e rest He|cap evs fs e H IH|cap room d frs evs fs e H1 H2 H3 H4 H5 H6 H IH]; intros pre.
  - destruct He; cbn [packet_loop answer map]; rewrite ?app_nil_r; reflexivity.
  - cbn [packet_loop]. apply IH.
  - cbn [packet_loop]. unfold add_packet. rewrite H1, H2. rewrite <- H5. destruct (Nat.ltb_spec room (length frs * ch)); [lia|].
    unfold slice_to. rewrite H3, (@concat_length ch) by exact H4. rewrite Nat.leb_refl. cbn [bind]. rewrite firstn_all2 by (rewrite (@concat_length ch) by exact H4; lia).
    destruct (Nat.eqb_spec ch 1) as [e1|Hn].
    + cbn [bind]. rewrite IH, map_app, app_assoc. rewrite (@mono_1 frs) by (intros fr Hfr; rewrite (H4 fr Hfr); exact e1). reflexivity.
    + unfold chunks. destruct (Nat.eqb_spec ch 0); [lia|]. cbn [bind]. rewrite chunks_concat; [|exact Hc|exact H4|rewrite (@concat_length ch) by exact H4; nia].
      rewrite IH, map_app, app_assoc. rewrite (mono_n frs Hn H4). reflexivity.
Qed.
End Audio.
(* any float type: one mono sample per frame, in order, over packets and resets, cut to the declared number
   of frames; a decode or packet error is returned *)
Definition not_wav {T} (f : audio_file T) : Prop := forall e, a_ext f = Some e -> ~ same_text e "wav"%string.
Lemma not_wav_if {T} (f : audio_file T) : not_wav f -> match a_ext f with Some e => String.eqb (lower e) "wav" | None => false end = false.
Proof. intros H. destruct (a_ext f) as [e|] eqn:E; [|reflexivity]. apply String.eqb_neq. intros L. apply (H e E). apply lower_text. exact L. Qed.
Theorem C70_mixdown_any : forall (T : Type) (F : Float T) (X : FloatX T) (f : audio_file T) nf rate ch fs e,
  not_wav f -> a_open f = true -> a_probe f = Some (Some (mkTrack nf true (Some rate) (Some ch))) -> 0 < ch -> delivers ch None (a_events f) fs e ->
  read_audio f = Done (match e with
    | EvPacket _ => inr ADecode
    | EvError => inr APacket
    | _ => inl (match nf with Some n => firstn n (map mono fs) | None => map mono fs end, rate)
    end).
Proof.
  intros T F X f nf rate ch fs e Hw Ho Hp Hc Hd. unfold read_audio. rewrite (not_wav_if Hw), Ho, Hp. cbn [negb t_codec t_rate t_channels t_frames].
  rewrite (loop_ok Hc Hd). cbn [bind app]. destruct e; reflexivity.
Qed.
Print Assumptions C70_mixdown_any.
Open Scope R_scope.
(* exact arithmetic: the mean of the channels *)
Definition mean (fr : list R) : R := fold_right Rplus 0 fr / INR (length fr).
Lemma fold_left_sum (l : list R) : forall a, fold_left fadd l a = a + fold_right Rplus 0 l.
Proof. induction l as [|x l IH]; intros a; cbn [fold_left fold_right]; [lra|]. rewrite IH. fr. lra. Qed.
Lemma mono_R (fr : list R) : mono fr = mean fr.
Proof.
  unfold mono, mean. destruct fr as [|a [|b fr]]; [|cbn; field|]; rewrite fold_left_sum; fr; f_equal; lra.
Qed.
Theorem C70_mixdown : forall (f : audio_file R) nf rate ch fs,
  not_wav f -> a_open f = true -> a_probe f = Some (Some (mkTrack nf true (Some rate) (Some ch))) -> (0 < ch)%nat -> delivers ch None (a_events f) fs EvEof ->
  read_audio f = Done (inl (firstn (match nf with Some n => n | None => length fs end) (map mean fs), rate)).
Proof.
  intros f nf rate ch fs Hw Ho Hp Hc Hd. rewrite (@C70_mixdown_any R RF RX f nf rate ch fs EvEof) by assumption.
  rewrite (map_ext mono mean mono_R). destruct nf; [reflexivity|]. rewrite firstn_all2 by (rewrite map_length; lia). reflexivity.
Qed.
Print Assumptions C70_mixdown.
Close Scope R_scope.
(* what comes before the packets: each failure is reported, in this order *)
Theorem C70_setup_errors : forall (T : Type) (F : Float T) (X : FloatX T) (f : audio_file T), not_wav f ->
  (a_open f = false -> read_audio f = Done (inr AOpen)) /\
  (a_open f = true -> a_probe f = None -> read_audio f = Done (inr AProbe)) /\
  (a_open f = true -> a_probe f = Some None -> read_audio f = Done (inr ANoTrack)) /\
  (forall t, a_open f = true -> a_probe f = Some (Some t) ->
     (t_codec t = false -> read_audio f = Done (inr ACodec)) /\
     (t_codec t = true -> t_rate t = None -> read_audio f = Done (inr ANoRate)) /\
     (forall rate, t_codec t = true -> t_rate t = Some rate -> t_channels t = None -> read_audio f = Done (inr ANoChannels))).
Proof.
  intros T F X f Hw. unfold read_audio. rewrite (not_wav_if Hw). repeat match goal with |- _ /\ _ => split end.
  - intros ->. reflexivity.
  - intros -> ->. reflexivity.
  - intros -> ->. reflexivity.
  - intros t -> ->. cbn [negb]. split; [intros ->; reflexivity|]. split; [intros -> ->; reflexivity|]. intros rate -> -> ->. reflexivity.
Qed.
Print Assumptions C70_setup_errors.
(* it can panic: a track without channels, a track with more channels than the packets have, a packet
   longer than the buffer made for the first one *)
Theorem C70_never_panics_refuted : forall (T : Type) (F : Float T) (X : FloatX T) (f : audio_file T) nf rate ch d d' evs,
  not_wav f -> a_open f = true -> a_probe f = Some (Some (mkTrack nf true (Some rate) (Some ch))) -> d_frames d <= d_capacity d ->
  length (d_samples d) = d_frames d * d_ch d ->
  (ch = 0 -> a_events f = EvPacket (Some d) :: evs -> read_audio f = Panic) /\
  (d_ch d < ch -> 0 < d_frames d -> a_events f = EvPacket (Some d) :: evs -> read_audio f = Panic) /\
  (0 < ch -> d_ch d = ch -> d_ch d' = ch -> d_capacity d < d_frames d' -> a_events f = EvPacket (Some d) :: EvPacket (Some d') :: evs -> read_audio f = Panic).
Proof.
  intros T F X f nf rate ch d d' evs Hw Ho Hp Hcap Hlen. unfold read_audio. rewrite (not_wav_if Hw), Ho, Hp. cbn [negb t_codec t_rate t_channels].
  assert (C1 : (d_capacity d * d_ch d <? d_frames d * d_ch d) = false) by (apply Nat.ltb_ge, Nat.mul_le_mono_r; exact Hcap).
  split; [|split].
  - intros -> ->. cbn [packet_loop]. unfold add_packet. rewrite C1, Nat.mul_0_r. unfold slice_to. cbn [Nat.leb bind firstn Nat.eqb chunks]. reflexivity.
  - intros H1 H2 ->. cbn [packet_loop]. unfold add_packet. rewrite C1. unfold slice_to. rewrite Hlen. destruct (Nat.leb_spec (d_frames d * ch) (d_frames d * d_ch d)); [nia|reflexivity].
  - intros H0 H1 H2 H3 ->. cbn [packet_loop]. unfold add_packet at 1. rewrite C1. unfold slice_to at 1. rewrite Hlen, H1, Nat.leb_refl. cbn [bind].
    assert (C2 : (d_capacity d * ch <? d_frames d' * ch) = true) by (apply Nat.ltb_lt, Nat.mul_lt_mono_pos_r; assumption).
    destruct (Nat.eqb_spec ch 1) as [e1|]; [|unfold chunks at 1; destruct (Nat.eqb_spec ch 0); [lia|]]; cbn [bind packet_loop]; unfold add_packet; rewrite H2, C2; reflexivity.
Qed.
Print Assumptions C70_never_panics_refuted.
(* WAV files: the samples in file order, each divided by 32767; any read error is returned *)
Definition is_wav {T} (f : audio_file T) : Prop := exists e, a_ext f = Some e /\ same_text e "wav"%string.
Lemma is_wav_if {T} {F : Float T} {X : FloatX T} (f : audio_file T) : is_wav f -> read_audio f = read_wav f.
Proof. intros (e & E & H). apply lower_text in H. change (lower "wav") with "wav"%string in H. unfold read_audio. rewrite E, H. reflexivity. Qed.
Theorem C70_wav : forall (f : audio_file R) (vs : list (option Z)) rate, is_wav f -> a_wav f = Some (vs, rate) ->
  (forall zs, vs = map Some zs -> read_audio f = Done (inl (map (fun z => IZR z / 32767)%R zs, rate))) /\
  (In None vs -> read_audio f = Done (inr AWav)).
Proof.
  intros f vs rate Hf Hw. rewrite (is_wav_if Hf). unfold read_wav. rewrite Hw. split.
  - intros zs ->. assert (E : wav_samples (map Some zs) = Some (map (fun z => IZR z / 32767)%R zs)).
    { clear. induction zs as [|z zs IH]; cbn [map wav_samples]; [reflexivity|]. rewrite IH. apply (f_equal Some). apply (f_equal2 cons); [|reflexivity]. fr. unfold Q2R, inject_Z. cbn [Qnum Qden]. field. }
    rewrite E. reflexivity.
  - intros H. assert (E : wav_samples (T := R) vs = None).
    { clear - H. induction vs as [|[z|] vs IH]; cbn [wav_samples]; [destruct H| |reflexivity]. destruct H as [H|H]; [discriminate H|]. rewrite (IH H). reflexivity. }
    rewrite E. reflexivity.
Qed.
Print Assumptions C70_wav.
(* 16-bit samples other than -32768 give values in [-1, 1]; -32768 does not *)
Theorem C70_wav_range : forall z, (-32767 <= z <= 32767)%Z -> (-1 <= IZR z / 32767 <= 1)%R.
Proof. intros z [H1 H2]. apply IZR_le in H1, H2. lra. Qed.
Print Assumptions C70_wav_range.
Theorem C70_wav_range_refuted : exists (f : audio_file R) s rate, is_wav f /\ a_wav f = Some ([Some (-32768)%Z], rate) /\
  read_audio f = Done (inl ([s], rate)) /\ (s < -1)%R.
Proof.
  pose (f := mkFile (T := R) (Some "WAV"%string) (Some ([Some (-32768)%Z], 48)) true None []).
  exists f, (IZR (-32768) / 32767)%R, 48. assert (Hf : is_wav f) by (exists "WAV"%string; split; [reflexivity|apply lower_text; reflexivity]).
  split; [exact Hf|]. split; [reflexivity|]. split; [|lra].
  exact (proj1 (@C70_wav f [Some (-32768)%Z] 48 Hf eq_refl) [(-32768)%Z] eq_refl).
Qed.
Print Assumptions C70_wav_range_refuted.
(* WAV files are not mixed down: a stereo file of n frames gives 2 n samples, which are not the means *)
Theorem C70_wav_mono_refuted : forall (f : audio_file R) (frames : list (Z * Z)) rate, is_wav f ->
  a_wav f = Some (flat_map (fun '(l, r) => [Some l; Some r]) frames, rate) ->
  exists s, read_audio f = Done (inl (s, rate)) /\ length s = 2 * length frames /\
    forall k, k < length frames -> let '(l, r) := nth k frames (0, 0)%Z in (nth (2 * k) s 0 = IZR l / 32767 /\ nth (2 * k + 1) s 0 = IZR r / 32767)%R.
Proof.
  intros f frames rate Hf Hw. pose (zs := flat_map (fun '(l, r) => [l; r]) frames).
  assert (E : flat_map (fun '(l, r) => [Some l; Some r]) frames = map Some zs).
  { unfold zs. clear. induction frames as [|[l r] fs IH]; cbn [flat_map map app]; [reflexivity|]. rewrite IH. reflexivity. }
  rewrite E in Hw. exists (map (fun z => IZR z / 32767)%R zs). split; [exact (proj1 (@C70_wav f (map Some zs) rate Hf Hw) zs eq_refl)|]. rewrite map_length. unfold zs. clear. split.
  - induction frames as [|[l r] fs IH]; cbn [flat_map app length]; [reflexivity|]. rewrite IH. lia.
  - induction frames as [|[l r] fs IH]; intros k Hk; [cbn in Hk; lia|]. cbn [flat_map app map]. destruct k as [|k]; [cbn; auto|].
    cbn [length] in Hk. specialize (IH k ltac:(lia)). cbn [nth]. destruct (nth k fs (0, 0)%Z) as [u v]. destruct IH as [I1 I2].
    replace (2 * S k) with (S (S (2 * k))) by lia. replace (S (S (2 * k)) + 1) with (S (S (2 * k + 1))) by lia. cbn [nth]. auto.
Qed.
Print Assumptions C70_wav_mono_refuted.
Example C70_example : let d1 := mkDec 4 2 2 [1; 3; 5; 7]%R in let d2 := mkDec 4 1 2 [0; 2]%R in
  let f := mkFile (Some "flac"%string) None true (Some (Some (mkTrack (Some 2) true (Some 48) (Some 2)))) [EvPacket (Some d1); EvReset; EvPacket (Some d2); EvEof] in
  not_wav f /\ delivers 2 None (a_events f) [[1; 3]; [5; 7]; [0; 2]]%R EvEof /\ read_audio f = Done (inl ([2; 6]%R, 48)).
Proof.
  cbv zeta. assert (N : not_wav (mkFile (T := R) (Some "flac"%string) None true (Some (Some (mkTrack (Some 2) true (Some 48) (Some 2))))
     [EvPacket (Some (mkDec 4 2 2 [1; 3; 5; 7]%R)); EvReset; EvPacket (Some (mkDec 4 1 2 [0; 2]%R)); EvEof])).
  { intros e [= <-]. intros L. apply lower_text in L. discriminate L. }
  split; [exact N|]. match goal with |- ?A /\ _ => assert (D : A) end.
  { cbn [a_events]. apply (@dl_packet R 2 None 8 (mkDec 4 2 2 [1; 3; 5; 7]%R) [[1; 3]; [5; 7]]%R _ [[0; 2]]%R); try reflexivity; [intros fr Hf; cbn in Hf; intuition (subst fr; reflexivity)|cbn; lia|].
    apply dl_reset. apply (@dl_packet R 2 (Some 8) 8 (mkDec 4 1 2 [0; 2]%R) [[0; 2]]%R _ []); try reflexivity; [intros fr Hf; cbn in Hf; intuition (subst fr; reflexivity)|cbn; lia|].
    apply dl_end. constructor. }
  split; [exact D|]. rewrite (@C70_mixdown _ (Some 2) 48 2 [[1; 3]; [5; 7]; [0; 2]]%R N eq_refl eq_refl ltac:(lia) D). unfold mean. cbn [map firstn fold_right length INR].
  replace ((1 + (3 + 0)) / (1 + 1))%R with 2%R by lra. replace ((5 + (7 + 0)) / (1 + 1))%R with 6%R by lra. reflexivity.
Qed.

(* ------------------------------------------------------------------ C71 *)
(* the pixel in column x, row y (row 0 at the top) *)
Definition pixel_at (img : image) (x y : nat) : rgb := nth (y * iw img + x) (ipx img) (0, 0, 0).
Definition times257 (c : rgb) : rgb := let '(r, g, b) := c in (257 * r, 257 * g, 257 * b).
Section Draw.
Context {T : Type} {F : Float T} {X : FloatX T}.
Variable colorous : colormap -> T -> rgb.
Hypothesis Hcol : forall m t, byte3 (colorous m t).
Lemma put_ok img x y c : length (ipx img) = iw img * ih img -> x < iw img -> y < ih img ->
  exists img', put_pixel img x y c = Done img' /\ iw img' = iw img /\ ih img' = ih img /\ length (ipx img') = iw img * ih img /\
    forall u v, u < iw img -> v < ih img -> pixel_at img' u v = if (u =? x) && (v =? y) then c else pixel_at img u v.
Proof.
  intros L Hx Hy. unfold put_pixel. destruct (Nat.ltb_spec x (iw img)); [|lia]. destruct (Nat.ltb_spec y (ih img)); [|lia]. cbn [andb].
  rewrite set_ok by (rewrite L; nia). cbn [bind]. eexists. split; [reflexivity|]. cbn [iw ih ipx]. split; [reflexivity|]. split; [reflexivity|].
  rewrite upd_length. split; [exact L|]. intros u v Hu Hv. unfold pixel_at. cbn [iw ipx]. rewrite nth_upd by (rewrite L; nia).
  destruct (Nat.eqb_spec (v * iw img + u) (y * iw img + x)) as [E|N].
  - assert (v = y) by nia. assert (u = x) by nia. subst. rewrite !Nat.eqb_refl. reflexivity.
  - destruct (Nat.eqb_spec u x) as [->|]; [|reflexivity]. destruct (Nat.eqb_spec v y) as [->|]; [lia|reflexivity].
Qed.
Lemma u16_ok v mx fl m : color_from_magnitude_u16 colorous v mx fl m = Done (times257 (color_from_magnitude_u8 colorous v mx fl m)).
Proof.
  pose proof (@C60_from_magnitude_wide T F X colorous v mx fl m Hcol) as H. destruct (color_from_magnitude_u8 colorous v mx fl m) as [[r g] b]. exact H.
Qed.
Lemma column_ok x mx fl m h : forall bins y img, length (ipx img) = iw img * ih img -> x < iw img -> ih img = h -> y + length bins <= h ->
  exists img', draw_column colorous h x y bins mx fl m img = Done img' /\ iw img' = iw img /\ ih img' = h /\ length (ipx img') = iw img * ih img /\
    (forall i, i < length bins -> pixel_at img' x (h - 1 - (y + i)) = times257 (color_from_magnitude_u8 colorous (nth i bins fzero) mx fl m)) /\
    (forall u v, u < iw img -> v < h -> u <> x \/ h - 1 - v < y -> pixel_at img' u v = pixel_at img u v).
Proof.
  induction bins as [|b bins IH]; intros y img L Hx Hh Hy; cbn [draw_column length] in *.
  - exists img. split; [reflexivity|]. split; [reflexivity|]. split; [exact Hh|]. split; [exact L|]. split; [intros i Hi; lia|reflexivity].
  - rewrite u16_ok. cbn [bind]. destruct (Nat.ltb_spec h (1 + y)); [lia|].
    destruct (@put_ok img x (h - 1 - y) (times257 (color_from_magnitude_u8 colorous b mx fl m)) L Hx) as (i1 & E1 & W1 & H1 & L1 & P1); [lia|]. rewrite E1. cbn [bind].
    destruct (IH (S y) i1) as (i2 & E2 & W2 & H2 & L2 & P2 & Q2); [lia|lia|lia|lia|]. rewrite E2. exists i2. split; [reflexivity|]. split; [lia|]. split; [exact H2|]. split; [lia|]. split.
    + intros [|i] Hi; cbn [nth].
      * rewrite Nat.add_0_r. rewrite Q2 by lia. rewrite P1 by lia. rewrite !Nat.eqb_refl. reflexivity.
      * rewrite <- P2 by lia. do 2 f_equal. lia.
    + intros u v Hu Hv Hc. rewrite Q2 by lia. rewrite P1 by lia. destruct (Nat.eqb_spec u x), (Nat.eqb_spec v (h - 1 - y)); cbn [andb]; try reflexivity. lia.
Qed.
(* what a frame contributes: its values, or their averages on the logarithmic axis *)
Definition shown_bins (h : nat) (mode : scale_mode) (frame : list T) : exec (list T) :=
  match mode with Linear => Done frame | Log => log_scale_bins frame (h - 1) end.
Lemma frames_ok h mode mx fl m : 0 < h -> forall mags binss, Forall2 (fun fr bs => length fr = h /\ shown_bins h mode fr = Done bs /\ length bs = h) mags binss ->
  forall x img, length (ipx img) = iw img * ih img -> ih img = h -> x + length mags <= iw img ->
  exists img', draw_frames colorous h mode x mags mx fl m img = Done img' /\ iw img' = iw img /\ ih img' = h /\ length (ipx img') = iw img * ih img /\
    (forall k y, k < length mags -> y < h -> pixel_at img' (x + k) (h - 1 - y) = times257 (color_from_magnitude_u8 colorous (nth y (nth k binss []) fzero) mx fl m)) /\
    (forall u v, u < iw img -> v < h -> u < x -> pixel_at img' u v = pixel_at img u v).
Proof.
  intros Hh. induction 1 as [|fr bs mags binss (F1 & F2 & F3) HF IH]; intros x img L Hi Hx; cbn [draw_frames length] in *.
  - exists img. split; [reflexivity|]. split; [reflexivity|]. split; [exact Hi|]. split; [exact L|]. split; [intros; lia|reflexivity].
  - assert (E0 : match mode with Linear => Done fr | Log => fr0 <- slice_to fr h ;; (if h <? 1 then Panic else log_scale_bins fr0 (h - 1)) end = Done bs).
    { destruct mode; [exact F2|]. unfold slice_to. rewrite F1, Nat.leb_refl. cbn [bind]. rewrite firstn_all2 by lia. destruct (Nat.ltb_spec h 1); [lia|]. exact F2. }
    rewrite E0. cbn [bind]. destruct (@column_ok x mx fl m h bs 0 img L) as (i1 & E1 & W1 & H1 & L1 & P1 & Q1); [lia|exact Hi|lia|]. rewrite E1. cbn [bind].
    destruct (IH (S x) i1) as (i2 & E2 & W2 & H2 & L2 & P2 & Q2); [lia|exact H1|lia|]. rewrite E2. exists i2. split; [reflexivity|]. split; [lia|]. split; [exact H2|]. split; [lia|]. split.
    + intros [|k] y Hk Hy; cbn [nth].
      * rewrite Nat.add_0_r. rewrite Q2 by lia. apply P1. lia.
      * rewrite <- P2 by lia. f_equal. lia.
    + intros u v Hu Hv Hc. rewrite Q2 by lia. apply Q1; lia.
Qed.
End Draw.
(* writing outside the image stops the program; inside it changes that pixel and no other *)
Theorem C71_put_pixel : forall (img : image) x y c, length (ipx img) = iw img * ih img ->
  (x < iw img /\ y < ih img /\ exists img', put_pixel img x y c = Done img' /\ iw img' = iw img /\ ih img' = ih img /\ length (ipx img') = iw img * ih img /\
    forall u v, u < iw img -> v < ih img -> pixel_at img' u v = if (u =? x) && (v =? y) then c else pixel_at img u v)
  \/ ((iw img <= x \/ ih img <= y) /\ put_pixel img x y c = Panic).
Proof.
  intros img x y c L. destruct (Nat.ltb_spec x (iw img)) as [Hx|Hx]; [destruct (Nat.ltb_spec y (ih img)) as [Hy|Hy]|].
  - left. split; [exact Hx|]. split; [exact Hy|]. apply put_ok; assumption.
  - right. split; [right; exact Hy|]. unfold put_pixel. apply Nat.ltb_ge in Hy. rewrite Hy, andb_false_r. reflexivity.
  - right. split; [left; exact Hx|]. unfold put_pixel. apply Nat.ltb_ge in Hx. rewrite Hx. reflexivity.
Qed.
Print Assumptions C71_put_pixel.
Example C71_put_pixel_example : put_pixel (img_new 2 2) 3 0 (1, 2, 3) = Panic /\ put_pixel (img_new 2 2) 1 0 (1, 2, 3) = Done (mkImg 2 2 [(0, 0, 0); (1, 2, 3); (0, 0, 0); (0, 0, 0)]).
Proof. split; reflexivity. Qed.
(* the value drawn for frame x and row y counted from the bottom: the bin itself, or the average of the
   bins whose logarithmic position is y *)
Definition drawn (samples : list R) (win : nat) (mode : scale_mode) (x y : nat) : R :=
  let h := win / 2 in
  match mode with
  | Linear => frame_mag samples win h x y
  | Log => let bins := hits (h - 1) h y in
      if length bins =? 0 then 0%R else (fold_right Rplus 0 (map (frame_mag samples win h x) bins) / INR (length bins))%R
  end.
Theorem C71_image : forall (c : cfg) (colorous : colormap -> R -> rgb) sched (samples : list R) win mode range m K,
  2 <= win -> c_std c = true \/ (exists e, win = 2 ^ e) -> (forall m t, byte3 (colorous m t)) ->
  length samples <= K * (win / 2) -> (forall k, k < K -> k * (win / 2) < length samples) -> Permutation sched (seq 0 K) ->
  exists img mx, sanity_image colorous c sched samples win mode range m = Done (Ok img) /\
    iw img = K /\ ih img = win / 2 /\ length (ipx img) = K * (win / 2) /\
    (forall x y, x < K -> y < win / 2 -> (frame_mag samples win (win / 2) x y <= mx)%R) /\
    (mx = 0%R \/ exists x y, x < K /\ y < win / 2 /\ mx = frame_mag samples win (win / 2) x y) /\
    forall x y, x < K -> y < win / 2 ->
      pixel_at img x (win / 2 - 1 - y) = times257 (color_from_magnitude_u8 colorous (drawn samples win mode x y) mx (- range)%R m).
Proof.
  intros c colorous sched samples win mode range m K Hw Hc Hb H1 H2 Hp. set (h := win / 2) in *. assert (Hh : 0 < h) by (unfold h; lia).
  destruct (@C58_magnitudes c sched samples win h K Hh ltac:(lia) Hc H1 H2 Hp) as (mx & E & M0 & M1 & M2).
  set (mags := tab K (fun k => tab (win / 2) (frame_mag samples win h k))) in *.
  assert (Lm : length mags = K) by apply tab_length.
  set (binss := tab K (fun k => tab h (drawn samples win mode k))).
  assert (HF : Forall2 (fun fr bs => length fr = h /\ shown_bins h mode fr = Done bs /\ length bs = h) mags binss).
  { clear Hp E Lm. unfold mags, binss, tab. induction (seq 0 K) as [|k ks IH]; cbn [map]; [constructor|]. constructor; [|exact IH]. fold h. rewrite !map_length, seq_length. split; [reflexivity|]. split; [|reflexivity].
    unfold shown_bins. destruct mode; [reflexivity|]. rewrite C59_averages by (rewrite map_length, seq_length; lia). rewrite map_length, seq_length. replace (h - 1 + 1) with h by lia.
    f_equal. change (map (frame_mag samples win h k) (seq 0 h)) with (tab h (frame_mag samples win h k)). change (map (drawn samples win Log k) (seq 0 h)) with (tab h (drawn samples win Log k)).
    apply tab_ext. intros y Hy. cbv zeta. unfold drawn. fold h. cbv zeta. destruct (length (hits (h - 1) h y) =? 0); [reflexivity|]. do 2 f_equal. apply map_ext_in. intros b Hbn.
    apply nth_tab. unfold hits in Hbn. apply filter_In in Hbn. destruct Hbn as [Hbn _]. apply in_seq in Hbn. lia. }
  destruct (@frames_ok R RF RX colorous Hb h mode mx (- range)%R m Hh mags binss HF 0 (img_new K h)) as (img & Ei & W & Hi & L & P & _).
  { cbn [img_new ipx iw ih]. apply repeat_length. } { reflexivity. } { cbn [img_new iw]. lia. }
  exists img, mx. split.
  { unfold sanity_image. cbv zeta. fold h. rewrite E. cbn [bind]. rewrite Lm. change (fneg range) with (- range)%R. rewrite Ei. reflexivity. }
  split; [exact W|]. split; [exact Hi|]. split; [exact L|]. split; [exact M1|]. split; [exact M2|].
  intros x y Hx Hy. rewrite Lm in P. specialize (P x y Hx Hy). rewrite Nat.add_0_l in P. rewrite P. unfold binss. rewrite nth_tab by exact Hx. change (@fzero R RF) with 0%R. rewrite nth_tab by exact Hy. reflexivity.
Qed.
Print Assumptions C71_image.
(* window lengths 0 and 1 crash the program *)
Theorem C71_every_window_refuted : forall (T : Type) (F : Float T) (X : FloatX T) (c : cfg) (colorous : colormap -> T -> rgb) sched (samples : list T) win mode range m,
  win < 2 -> sanity_image colorous c sched samples win mode range m = Panic.
Proof. intros T F X c colorous sched samples win mode range m Hw. unfold sanity_image. destruct win as [|[|win]]; [reflexivity|reflexivity|lia]. Qed.
Print Assumptions C71_every_window_refuted.
Example C71_example : length [1; 2; 3]%R <= 2 * (4 / 2) /\ (forall k, k < 2 -> k * (4 / 2) < length [1; 2; 3]%R) /\ Permutation [1; 0] (seq 0 2) /\
  (forall (m : colormap) (t : R), byte3 (0, 1, 255)).
Proof. split; [cbn; lia|]. split; [intros k Hk; cbn [length]; change (4 / 2) with 2; lia|]. split; [apply perm_swap|]. intros. cbn. lia. Qed.

(* ------------------------------------------------------------------ C72 *)
Definition hex_value (a : ascii) : nat := let n := nat_of_ascii a in if n <? 58 then n - 48 else n - 87.
(* #rrggbb read back *)
Definition read_fill (s : string) : option rgb :=
  match s with
  | String a (String r1 (String r0 (String g1 (String g0 (String b1 (String b0 EmptyString)))))) =>
      if Ascii.eqb a "#" then Some (16 * hex_value r1 + hex_value r0, 16 * hex_value g1 + hex_value g0, 16 * hex_value b1 + hex_value b0) else None
  | _ => None
  end.
Definition u16_pixel (c : rgb) : Prop := let '(r, g, b) := c in r < 256 * 256 /\ g < 256 * 256 /\ b < 256 * 256.
Lemma hex02_ok n : n < 256 -> hex02 n = String (hex_digit (n / 16)) (String (hex_digit (n mod 16)) EmptyString).
Proof.
  intros H. assert (G : forallb (fun n => String.eqb (hex02 n) (String (hex_digit (n / 16)) (String (hex_digit (n mod 16)) EmptyString))) (seq 0 256) = true) by (vm_compute; reflexivity).
  rewrite forallb_forall in G. apply String.eqb_eq. apply G. apply in_seq. lia.
Qed.
Lemma hex_value_digit n : n < 16 -> hex_value (hex_digit n) = n.
Proof. intros H. do 16 (destruct n as [|n]; [reflexivity|]). lia. Qed.
Lemma for_append {A} n (f : nat -> exec A) (g : nat -> A) (a : list A) : (forall i, i < n -> f i = Done (g i)) ->
  for_range 0 n (fun i out => v <- f i ;; Done (out ++ [v])) a = Done (a ++ tab n g).
Proof.
  intros H. destruct (@for_inv (list A) (fun k o => o = a ++ tab k g) (fun i out => v <- f i ;; Done (out ++ [v])) 0 n a) as (o & E & ->); [lia|cbn; rewrite app_nil_r; reflexivity| |exact E].
  intros i o Hi ->. rewrite H by lia. cbn [bind]. eexists. split; [reflexivity|]. unfold tab. rewrite seq_S, map_app, app_assoc. reflexivity.
Qed.
Lemma nth_seq_map {A} n k (f : nat -> A) i d : i < n -> nth i (map f (seq k n)) d = f (k + i).
Proof. intros H. rewrite (nth_indep _ _ (f 0)) by (rewrite map_length, seq_length; exact H). rewrite map_nth, seq_nth by exact H. reflexivity. Qed.
Lemma by_rows {A} (img : image) (g : nat -> nat -> rgb -> A) : length (ipx img) = iw img * ih img ->
  for_range 0 (ih img) (fun y out => for_range 0 (iw img) (fun x out => p <- get_pixel img x y ;; Done (out ++ [g x y p])) out) [] =
  Done (tab (ih img * iw img) (fun i => g (i mod iw img) (i / iw img) (pixel_at img (i mod iw img) (i / iw img)))).
Proof.
  intros L. destruct (@for_inv (list A) (fun k o => o = tab (k * iw img) (fun i => g (i mod iw img) (i / iw img) (pixel_at img (i mod iw img) (i / iw img))))
     (fun y out => for_range 0 (iw img) (fun x out => p <- get_pixel img x y ;; Done (out ++ [g x y p])) out) 0 (ih img) []) as (o & E & ->); [lia|reflexivity| |exact E].
  intros y o Hy ->. eexists. split.
  - assert (R : forall w a, w <= iw img -> for_range 0 w (fun x out => p <- get_pixel img x y ;; Done (out ++ [g x y p])) a = Done (a ++ tab w (fun x => g x y (pixel_at img x y)))).
    { intros w a Hw. destruct (@for_inv (list A) (fun k o => o = a ++ tab k (fun x => g x y (pixel_at img x y))) (fun x out => p <- get_pixel img x y ;; Done (out ++ [g x y p])) 0 w a) as (o & E & ->); [lia|cbn; rewrite app_nil_r; reflexivity| |exact E].
      intros x o Hx ->. unfold get_pixel. destruct (Nat.ltb_spec x (iw img)); [|lia]. destruct (Nat.ltb_spec y (ih img)); [|lia]. cbn [andb].
      rewrite (@get_nth _ (ipx img) _ (0, 0, 0)) by (rewrite L; nia). cbn [bind]. eexists. split; [reflexivity|]. unfold tab. rewrite seq_S, map_app, app_assoc. reflexivity. }
    apply R. lia.
  - rewrite Nat.mul_succ_l. unfold tab at 3. rewrite seq_app, map_app. f_equal. rewrite Nat.add_0_l. unfold tab.
    apply list_ext with (d := g 0 0 (0, 0, 0)); [rewrite !map_length, !seq_length; reflexivity|]. rewrite map_length, seq_length. intros i Hi.
    rewrite (@nth_seq_map _ (iw img) 0 (fun x => g x y (pixel_at img x y)) i _ Hi).
    rewrite (@nth_seq_map _ (iw img) (y * iw img) (fun i => g (i mod iw img) (i / iw img) (pixel_at img (i mod iw img) (i / iw img))) i _ Hi). cbn beta. rewrite Nat.add_0_l.
    replace ((y * iw img + i) mod iw img) with i by (rewrite Nat.add_comm, Nat.mod_add, Nat.mod_small; lia).
    replace ((y * iw img + i) / iw img) with y by (rewrite Nat.add_comm, Nat.div_add, Nat.div_small; lia). reflexivity.
Qed.
(* the 8-bit PNG is the high byte of every sample, the 16-bit PNG every sample; on the program's own image
   the 8-bit samples are exactly the 8-bit colours *)
Theorem C72_png : forall img : image, length (ipx img) = iw img * ih img ->
  png_samples img Eight = Done (map (fun '(r, g, b) => (r / 256, g / 256, b / 256)) (ipx img)) /\ png_samples img Sixteen = Done (ipx img) /\
  forall cs, Forall (fun '(r, g, b) => r <= 255 /\ g <= 255 /\ b <= 255) cs -> ipx img = map times257 cs -> png_samples img Eight = Done cs.
Proof.
  intros img L.
  assert (E : png_samples img Eight = Done (map (fun '(r, g, b) => (r / 256, g / 256, b / 256)) (ipx img))).
  { cbn [png_samples]. rewrite (@by_rows _ img (fun _ _ p => high3 p) L). f_equal. apply list_ext with (d := (0, 0, 0)); [rewrite tab_length, map_length, Nat.mul_comm; symmetry; exact L|].
    rewrite tab_length. intros i Hi. rewrite nth_tab by exact Hi. unfold pixel_at. assert (iw img <> 0) by nia.
    replace (i / iw img * iw img + i mod iw img) with i by (rewrite Nat.mul_comm; apply Nat.div_mod; assumption).
    change (0, 0, 0) with ((fun '(r, g, b) => (r / 256, g / 256, b / 256)) (0, 0, 0)) at 2. rewrite map_nth. reflexivity. }
  split; [exact E|]. split; [reflexivity|]. intros cs Hc Hi. rewrite E, Hi, map_map. f_equal. rewrite <- (map_id cs) at 2. apply map_ext_in. intros [[r g] b] Hin.
  rewrite Forall_forall in Hc. specialize (Hc _ Hin). cbn in Hc. cbn [times257]. f_equal; [f_equal|]; lia.
Qed.
Print Assumptions C72_png.
(* the SVG has one rectangle per pixel, row after row, whose fill reads back as the pixel's 8-bit colour *)
Theorem C72_svg : forall img : image, length (ipx img) = iw img * ih img ->
  exists rects, svg_rects img = Done rects /\ length rects = iw img * ih img /\
    forall x y, x < iw img -> y < ih img -> exists s, nth_error rects (y * iw img + x) = Some (x, y, s) /\
      (u16_pixel (pixel_at img x y) -> let '(r, g, b) := pixel_at img x y in read_fill s = Some (r / 256, g / 256, b / 256)).
Proof.
  intros img L. unfold svg_rects. eexists. split; [apply (@by_rows _ img (fun x y p => (x, y, M_sanity.fill p)) L)|]. split; [rewrite tab_length; lia|].
  intros x y Hx Hy. exists (M_sanity.fill (pixel_at img x y)). split.
  - rewrite (nth_error_nth' _ (0, 0, EmptyString)) by (rewrite tab_length; nia). rewrite nth_tab by nia.
    replace ((y * iw img + x) mod iw img) with x by (rewrite Nat.add_comm, Nat.mod_add, Nat.mod_small; lia).
    replace ((y * iw img + x) / iw img) with y by (rewrite Nat.add_comm, Nat.div_add, Nat.div_small; lia). reflexivity.
  - destruct (pixel_at img x y) as [[r g] b]. intros (H1 & H2 & H3). unfold M_sanity.fill, high. rewrite !hex02_ok by (apply Nat.div_lt_upper_bound; lia).
    cbn [String.append read_fill]. rewrite Ascii.eqb_refl. rewrite !hex_value_digit by (try (apply Nat.mod_upper_bound; lia); repeat (apply Nat.div_lt_upper_bound; [lia|]); lia).
    rewrite <- !Nat.div_mod by lia. reflexivity.
Qed.
Print Assumptions C72_svg.
Example C72_example : png_samples (mkImg 2 1 [(257, 514, 0); (0, 256, 511)]) Eight = Done [(1, 2, 0); (0, 1, 1)] /\
  svg_rects (mkImg 1 1 [(10 * 257, 255 * 257, 0)]) = Done [(0, 0, "#0aff00"%string)].
Proof. split; vm_compute; reflexivity. Qed.

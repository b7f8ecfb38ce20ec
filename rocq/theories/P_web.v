(* Properties C68 and C69: the streaming spectrogram of the web page and its wrappers. *)
From Coq Require Import Reals Lra ZArith Lia Permutation String.
From Verif Require Import M_web L_trig L_stft P_stft P_trig P_det P_entry P_layout P_spec P_win L_wave.
Set Implicit Arguments.
Open Scope nat_scope.

(* ------------------------------------------------------------------ C68 *)
(* The specification keeps the whole stream of samples received since the last reset. *)
Section Page.
Context {T : Type} {F : Float T} {X : FloatX T}.
Variable colorous : colormap -> T -> nat * nat * nat.
(* magnitude of bin y of the windowed frame that starts at a sample of the stream *)
Variable mag : list T -> nat -> nat -> T.
Variable quiet : T.
Record page := mkPage { stream : list T; shown : nat; loudest : T; palette : colormap }.
Definition blank : page := mkPage [] 0 quiet Rainbow.
Definition louder (a b : T) : T := if fltb a b then b else a.
(* the loudest magnitude met up to and including bin y of the row being drawn *)
Definition loud_to (pg : page) (y : nat) : T :=
  fold_left louder (map (mag (stream pg) (512 * shown pg)) (seq 0 (y + 1))) (loudest pg).
Definition pixel (pg : page) (y : nat) : list nat :=
  let '(r, g, b) := color_from_magnitude_u8 colorous (mag (stream pg) (512 * shown pg) y) (loud_to pg y) (flit (-80)) (palette pg) in [r; g; b; 255].
Definition page_call (pg : page) (k : wcall T) : page * list nat :=
  match k with
  | CFrame v =>
      let pg := mkPage (stream pg ++ v) (shown pg) (loudest pg) (palette pg) in
      if 512 * shown pg + 1024 <=? length (stream pg)
      then (mkPage (stream pg) (shown pg + 1) (loud_to pg 511) (palette pg), flat_map (pixel pg) (seq 0 512))
      else (pg, [])
  | CMap n => (mkPage (stream pg) (shown pg) (loudest pg) (parse n), [])
  | CReset => (blank, [])
  end.
Fixpoint page_run (pg : page) (ks : list (wcall T)) : page * list (list nat) :=
  match ks with
  | [] => (pg, [])
  | k :: ks => let '(pg, row) := page_call pg k in let '(pg, rows) := page_run pg ks in (pg, row :: rows)
  end.
End Page.

Lemma skipn_add {A} (l : list A) : forall a b, skipn a (skipn b l) = skipn (b + a) l.
Proof. induction l as [|x l IH]; intros a [|b]; cbn [skipn Nat.add]; try reflexivity; [destruct a; reflexivity|apply IH]. Qed.
Lemma hop2 : HOP + HOP = WIN_LEN. Proof. reflexivity. Qed.
Lemma hop_half : WIN_LEN / 2 = HOP. Proof. reflexivity. Qed.
Lemma hop_pos : 0 < HOP. Proof. apply Nat.ltb_lt. reflexivity. Qed.
Lemma win_pow2 : is_pow2 WIN_LEN = true. Proof. vm_compute. reflexivity. Qed.
Global Opaque WIN_LEN HOP.

Section Any.
Context {T : Type} {F : Float T} {X : FloatX T} (c : cfg).
Variable colorous : colormap -> T -> nat * nat * nat.
(* the windowed frame of a stream *)
Definition web_frame (s : list T) (start : nat) : list (cx T) :=
  tab WIN_LEN (fun j => mkcx (fmul (nth (start + j) s fzero) (hann_at WIN_LEN j)) fzero).
Lemma row_loop_spec m (Z : nat -> cx T) mx : forall n row,
  row_loop colorous m (tab n Z) mx row =
    (row ++ flat_map (fun y => let '(r, g, b) := color_from_magnitude_u8 colorous (cmag (Z y))
               (fold_left louder (map (fun i => cmag (Z i)) (seq 0 (y + 1))) mx) (flit (-80)) m in [r; g; b; 255]) (seq 0 n),
     fold_left louder (map (fun i => cmag (Z i)) (seq 0 n)) mx).
Proof.
  assert (App : forall zs z mx row, row_loop colorous m (zs ++ [z]) mx row =
    let '(row', mx') := row_loop colorous m zs mx row in
    let mx'' := louder mx' (cmag z) in
    let '(r, g, b) := color_from_magnitude_u8 colorous (cmag z) mx'' (flit (-80)) m in (row' ++ [r; g; b; 255], mx'')).
  { clear. induction zs as [|z0 zs IH]; intros z mx row.
    - cbn [app row_loop]. fold (cmag z). fold (louder mx (cmag z)). destruct (color_from_magnitude_u8 _ _ _ _ _) as [[r g] b]. reflexivity.
    - cbn [app row_loop]. destruct (color_from_magnitude_u8 _ _ _ _ _) as [[r g] b]. apply IH. }
  induction n as [|n IH]; intros row.
  - cbn [seq map fold_left flat_map]. rewrite app_nil_r. reflexivity.
  - rewrite tab_S, App, IH. cbv zeta. rewrite seq_S, flat_map_app, map_app, fold_left_app. cbn [map fold_left flat_map Nat.add].
    rewrite app_nil_r. replace (n + 1) with (Datatypes.S n) by lia. rewrite seq_S, map_app, fold_left_app. cbn [map fold_left Nat.add].
    destruct (color_from_magnitude_u8 _ _ _ _ _) as [[r g] b]. rewrite <- app_assoc. reflexivity.
Qed.
Lemma box_steady simd : steady (box_fft c) (fft_fresh c) WIN_LEN (new_fft_impl (T := T) simd).
Proof.
  assert (Hw : 0 < WIN_LEN) by (pose proof hop2; pose proof hop_pos; lia).
  assert (H1 : WIN_LEN <> 1) by (pose proof hop2; lia).
  destruct simd as [w|].
  - exists (fun b => b = BoxSimd w). split; [reflexivity|]. intros b z -> Hz. exists (BoxSimd w). split; [|reflexivity].
    cbn [box_fft]. destruct (@C07_simd_other_lengths T F c w z) as (q & y & E1 & E2); [lia|].
    destruct (@fft_fresh_ok T F c z) as [p' E3]; [lia|right; rewrite Hz; apply win_pow2|].
    rewrite E3 in E1. injection E1 as _ <- Er. rewrite E2, <- Er. reflexivity.
  - destruct (@scalar_steady2 T F c WIN_LEN new_planner Hw (or_intror win_pow2) (upto_new c WIN_LEN)) as (P & HP & H).
    exists (fun b => exists p, b = BoxScalar p /\ P p). split; [exists new_planner; split; [reflexivity|exact HP]|].
    intros b z (p & -> & Hp) Hz. destruct (H p z Hp Hz) as [(p' & E & Hp') _]. exists (BoxScalar p'). split; [|exists p'; split; [reflexivity|exact Hp']].
    cbn [box_fft]. rewrite E. reflexivity.
Qed.
Definition fresh_mag0 (s : list T) (start y : nat) : T := cmag (nth y (fft_fresh c (web_frame s start)) (mkcx fzero fzero)).
Definition wquiet : T := flit (1 # 1000000000000).
(* the state and the specification's page agree *)
Definition agree (simd : option bool) (s : wstate T) (pg : page (T := T)) : Prop :=
  512 * shown pg <= length (stream pg) /\ ws_buf s = skipn (512 * shown pg) (stream pg) /\ ws_window s = hann WIN_LEN /\
  ws_cmap s = palette pg /\ ws_max s = loudest pg /\ steady (box_fft c) (fft_fresh c) WIN_LEN (ws_fft s).
Lemma hop512 : HOP = 512. Proof. reflexivity. Qed.
Lemma agree_call simd s pg k : agree simd s pg ->
  exists s', web_call c colorous simd s k = Done (s', snd (page_call colorous fresh_mag0 wquiet pg k)) /\ agree simd s' (fst (page_call colorous fresh_mag0 wquiet pg k)).
Proof.
  pose proof hop2 as H2. pose proof hop512 as H5. pose proof hop_half as Hh.
  assert (EW : 1024 = WIN_LEN) by reflexivity.
  intros (A1 & A2 & A3 & A4 & A5 & A6). destruct k as [v|nm|].
  - cbn [web_call]. unfold page_call. cbv zeta. cbn [stream shown loudest palette]. rewrite EW, <- H5 in *.
    unfold compute_frame. cbv zeta. rewrite A2.
    assert (EB : skipn (HOP * shown pg) (stream pg) ++ v = skipn (HOP * shown pg) (stream pg ++ v)).
    { rewrite skipn_app. replace (HOP * shown pg - length (stream pg)) with 0 by lia. reflexivity. }
    rewrite EB. rewrite skipn_length. set (S := stream pg ++ v) in *.
    assert (LS : length S = length (stream pg) + length v) by apply app_length.
    destruct (Nat.ltb_spec (length S - HOP * shown pg) WIN_LEN) as [Hl|Hl].
    + destruct (Nat.leb_spec (HOP * shown pg + WIN_LEN) (length S)); [lia|]. eexists. split; [reflexivity|].
      repeat (split; [cbn; try assumption|]); [lia|reflexivity|]. exact A6.
    + destruct (Nat.leb_spec (HOP * shown pg + WIN_LEN) (length S)); [|lia].
      assert (EF : zip_apply (fun _ '(v0, w) => mkcx (fmul v0 w) fzero) (repeat (mkcx fzero fzero) WIN_LEN)
                     (zip_with pair (skipn (HOP * shown pg) S) (ws_window s)) = web_frame S (HOP * shown pg)).
      { rewrite A3. assert (LH : length (hann (F := F) WIN_LEN) = WIN_LEN) by apply tab_length.
        apply list_ext with (d := mkcx fzero fzero); rewrite zip_apply_length, repeat_length; [unfold web_frame; rewrite tab_length; reflexivity|].
        intros i Hi. rewrite (@nth_zip_apply _ _ _ _ _ i _ (fzero, fzero)) by (rewrite repeat_length; exact Hi).
        rewrite zip_with_length, skipn_length, LH. destruct (Nat.ltb_spec i (Nat.min (length S - HOP * shown pg) WIN_LEN)); [|lia].
        rewrite (@nth_zip_with _ _ _ _ _ _ _ fzero fzero) by (rewrite ?skipn_length, ?LH; lia).
        unfold web_frame. rewrite nth_tab by exact Hi. rewrite nth_skipn. unfold hann. rewrite nth_tab by exact Hi. reflexivity. }
      rewrite EF. destruct A6 as (P & HP & HPs).
      assert (Lf : length (web_frame S (HOP * shown pg)) = WIN_LEN) by apply tab_length.
      destruct (HPs _ (web_frame S (HOP * shown pg)) HP Lf) as (b' & Eb & Hb'). rewrite Eb. cbn [bind].
      destruct (@fresh_length T F c (web_frame S (HOP * shown pg))) as [Ly _]; [lia|right; rewrite Lf; apply win_pow2|]. rewrite Lf in Ly.
      set (Y := fft_fresh c (web_frame S (HOP * shown pg))) in *.
      unfold slice_to. rewrite Ly, Hh. destruct (Nat.leb_spec HOP WIN_LEN); [|lia]. cbn [bind].
      assert (EY : firstn HOP Y = tab HOP (fun y => nth y Y (mkcx fzero fzero))).
      { rewrite (list_tab Y (mkcx fzero fzero)) at 1. rewrite Ly. apply firstn_tab. lia. }
      rewrite EY, row_loop_spec. unfold slice_from. rewrite skipn_length.
      destruct (Nat.leb_spec HOP (length S - HOP * shown pg)); [|lia]. cbn [bind].
      eexists. split.
      * cbn [snd]. rewrite A4, A5. cbn [app]. unfold pixel, loud_to. cbn [stream shown loudest palette]. rewrite <- H5. unfold fresh_mag0. fold Y. reflexivity.
      * cbn [fst]. unfold agree. cbn [ws_buf ws_window ws_cmap ws_max ws_fft stream shown loudest palette]. rewrite <- H5.
        split; [nia|]. split.
        { rewrite skipn_add. f_equal. nia. }
        split; [exact A3|]. split; [first [exact A4|reflexivity]|]. split.
        { unfold loud_to. cbn [stream shown loudest palette]. rewrite ?A5. replace (511 + 1) with HOP by (rewrite H5; reflexivity). rewrite <- H5. unfold fresh_mag0. fold Y. reflexivity. }
        exists P. split; [exact Hb'|exact HPs].
  - eexists. split; [reflexivity|]. repeat (split; [assumption|]). split; [reflexivity|]. split; assumption.
  - eexists. split; [reflexivity|]. split; [cbn; lia|]. repeat (split; [reflexivity|]). apply box_steady.
Qed.
Lemma agree_run simd ks : forall s pg, agree simd s pg ->
  exists s', web_run c colorous simd s ks = Done (s', snd (page_run colorous fresh_mag0 wquiet pg ks)) /\ agree simd s' (fst (page_run colorous fresh_mag0 wquiet pg ks)).
Proof.
  induction ks as [|k ks IH]; intros s pg H; cbn [web_run page_run]; [eexists; split; [reflexivity|exact H]|].
  destruct (agree_call k H) as (s1 & E1 & H1). rewrite E1. cbn [bind].
  destruct (page_call colorous fresh_mag0 wquiet pg k) as [pg1 row]. cbn [fst snd] in *.
  destruct (IH s1 pg1 H1) as (s2 & E2 & H2). rewrite E2. cbn [bind].
  destruct (page_run colorous fresh_mag0 wquiet pg1 ks) as [pg2 rows]. eexists. split; [reflexivity|exact H2].
Qed.
Lemma agree_new simd : agree simd (ws_new simd) (blank wquiet).
Proof. split; [cbn; lia|]. repeat (split; [reflexivity|]). apply box_steady. Qed.
End Any.

Section Ext.
Context {T : Type} {F : Float T} {X : FloatX T}.
Variable colorous : colormap -> T -> nat * nat * nat.
Variables (mag mag' : list T -> nat -> nat -> T) (q : T).
Hypothesis Hmag : forall s k y, y < 512 -> mag s k y = mag' s k y.
Lemma loud_ext pg y : y < 512 -> loud_to mag pg y = loud_to mag' pg y.
Proof. intros Hy. unfold loud_to. f_equal. apply map_ext_in. intros i Hi. apply in_seq in Hi. apply Hmag. lia. Qed.
Lemma page_call_ext pg k : page_call colorous mag q pg k = page_call colorous mag' q pg k.
Proof.
  destruct k as [v|n|]; [|reflexivity|reflexivity]. unfold page_call. cbv zeta. cbn [stream shown loudest palette].
  destruct (_ <=? _); [|reflexivity]. rewrite loud_ext by lia.
  assert (E : forall pg l, (forall y, In y l -> y < 512) -> flat_map (pixel colorous mag pg) l = flat_map (pixel colorous mag' pg) l).
  { intros pg0 l. induction l as [|y l IH]; intros Hl; cbn [flat_map]; [reflexivity|]. rewrite IH by (intros; apply Hl; right; assumption).
    unfold pixel at 1 3. rewrite loud_ext, Hmag by (apply Hl; left; reflexivity). reflexivity. }
  rewrite E; [reflexivity|]. intros y Hy. apply in_seq in Hy. lia.
Qed.
Lemma page_run_ext ks : forall pg, page_run colorous mag q pg ks = page_run colorous mag' q pg ks.
Proof. induction ks as [|k ks IH]; intros pg; cbn [page_run snd]; [reflexivity|]. rewrite page_call_ext. destruct (page_call _ _ _ _ _) as [pg1 row]. rewrite IH. reflexivity. Qed.
End Ext.

(* any float type: the bin magnitudes are those a fresh scalar object computes on that frame *)
Definition fresh_mag {T} {F : Float T} {X : FloatX T} (c : cfg) (s : list T) (start y : nat) : T :=
  match fft c new_planner (tab 1024 (fun j => mkcx (fmul (nth (start + j) s fzero) (hann_at 1024 j)) fzero)) with
  | Done (_, z, ROk) => let v := nth y z (mkcx fzero fzero) in fsqrt (fadd (fmul (re v) (re v)) (fmul (im v) (im v)))
  | _ => fzero
  end.
Lemma fresh_mag_eq {T} {F : Float T} {X : FloatX T} (c : cfg) s start y : fresh_mag c s start y = fresh_mag0 c s start y.
Proof.
  unfold fresh_mag, fresh_mag0. change (tab 1024 _) with (web_frame (F := F) s start).
  assert (L : length (web_frame (F := F) s start) = WIN_LEN) by apply tab_length.
  destruct (@fft_fresh_ok T F c (web_frame s start)) as [p' E]; [rewrite L; pose proof hop2; pose proof hop_pos; lia|right; rewrite L; apply win_pow2|].
  rewrite E. reflexivity.
Qed.
Theorem C68_stream_any : forall (T : Type) (F : Float T) (X : FloatX T) (c : cfg) (colorous : colormap -> T -> nat * nat * nat) (simd : option bool) (ks : list (wcall T)),
  exists s, web_run c colorous simd (ws_new simd) ks =
    Done (s, snd (page_run colorous (fresh_mag c) (flit (1 # 1000000000000)) (blank (flit (1 # 1000000000000))) ks)).
Proof.
  intros. destruct (agree_run colorous ks (agree_new c simd)) as (s & E & _). exists s. rewrite E.
  rewrite (@page_run_ext T F X colorous (fresh_mag0 c) (fresh_mag c)); [reflexivity|]. intros. symmetry. apply fresh_mag_eq.
Qed.
Print Assumptions C68_stream_any.

Open Scope R_scope.
(* exact arithmetic: magnitude of the DFT bin of the Hann-windowed samples start .. start+1023 *)
Definition bin_mag (s : list R) (start y : nat) : R :=
  let X := dft 1024 (fun j => RtoC (nth (start + j) s 0 * ((1 - cos (2 * PI * INR j / INR 1024)) / 2))) y in
  sqrt (re X * re X + im X * im X).
Lemma fresh_mag0_R c s start y : (y < 512)%nat -> fresh_mag0 (F := RF) (X := RX) c s start y = bin_mag s start y.
Proof.
  intros Hy. unfold fresh_mag0, bin_mag. assert (EW : 1024%nat = WIN_LEN) by reflexivity. rewrite EW.
  assert (L : length (web_frame (F := RF) s start) = WIN_LEN) by apply tab_length.
  assert (Hw : (0 < WIN_LEN)%nat) by (pose proof hop2; pose proof hop_pos; lia).
  assert (Hy' : (y < WIN_LEN)%nat) by (pose proof hop2; pose proof hop512; lia).
  rewrite fft_fresh_R by lia. unfold DFT. rewrite L, nth_tab by exact Hy'. unfold cmag. fr. cbn [fsqrt RX]. cbv zeta.
  match goal with |- sqrt (re ?a * re ?a + im ?a * im ?a) = sqrt (re ?b * re ?b + _) => assert (EA : a = b) end.
  { apply dft_ext. intros j Hj. unfold web_frame. rewrite at_tab by exact Hj. rewrite hann_R. unfold RtoC. fr. f_equal. field. }
  rewrite EA. reflexivity.
Qed.
Lemma flit_quiet : @flit R RF (1 # 1000000000000) = / 10 ^ 12.
Proof. change (flit (1 # 1000000000000)) with (Q2R (1 # 1000000000000)). unfold Q2R. cbn. lra. Qed.
Theorem C68_stream : forall (c : cfg) (colorous : colormap -> R -> nat * nat * nat) (simd : option bool) (ks : list (wcall R)),
  exists s, web_run c colorous simd (ws_new simd) ks = Done (s, snd (page_run colorous bin_mag (/ 10 ^ 12) (blank (/ 10 ^ 12)) ks)).
Proof.
  intros. destruct (agree_run colorous ks (agree_new (F := RF) c simd)) as (s & E & _). exists s. rewrite E.
  rewrite (@page_run_ext R RF RX colorous (fresh_mag0 c) bin_mag); [|intros; apply fresh_mag0_R; assumption].
  unfold wquiet. rewrite flit_quiet. reflexivity.
Qed.
Print Assumptions C68_stream.
Close Scope R_scope.

Section Page2.
Context {T : Type} {F : Float T} {X : FloatX T}.
Variable colorous : colormap -> T -> nat * nat * nat.
Lemma pixels_length (mag : list T -> nat -> nat -> T) pg l : length (flat_map (pixel colorous mag pg) l) = 4 * length l.
Proof.
  induction l as [|y l IH]; [reflexivity|]. cbn [flat_map length]. rewrite app_length, IH. unfold pixel.
  destruct (color_from_magnitude_u8 _ _ _ _ _) as [[r g] b]. cbn [length]. lia.
Qed.
Lemma pixels_alpha (mag : list T -> nat -> nat -> T) pg : forall l y, y < length l -> nth (4 * y + 3) (flat_map (pixel colorous mag pg) l) 0 = 255.
Proof.
  induction l as [|a l IH]; intros y Hy; cbn [length] in Hy; [lia|]. cbn [flat_map]. unfold pixel at 1.
  destruct (color_from_magnitude_u8 _ _ _ _ _) as [[r g] b]. destruct y as [|y]; [reflexivity|].
  replace (4 * Datatypes.S y + 3) with (4 + (4 * y + 3)) by lia. cbn [app nth Nat.add]. apply IH. lia.
Qed.
Lemma page_run_rows (mag : list T -> nat -> nat -> T) q ks : forall pg row, In row (snd (page_run colorous mag q pg ks)) ->
  row = [] \/ (length row = 4 * 512 /\ forall y, y < 512 -> nth (4 * y + 3) row 0 = 255).
Proof.
  induction ks as [|k ks IH]; intros pg row; cbn [page_run]; [intros []|].
  destruct (page_call colorous mag q pg k) as [pg1 row1] eqn:E. specialize (IH pg1 row). destruct (page_run colorous mag q pg1 ks) as [pg2 rows].
  cbn [snd] in *. intros [<-|Hr]; [|apply IH, Hr]. destruct k as [v|n|]; [|left; injection E as _ <-; reflexivity|left; injection E as _ <-; reflexivity].
  unfold page_call in E. cbv zeta in E. destruct (_ <=? _); apply (f_equal snd) in E; cbn [snd] in E; rewrite <- E; [right|left; reflexivity].
  split; [rewrite pixels_length, seq_length; reflexivity|]. intros y Hy. apply pixels_alpha. rewrite seq_length. exact Hy.
Qed.
Lemma call_stream (mag : list T -> nat -> nat -> T) q pg v : stream (fst (page_call colorous mag q pg (CFrame v))) = stream pg ++ v.
Proof. cbn [page_call]. destruct (_ <=? _); reflexivity. Qed.
Lemma call_shown (mag : list T -> nat -> nat -> T) q pg v : shown (fst (page_call colorous mag q pg (CFrame v))) =
  shown pg + (if 512 * shown pg + 1024 <=? length (stream pg ++ v) then 1 else 0).
Proof. cbn [page_call stream shown]. destruct (_ <=? _); cbn [fst shown]; lia. Qed.
Lemma run_fst (mag : list T -> nat -> nat -> T) q pg k ks : fst (page_run colorous mag q pg (k :: ks)) = fst (page_run colorous mag q (fst (page_call colorous mag q pg k)) ks).
Proof. cbn [page_run]. destruct (page_call colorous mag q pg k) as [pg1 row]. cbn [fst]. destruct (page_run colorous mag q pg1 ks). reflexivity. Qed.
End Page2.
(* every call returns nothing or one row of 512 opaque pixels, and no call panics *)
Theorem C68_rows : forall (T : Type) (F : Float T) (X : FloatX T) (c : cfg) (colorous : colormap -> T -> nat * nat * nat) (simd : option bool) (ks : list (wcall T)),
  exists s rows, web_run c colorous simd (ws_new simd) ks = Done (s, rows) /\ length rows = length ks /\
    forall row, In row rows -> row = [] \/ (length row = 4 * 512 /\ forall y, y < 512 -> nth (4 * y + 3) row 0 = 255).
Proof.
  intros. destruct (C68_stream_any F X c colorous simd ks) as [s E]. eexists s, _. split; [exact E|]. split.
  - generalize (blank (T := T) (flit (1 # 1000000000000))). induction ks as [|k ks IH] in |- *; intros pg; cbn [page_run snd]; [reflexivity|].
    destruct (page_call _ _ _ pg k) as [pg1 row]. specialize (IH pg1). destruct (page_run _ _ _ pg1 ks). cbn [snd length] in *. f_equal. exact IH.
  - intros row. apply page_run_rows.
Qed.
Print Assumptions C68_rows.
(* chunks of at most one hop: after every call less than a frame is waiting *)
Theorem C68_keeps_up : forall (T : Type) (F : Float T) (X : FloatX T) (c : cfg) (colorous : colormap -> T -> nat * nat * nat) (simd : option bool) (ks : list (wcall T)) s rows,
  (forall v, In (CFrame v) ks -> length v <= 512) -> web_run c colorous simd (ws_new simd) ks = Done (s, rows) -> length (ws_buf s) < 1024.
Proof.
  intros T F X c colorous simd ks s rows Hv E. destruct (agree_run colorous ks (agree_new c simd)) as (s' & E' & A). rewrite E' in E. injection E as <- _.
  destruct A as (A1 & A2 & _). rewrite A2, skipn_length.
  assert (G : forall ks (pg : page (T := T)), (forall v, In (CFrame v) ks -> length v <= 512) -> length (stream pg) < 512 * shown pg + 1024 ->
     length (stream (fst (page_run colorous (fresh_mag0 c) wquiet pg ks))) < 512 * shown (fst (page_run colorous (fresh_mag0 c) wquiet pg ks)) + 1024).
  { clear. induction ks as [|k ks IH]; intros pg Hv Hp; [exact Hp|]. rewrite run_fst. apply IH; [intros v H; apply Hv; right; exact H|].
    destruct k as [v|n|].
    - specialize (Hv v (or_introl eq_refl)). rewrite call_stream, call_shown, app_length.
      destruct (Nat.leb_spec (512 * shown pg + 1024) (length (stream pg) + length v)); lia.
    - exact Hp.
    - cbn [page_call fst blank stream shown length]. lia. }
  specialize (G ks (blank wquiet) Hv). cbn [blank stream shown length] in G. specialize (G ltac:(lia)). lia.
Qed.
Print Assumptions C68_keeps_up.
(* larger chunks: one row per call, so with 1024 new samples per call the buffer grows without bound *)
Theorem C68_keeps_up_refuted : forall (T : Type) (F : Float T) (X : FloatX T) (c : cfg) (colorous : colormap -> T -> nat * nat * nat) (simd : option bool) (v : list T) (n : nat),
  length v = 1024 ->
  exists s rows, web_run c colorous simd (ws_new simd) (repeat (CFrame v) n) = Done (s, rows) /\ length (ws_buf s) = 512 * n.
Proof.
  intros T F X c colorous simd v n Hv. destruct (agree_run colorous (repeat (CFrame v) n) (agree_new c simd)) as (s & E & A).
  exists s. eexists. split; [exact E|]. destruct A as (A1 & A2 & _). rewrite A2, skipn_length.
  assert (G : forall n (pg : page (T := T)), 512 * shown pg <= length (stream pg) -> let pg' := fst (page_run colorous (fresh_mag0 c) wquiet pg (repeat (CFrame v) n)) in
     shown pg' = shown pg + n /\ length (stream pg') = length (stream pg) + 1024 * n).
  { clear - Hv. induction n as [|n IH]; intros pg Hp; [cbn [repeat page_run fst]; split; lia|]. cbv zeta. cbn [repeat]. rewrite run_fst.
    destruct (IH (fst (page_call colorous (fresh_mag0 c) wquiet pg (CFrame v)))) as [I1 I2].
    - rewrite call_stream, call_shown, app_length. destruct (Nat.leb_spec (512 * shown pg + 1024) (length (stream pg) + length v)); lia.
    - cbv zeta in I1, I2. rewrite I1, I2, call_stream, call_shown, app_length. destruct (Nat.leb_spec (512 * shown pg + 1024) (length (stream pg) + length v)); lia. }
  destruct (G n (blank wquiet) ltac:(cbn [blank shown stream length]; lia)) as [G1 G2]. cbv zeta in G1, G2. rewrite G1, G2. cbn [blank shown stream length]. lia.
Qed.
Print Assumptions C68_keeps_up_refuted.
(* what follows a reset does not depend on what came before *)
Theorem C68_reset : forall (T : Type) (F : Float T) (X : FloatX T) (c : cfg) (colorous : colormap -> T -> nat * nat * nat) (simd : option bool) (s s1 : wstate T) ks1 rows1 ks2,
  web_run c colorous simd s ks1 = Done (s1, rows1) ->
  exists s2 rows2, web_run c colorous simd (ws_new simd) ks2 = Done (s2, rows2) /\
    web_run c colorous simd s (ks1 ++ CReset :: ks2) = Done (s2, rows1 ++ [] :: rows2).
Proof.
  intros T F X c colorous simd s s1 ks1. revert s. induction ks1 as [|k ks1 IH]; intros s rows1 ks2 E; cbn [web_run] in E.
  - injection E as <- <-. destruct (C68_stream_any F X c colorous simd ks2) as [s2 E2]. eexists s2, _. split; [exact E2|]. cbn [app web_run web_call bind]. rewrite E2. reflexivity.
  - destruct (web_call c colorous simd s k) as [[s0 row]| |] eqn:Ek; cbn [bind] in E; try discriminate E.
    destruct (web_run c colorous simd s0 ks1) as [[s' rows]| |] eqn:Er; cbn [bind] in E; try discriminate E. injection E as -> <-.
    destruct (IH s0 rows ks2 Er) as (s2 & rows2 & E1 & E2). exists s2, rows2. split; [exact E1|]. cbn [app web_run]. rewrite Ek. cbn [bind]. rewrite E2. reflexivity.
Qed.
Print Assumptions C68_reset.
(* reading the colours: a silent bin is drawn with the palette's first colour, a bin at least as
   loud as everything so far with the last one, others by their level in decibels below the loudest *)
Open Scope R_scope.
Lemma louder_R a b : louder (T := R) (X := RX) a b = Rmax a b.
Proof. unfold louder. cbn [fltb RX]. unfold Rmax. destruct (Rlt_dec a b), (Rle_dec a b); lra. Qed.
Lemma louder_ge l : forall a, a <= fold_left (louder (T := R) (X := RX)) l a.
Proof. induction l as [|x l IH]; intros a; cbn [fold_left]; [lra|]. eapply Rle_trans; [|apply IH]. rewrite louder_R. apply Rmax_l. Qed.
Lemma flit_m80 : @flit R RF (-80) = -80.
Proof. change (flit (-80)) with (Q2R (-80)). unfold Q2R. cbn. lra. Qed.
Theorem C68_colours : forall (colorous : colormap -> R -> nat * nat * nat) (pg : page) (y : nat), 0 < loudest pg ->
  let m := bin_mag (stream pg) (512 * shown pg) y in let top := loud_to bin_mag pg y in
  let rgba := fun t => let '(r, g, b) := map_color_u8 colorous t (palette pg) in [r; g; b; 255%nat] in
  loudest pg <= top /\ m <= top /\
  (m = 0 -> pixel colorous bin_mag pg y = rgba 0) /\
  (m = top -> pixel colorous bin_mag pg y = rgba 1) /\
  (0 < m -> -80 <= 20 * log10 (m / top) -> pixel colorous bin_mag pg y = rgba (1 + 20 * log10 (m / top) / 80)).
Proof.
  intros colorous pg y Hl m top rgba.
  assert (Ht : loudest pg <= top) by apply louder_ge.
  assert (Hm : m <= top).
  { unfold top, loud_to. replace (y + 1)%nat with (Datatypes.S y) by lia. rewrite seq_S, map_app, fold_left_app. cbn [map fold_left Nat.add].
    rewrite louder_R. apply Rmax_r. }
  split; [exact Ht|]. split; [exact Hm|].
  destruct (@C60_from_magnitude colorous (palette pg) top (-80) ltac:(lra) ltac:(lra)) as (G1 & G2 & G3).
  unfold pixel. rewrite flit_m80. fold m. fold top. split; [|split].
  - intros E. rewrite G1 by lra. reflexivity.
  - intros E. rewrite E at 1. rewrite G2. reflexivity.
  - intros H1 H2. rewrite G3 by assumption. replace (- -80) with 80 by lra. reflexivity.
Qed.
Print Assumptions C68_colours.
Close Scope R_scope.
Example C68_example : forall (c : cfg) colorous, exists s row, web_run (F := RF) (X := RX) c colorous None (ws_new None) [CFrame (repeat 1%R 1000); CFrame (repeat 2%R 24)] = Done (s, [[]; row]) /\ length row = 4 * 512.
Proof.
  intros c colorous. destruct (C68_stream c colorous None [CFrame (repeat 1%R 1000); CFrame (repeat 2%R 24)]) as [s E]. exists s. rewrite E.
  cbn [page_run]. unfold page_call at 1. cbv zeta. cbn [blank stream shown loudest palette app]. rewrite repeat_length.
  destruct (Nat.leb_spec (512 * 0 + 1024) 1000); [lia|].
  unfold page_call. cbv zeta. cbn [stream shown loudest palette]. rewrite app_length, !repeat_length.
  destruct (Nat.leb_spec (512 * 0 + 1024) (1000 + 24)); [|lia]. eexists. split; [cbn [snd]; reflexivity|]. rewrite pixels_length, seq_length. reflexivity.
Qed.
Example C68_keeps_up_example : (forall v : list R, In (CFrame v) [CFrame (repeat 1%R 512); CMap "fire"; CReset] -> length v <= 512) /\ length (repeat 1%R 1024) = 1024.
Proof. split; [|apply repeat_length]. intros v [H|[H|[H|[]]]]; try discriminate H. assert (E : v = repeat 1%R 512) by congruence. rewrite E, repeat_length. lia. Qed.

(* ------------------------------------------------------------------ C69 *)
Section Flat.
Context {T : Type}.
Lemma flatten_ok h (rows : list (list T)) : (forall r, In r rows -> length r = h) -> forall acc,
  fold_left (fun a frame => flat <- a ;; s <- slice_to frame h ;; Done (flat ++ s)) rows (Done acc) = Done (acc ++ concat rows).
Proof.
  induction rows as [|r rows IH]; intros H acc; cbn [fold_left concat]; [rewrite app_nil_r; reflexivity|].
  unfold slice_to. rewrite (H r (or_introl eq_refl)), Nat.leb_refl. cbn [bind].
  rewrite IH by (intros; apply H; right; assumption). rewrite <- (H r (or_introl eq_refl)), firstn_all, <- app_assoc. reflexivity.
Qed.
Lemma nth_concat h (d : T) : forall (rows : list (list T)) k y, (forall r, In r rows -> length r = h) -> k < length rows -> y < h ->
  nth (k * h + y) (concat rows) d = nth y (nth k rows []) d.
Proof.
  induction rows as [|r rows IH]; intros k y H Hk Hy; cbn [length] in Hk; [lia|]. cbn [concat]. pose proof (H r (or_introl eq_refl)) as Hr.
  destruct k as [|k]; [rewrite app_nth1 by (cbn; lia); reflexivity|]. rewrite app_nth2 by nia. cbn [nth].
  replace (Datatypes.S k * h + y - length r) with (k * h + y) by nia. apply IH; [intros; apply H; right; assumption|lia|exact Hy].
Qed.
Lemma concat_length_h h : forall rows : list (list T), (forall r, In r rows -> length r = h) -> length (concat rows) = length rows * h.
Proof. induction rows as [|r rows IH]; intros H; [reflexivity|]. cbn [concat length]. rewrite app_length, IH by (intros; apply H; right; assumption). rewrite (H r (or_introl eq_refl)). lia. Qed.
End Flat.
(* frames follow each other, bins within a frame are consecutive *)
Theorem C69_flat_magnitudes : forall (c : cfg) sched (samples : list R) win hop K,
  0 < hop -> 0 < win -> c_std c = true \/ (exists m, win = 2 ^ m) ->
  length samples <= K * hop -> (forall k, k < K -> k * hop < length samples) -> Permutation sched (seq 0 K) ->
  exists mags mx, w_stft_magnitudes c sched samples win hop = Done (Ok (mags, K, win / 2, mx)) /\ length mags = K * (win / 2) /\
    (forall k y, k < K -> y < win / 2 -> nth (k * (win / 2) + y) mags 0%R = frame_mag samples win hop k y) /\
    (forall v, In v mags -> (v <= mx)%R) /\ (mx = 0%R \/ In mx mags).
Proof.
  intros c sched samples win hop K Hh Hw Hc H1 H2 Hp. destruct (@C58_magnitudes c sched samples win hop K Hh Hw Hc H1 H2 Hp) as (mx & E & M0 & M1 & M2).
  set (rows := tab K (fun k => tab (win / 2) (frame_mag samples win hop k))) in *.
  assert (HL : forall r, In r rows -> length r = win / 2) by (intros r Hr; apply in_map_iff in Hr; destruct Hr as (k & <- & _); apply tab_length).
  assert (LR : length rows = K) by apply tab_length.
  exists (concat rows), mx. unfold w_stft_magnitudes. rewrite E. cbn [bind]. unfold flatten_rows. rewrite flatten_ok by exact HL. cbn [bind app]. rewrite LR.
  split; [reflexivity|]. split; [rewrite (concat_length_h rows HL), LR; reflexivity|].
  assert (N : forall k y, k < K -> y < win / 2 -> nth (k * (win / 2) + y) (concat rows) 0%R = frame_mag samples win hop k y).
  { intros k y Hk Hy. rewrite nth_concat by (assumption || lia). unfold rows. rewrite nth_tab by exact Hk. rewrite nth_tab by exact Hy. reflexivity. }
  split; [exact N|]. split.
  - intros v Hv. apply in_concat in Hv. destruct Hv as (r & Hr & Hv). apply in_map_iff in Hr. destruct Hr as (k & <- & Hk). apply in_map_iff in Hv. destruct Hv as (y & <- & Hy).
    apply in_seq in Hk, Hy. apply M1; lia.
  - destruct M2 as [M2|(k & y & Hk & Hy & ->)]; [left; exact M2|right]. rewrite <- (N k y Hk Hy). apply nth_In. rewrite (concat_length_h rows HL), LR. nia.
Qed.
Print Assumptions C69_flat_magnitudes.
(* the transform of the page: the DFT, or the two kinds of error, never a panic *)
Theorem C69_fft_split : forall (c : cfg) (re_ im_ : list R),
  (length re_ <> length im_ -> w_fft_split c re_ im_ = Done (inr WMismatch)) /\
  (length re_ = length im_ -> w_fft_split c re_ im_ =
     match expected c (length re_) with
     | ROk => let y := DFT (zipc re_ im_) in Done (inl (map re y, map im y))
     | RErr e => Done (inr (WFft e))
     end).
Proof.
  intros c re_ im_. unfold w_fft_split. split; intros H.
  - destruct (Nat.eqb_spec (length re_) (length im_)); [contradiction|reflexivity].
  - rewrite <- H, Nat.eqb_refl. cbn [negb]. set (x := zipc re_ im_).
    assert (Ex : map re x = re_ /\ map im x = im_ /\ length x = length re_).
    { unfold x, zipc. clear x. revert im_ H. induction re_ as [|a l IH]; intros [|b l'] H; try discriminate H; [repeat split; reflexivity|].
      cbn [zip_with map length re im]. injection H as H. destruct (IH l' H) as (-> & -> & ->). repeat split; reflexivity. }
    destruct Ex as (E1 & E2 & E3).
    destruct (@C12_fft_split R RF c [] new_planner x eq_refl) as (q & q' & y & Ef & Es); [intros k []|].
    rewrite E1, E2 in Es. rewrite Es. cbn [bind]. rewrite E3. destruct (expected c (length re_)) eqn:Ee; [|reflexivity].
    unfold expected in Ee. destruct (Nat.eqb_spec (length re_) 0) as [|Hn]; [discriminate Ee|].
    assert (D : y = DFT x); [|rewrite D; reflexivity].
    destruct (c_std c) eqn:Hs.
    + destruct (@C01_fft_is_dft c x Hs) as [p' Ep]; [lia|]. rewrite Ep in Ef. congruence.
    + destruct (is_pow2 (length re_)) eqn:Hp; [|discriminate Ee]. destruct (@C01_fft_is_dft_nostd c x) as [p' Ep]; [rewrite E3; exact Hp|]. rewrite Ep in Ef. congruence.
Qed.
Print Assumptions C69_fft_split.
(* the palette of the page names the library's palette, one for one, and the colour bytes are its *)
Theorem C69_palette : forall (T : Type) (F : Float T) (X : FloatX T) (colorous : colormap -> T -> nat * nat * nat),
  (forall a b, wcolor a = wcolor b -> a = b) /\ (forall m, exists a, wcolor a = m) /\
  (forall t a, exists r g b, w_map_color_u8 colorous t a = [r; g; b] /\ map_color_u8 colorous t (wcolor a) = (r, g, b)) /\
  (forall v mx fl a, exists r g b, w_color_from_magnitude_u8 colorous v mx fl a = [r; g; b] /\ color_from_magnitude_u8 colorous v mx fl (wcolor a) = (r, g, b)).
Proof.
  intros T F X colorous. split; [intros [] []; cbn; congruence|]. split.
  { intros []; [exists WFire|exists WLegacy|exists WGray|exists WViridis|exists WPlasma|exists WInferno|exists WRainbow]; reflexivity. }
  split; intros.
  - unfold w_map_color_u8. destruct (map_color_u8 colorous t (wcolor a)) as [[r g] b]. exists r, g, b. auto.
  - unfold w_color_from_magnitude_u8. destruct (color_from_magnitude_u8 colorous v mx fl (wcolor a)) as [[r g] b]. exists r, g, b. auto.
Qed.
Print Assumptions C69_palette.
Example C69_example : length [1; 2; 3]%R <= 2 * 2 /\ (forall k, k < 2 -> k * 2 < length [1; 2; 3]%R) /\ Permutation [1; 0] (seq 0 2) /\
  length [1; 2; 3]%R = length [0; 0; 1]%R /\ expected (cfg_std F32) 3 = ROk.
Proof. split; [cbn; lia|]. split; [intros k Hk; cbn [length]; lia|]. split; [apply perm_swap|]. split; reflexivity. Qed.

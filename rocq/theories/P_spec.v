(* Properties C58-C60: spectrogram helpers. *)
From Coq Require Import Reals Lra ZArith Lia Permutation String.
From Verif Require Import M_spec L_case L_trig L_stft P_stft P_trig P_det P_cep P_win.
Set Implicit Arguments.
Open Scope nat_scope.

(* ------------------------------------------------------------------ C58 *)
Section Mags.
Context {T : Type} {F : Float T} {X : FloatX T}.
Definition run_max (l : list T) (mx : T) : T := fold_left (fun mx v => if fltb mx v then v else mx) l mx.
Lemma mag_cells_spec : forall zs y row mx, y + length zs <= length row ->
  mag_cells y zs row mx = Done (firstn y row ++ map cmag zs ++ skipn (y + length zs) row, run_max (map cmag zs) mx).
Proof.
  induction zs as [|z zs IH]; intros y row mx H; cbn [mag_cells length map run_max fold_left app] in *.
  - rewrite Nat.add_0_r, firstn_skipn. reflexivity.
  - rewrite set_ok by lia. cbn [bind]. rewrite IH by (rewrite upd_length; lia). apply f_equal. apply (f_equal2 pair); [|reflexivity].
    apply list_ext with (d := fzero).
    + cbn [length app]. rewrite ?app_length. cbn [length]. rewrite ?app_length, ?firstn_length, ?map_length, ?skipn_length, ?upd_length. lia.
    + intros k Hk. destruct (Nat.lt_ge_cases k y) as [L|L].
      * rewrite !app_nth1 by (rewrite firstn_length, ?upd_length; lia). rewrite !nth_firstn by lia. rewrite nth_upd by lia.
        destruct (Nat.eqb_spec k y); [lia|reflexivity].
      * destruct (Nat.eq_dec k y) as [->|N].
        -- rewrite app_nth1 by (rewrite firstn_length, upd_length; lia). rewrite nth_firstn by lia. rewrite nth_upd by lia. rewrite Nat.eqb_refl.
           rewrite app_nth2 by (rewrite firstn_length; lia). rewrite firstn_length, Nat.min_l, Nat.sub_diag by lia. reflexivity.
        -- rewrite app_nth2 by (rewrite firstn_length, upd_length; lia). rewrite (app_nth2 (firstn y row)) by (rewrite firstn_length; lia).
           rewrite !firstn_length, upd_length, !Nat.min_l by lia. replace (k - y) with (Datatypes.S (k - Datatypes.S y)) by lia. cbn [app nth].
           destruct (Nat.lt_ge_cases (k - Datatypes.S y) (length zs)) as [Q|Q].
           ++ rewrite !app_nth1 by (rewrite map_length; lia). reflexivity.
           ++ rewrite !app_nth2 by (rewrite map_length; lia). rewrite !map_length, !nth_skipn. rewrite nth_upd by lia.
              destruct (Nat.eqb_spec (Datatypes.S y + length zs + (k - Datatypes.S y - length zs)) y); [lia|]. f_equal. lia.
Qed.
Lemma mag_rows_spec height : forall frames x mags mx, x + length frames <= length mags ->
  (forall f, In f frames -> height <= length f) -> (forall r, In r mags -> length r = height) ->
  mag_rows height x frames mags mx =
    Done (firstn x mags ++ map (fun f => map cmag (firstn height f)) frames ++ skipn (x + length frames) mags,
          run_max (concat (map (fun f => map cmag (firstn height f)) frames)) mx).
Proof.
  induction frames as [|f fs IH]; intros x mags mx H Hf Hr; cbn [mag_rows length map concat run_max fold_left app] in *.
  - rewrite Nat.add_0_r, firstn_skipn. reflexivity.
  - rewrite (@get_nth _ mags x []) by lia. cbn [bind].
    assert (Lr : length (nth x mags []) = height) by (apply Hr, nth_In; lia).
    assert (Lf : length (firstn height f) = height) by (rewrite firstn_length; specialize (Hf f (or_introl eq_refl)); lia).
    rewrite mag_cells_spec by lia. cbn [firstn app bind]. rewrite Lf, Nat.add_0_l, <- Lr, skipn_all, app_nil_r, Lr. cbn [bind].
    rewrite set_ok by lia. cbn [bind]. rewrite IH.
    + unfold run_max. rewrite fold_left_app. apply f_equal. apply (f_equal2 pair); [|reflexivity].
      set (v := map cmag (firstn height f)).
      apply list_ext with (d := []).
      * cbn [length app]. rewrite ?app_length. cbn [length]. rewrite ?app_length, ?firstn_length, ?map_length, ?skipn_length, ?upd_length. lia.
      * intros k Hk. destruct (Nat.lt_ge_cases k x) as [L|L].
        -- rewrite !app_nth1 by (rewrite firstn_length, ?upd_length; lia). rewrite !nth_firstn by lia. rewrite nth_upd by lia.
           destruct (Nat.eqb_spec k x); [lia|reflexivity].
        -- destruct (Nat.eq_dec k x) as [->|N].
           ++ rewrite app_nth1 by (rewrite firstn_length, upd_length; lia). rewrite nth_firstn by lia. rewrite nth_upd by lia. rewrite Nat.eqb_refl.
              rewrite app_nth2 by (rewrite firstn_length; lia). rewrite firstn_length, Nat.min_l, Nat.sub_diag by lia. reflexivity.
           ++ rewrite app_nth2 by (rewrite firstn_length, upd_length; lia). rewrite (app_nth2 (firstn x mags)) by (rewrite firstn_length; lia).
              rewrite !firstn_length, upd_length, !Nat.min_l by lia. replace (k - x) with (Datatypes.S (k - Datatypes.S x)) by lia. cbn [app nth].
              destruct (Nat.lt_ge_cases (k - Datatypes.S x) (length fs)) as [Q|Q].
              ** rewrite !app_nth1 by (rewrite map_length; lia). reflexivity.
              ** rewrite !app_nth2 by (rewrite map_length; lia). rewrite !map_length, !nth_skipn. rewrite nth_upd by lia.
                 destruct (Nat.eqb_spec (Datatypes.S x + length fs + (k - Datatypes.S x - length fs)) x); [lia|]. f_equal. lia.
    + rewrite upd_length. lia.
    + intros g Hg. apply Hf. right. exact Hg.
    + intros r Hin. destruct (In_nth _ _ [] Hin) as (k & Hk & <-). rewrite upd_length in Hk. rewrite nth_upd by lia.
      destruct (_ =? _); [rewrite map_length; exact Lf|apply Hr, nth_In; exact Hk].
Qed.
End Mags.
(* magnitude of bin y of the k-th Hann-windowed frame *)
Definition frame_mag (samples : list R) (win hop k y : nat) : R :=
  let X := dft win (fun j => RtoC ((1 - cos (2 * PI * INR j / INR win)) / 2 * nth (k * hop + j) samples 0)%R) y in
  sqrt (re X * re X + im X * im X)%R.
Lemma run_max_R : forall l mx, (forall v, In v l -> (v <= run_max l mx)%R) /\ (mx <= run_max l mx)%R /\ (run_max l mx = mx \/ In (run_max l mx) l).
Proof.
  unfold run_max. induction l as [|v l IH]; intros mx; cbn [fold_left].
  - split; [intros v []|]. split; [lra|left; reflexivity].
  - set (m := if fltb mx v then v else mx).
    destruct (IH m) as (H1 & H2 & H3). assert (Hm : (mx <= m /\ v <= m)%R /\ (m = mx \/ m = v)).
    { unfold m. cbn [fltb RX]. destruct (Rlt_dec mx v); split; auto; lra. }
    destruct Hm as [[Ha Hb] Hc]. split; [|split].
    + intros w [<-|Hw]; [lra|apply H1; exact Hw].
    + lra.
    + destruct H3 as [E|E]; [rewrite E; destruct Hc as [->| ->]; [left; reflexivity|right; left; reflexivity]|right; right; exact E].
Qed.
Theorem C58_magnitudes : forall (c : cfg) sched (samples : list R) win hop K,
  0 < hop -> 0 < win -> c_std c = true \/ (exists m, win = 2 ^ m) ->
  length samples <= K * hop -> (forall k, k < K -> k * hop < length samples) -> Permutation sched (seq 0 K) ->
  exists mx, stft_magnitudes c sched samples win hop =
      Done (Ok (tab K (fun k => tab (win / 2) (frame_mag samples win hop k)), mx)) /\
    (0 <= mx)%R /\ (forall k y, k < K -> y < win / 2 -> (frame_mag samples win hop k y <= mx)%R) /\
    (mx = 0%R \/ exists k y, k < K /\ y < win / 2 /\ mx = frame_mag samples win hop k y).
Proof.
  intros c sched samples win hop K Hh Hw Hc HK1 HK2 Hs.
  assert (EK : (length samples + hop - 1) / hop = K).
  { destruct K as [|K].
    - assert (length samples = 0) by lia. apply Nat.div_small. lia.
    - specialize (HK2 K ltac:(lia)). symmetry. apply Nat.div_unique with (length samples + hop - 1 - hop * Datatypes.S K); nia. }
  assert (Lw : length (hann (F := RF) win) = win) by apply tab_length.
  assert (Hc' : c_std c = true \/ is_pow2 (length (hann (F := RF) win)) = true).
  { destruct Hc as [Hc|[m ->]]; [left; exact Hc|right]. rewrite Lw. unfold is_pow2. rewrite Nat.log2_pow2, Nat.eqb_refl by lia. reflexivity. }
  assert (Lk : length (repeat (@nil C) K) = K) by apply repeat_length.
  destruct (@C32_scalar_object c new_planner samples (hann win) hop (repeat [] K)) as [p' E]; rewrite ?Lw, ?Lk; try assumption; try lia; [rewrite Lw in Hc'; exact Hc'|apply upto_new|].
  rewrite Lk in E. set (fr := tab K (fun k => DFT (windowed samples (hann win) (k * hop)))) in *.
  assert (EC : compute_stft c sched samples (hann win) hop (repeat [] K) = Done (fr, ROk)).
  { unfold compute_stft. destruct (c_parallel c).
    - destruct (@C38_parallel_frames R RF RX c new_planner samples (hann win) hop (repeat [] K) sched) as (p2 & ys & E1 & E2);
        rewrite ?Lw, ?Lk; try assumption; try lia; [rewrite Lw in Hc'; exact Hc'|apply upto_new|].
      rewrite E1 in E. injection E as _ ->. exact E2.
    - rewrite E. reflexivity. }
  assert (Lf : length fr = K) by apply tab_length.
  assert (LF : forall f, In f fr -> length f = win).
  { intros f Hf. apply in_map_iff in Hf. destruct Hf as (k & <- & _). rewrite DFT_length, windowed_length. exact Lw. }
  assert (Rows : map (fun f => map cmag (firstn (win / 2) f)) fr = tab K (fun k => tab (win / 2) (frame_mag samples win hop k))).
  { unfold fr. rewrite map_tab. apply tab_ext. intros k Hk. unfold DFT. rewrite windowed_length, Lw.
    rewrite firstn_tab by (apply Nat.div_le_upper_bound; lia). rewrite map_tab. apply tab_ext. intros y Hy.
    unfold cmag, frame_mag. cbv zeta. fr. cbn [fsqrt RX].
    match goal with |- sqrt (re ?a * re ?a + im ?a * im ?a) = sqrt (re ?b * re ?b + _) => assert (EA : a = b) end.
    { apply dft_ext. intros j Hj. unfold windowed. rewrite Lw, at_tab by exact Hj. unfold hann. rewrite nth_tab by exact Hj. rewrite hann_R. f_equal. field. }
    rewrite EA. reflexivity. }
  exists (run_max (concat (tab K (fun k => tab (win / 2) (frame_mag samples win hop k)))) 0%R).
  destruct (run_max_R (concat (tab K (fun k => tab (win / 2) (frame_mag samples win hop k)))) 0%R) as (M1 & M2 & M3).
  split; [|split; [exact M2|split]].
  - unfold stft_magnitudes. cbv zeta. rewrite div_ceil_ok by exact Hh. rewrite EK. cbn [bind]. rewrite EC. cbn [bind]. rewrite Lf.
    rewrite mag_rows_spec.
    + cbn [firstn app bind]. rewrite Rows. rewrite Nat.add_0_l, Lf. rewrite skipn_all2 by (rewrite repeat_length; lia). rewrite app_nil_r. reflexivity.
    + rewrite repeat_length, Lf. lia.
    + intros f Hf. rewrite (LF f Hf). apply Nat.div_le_upper_bound; lia.
    + intros r Hr. apply repeat_spec in Hr. subst r. apply repeat_length.
  - intros k y Hk Hy. apply M1. apply in_concat. exists (tab (win / 2) (frame_mag samples win hop k)). split.
    + apply in_map_iff. exists k. split; [reflexivity|apply in_seq; lia].
    + apply in_map_iff. exists y. split; [reflexivity|apply in_seq; lia].
  - destruct M3 as [E0|E0]; [left; exact E0|right]. apply in_concat in E0. destruct E0 as (r & Hr & Hv).
    apply in_map_iff in Hr. destruct Hr as (k & <- & Hk). apply in_map_iff in Hv. destruct Hv as (y & Ey & Hy).
    exists k, y. apply in_seq in Hk, Hy. split; [lia|]. split; [lia|]. symmetry. exact Ey.
Qed.
Print Assumptions C58_magnitudes.
(* false: a zero hop is a division by zero, not an error *)
Theorem C58_zero_hop_refuted : forall (T : Type) (F : Float T) (X : FloatX T) (c : cfg) sched (samples : list T) win,
  stft_magnitudes c sched samples win 0 = Panic.
Proof. reflexivity. Qed.
Print Assumptions C58_zero_hop_refuted.
(* a zero window is an error as soon as there are samples *)
Theorem C58_zero_window : forall (T : Type) (F : Float T) (X : FloatX T) (c : cfg) sched (samples : list T) hop,
  0 < hop -> samples <> [] -> Permutation sched (seq 0 ((length samples + hop - 1) / hop)) ->
  stft_magnitudes c sched samples 0 hop = Done (Err EmptyInput).
Proof.
  intros T F X c sched samples hop Hh Hs HP. unfold stft_magnitudes. cbv zeta. rewrite div_ceil_ok by exact Hh. cbn [bind].
  set (K := (length samples + hop - 1) / hop) in *.
  assert (HK : 0 < K) by (apply Nat.div_str_pos; destruct samples; [congruence|cbn [length]; lia]).
  unfold compute_stft. change (hann 0) with (@nil T). destruct (c_parallel c).
  - unfold stft_parallel. destruct (Nat.eqb_spec hop 0); [lia|]. destruct sched as [|i sched].
    + apply Permutation_length in HP. rewrite seq_length in HP. cbn in HP. lia.
    + cbn [par_frames length]. rewrite for_range_empty by lia. cbn [bind].
      assert (Hi : i < K) by (assert (In i (seq 0 K)) as Q by (apply (Permutation_in _ HP); left; reflexivity); apply in_seq in Q; lia).
      change (fft c new_planner (@nil (cx T))) with (Done (@new_planner T, @nil (cx T), RErr EmptyInput)). cbn [bind].
      rewrite set_ok by (rewrite repeat_length; exact Hi). reflexivity.
  - unfold stft. destruct (Nat.eqb_spec hop 0); [lia|]. rewrite div_ceil_ok by exact Hh. cbn [bind]. fold K. rewrite repeat_length, Nat.ltb_irrefl.
    destruct K as [|K']; [lia|]. cbn [repeat stft_frames length]. unfold load. cbn [length]. rewrite for_range_empty by lia.
    cbn [bind]. change (resize (@nil (cx T)) 0 czero) with (@nil (cx T)).
    change (fft c new_planner (@nil (cx T))) with (Done (@new_planner T, @nil (cx T), RErr EmptyInput)). reflexivity.
Qed.
Print Assumptions C58_zero_window.
Example C58_example : 0 < 2 /\ 0 < 4 /\ (exists m, 4 = 2 ^ m) /\ length [1; 2; 3]%R <= 2 * 2 /\ (forall k, k < 2 -> k * 2 < length [1; 2; 3]%R) /\ Permutation [1; 0] (seq 0 2).
Proof.
  split; [lia|]. split; [lia|]. split; [exists 2; reflexivity|]. split; [cbn; lia|]. split; [intros k Hk; cbn [length]; lia|]. apply perm_swap.
Qed.

(* ------------------------------------------------------------------ C59 *)
Section Bins.
Context {T : Type} {F : Float T} {X : FloatX T}.
Lemma bin_loop_total mb : forall vs bin acc counts, length acc = mb + 1 -> length counts = mb + 1 ->
  (forall j, j < length vs -> map_bin_to_pixel (bin + j) mb <= mb) ->
  exists acc' counts', bin_loop mb bin vs acc counts = Done (acc', counts') /\ length acc' = mb + 1 /\ length counts' = mb + 1.
Proof.
  induction vs as [|v vs IH]; intros bin acc counts La Lc H; cbn [bin_loop]; [eauto|].
  pose proof (H 0 ltac:(cbn; lia)) as H0. rewrite Nat.add_0_r in H0.
  rewrite (@get_nth _ acc _ fzero), (@get_nth _ counts _ 0) by lia. cbn [bind]. rewrite set_ok by lia. cbn [bind]. rewrite set_ok by lia. cbn [bind].
  apply IH; rewrite ?upd_length; try assumption. intros j Hj. replace (bin + 1 + j) with (bin + Datatypes.S j) by lia. apply H. cbn [length]. lia.
Qed.
Lemma bin_loop_panics mb : forall vs bin acc counts j, length acc = mb + 1 -> length counts = mb + 1 ->
  j < length vs -> mb < map_bin_to_pixel (bin + j) mb -> bin_loop mb bin vs acc counts = Panic.
Proof.
  induction vs as [|v vs IH]; intros bin acc counts j La Lc Hj H; cbn [length] in Hj; [lia|]. cbn [bin_loop].
  destruct (Nat.lt_ge_cases mb (map_bin_to_pixel bin mb)) as [P|P].
  - rewrite get_panic by lia. reflexivity.
  - rewrite (@get_nth _ acc _ fzero), (@get_nth _ counts _ 0) by lia. cbn [bind]. rewrite set_ok by lia. cbn [bind]. rewrite set_ok by lia. cbn [bind].
    destruct j as [|j]; [rewrite Nat.add_0_r in H; lia|].
    apply IH with (j := j); rewrite ?upd_length; try assumption; try lia. replace (bin + 1 + j) with (bin + Datatypes.S j) by lia. exact H.
Qed.
End Bins.
(* any float type: a panic exactly when some input bin is sent past max_bin *)
Theorem C59_panics_iff : forall (T : Type) (F : Float T) (X : FloatX T) (values : list T) (max_bin : nat),
  ((forall b, b < length values -> map_bin_to_pixel b max_bin <= max_bin) ->
     exists l, log_scale_bins values max_bin = Done l /\ length l = max_bin + 1) /\
  (forall b, b < length values -> max_bin < map_bin_to_pixel b max_bin -> log_scale_bins values max_bin = Panic).
Proof.
  intros T F X values mb. split.
  - intros H. unfold log_scale_bins. destruct (@bin_loop_total T F X mb values 0 (repeat fzero (mb + 1)) (repeat 0 (mb + 1))) as (a & n & E & La & Lc);
      [apply repeat_length|apply repeat_length|exact H|]. rewrite E. cbn [bind]. eexists. split; [reflexivity|].
    rewrite map_length, combine_length. lia.
  - intros b Hb H. unfold log_scale_bins. rewrite (@bin_loop_panics T F X mb values 0 _ _ b); auto; apply repeat_length.
Qed.
Print Assumptions C59_panics_iff.

Open Scope R_scope.
Lemma Rfloor_nat_spec x k : INR k <= x < INR k + 1 -> Rfloor_nat x = k.
Proof. intros H. unfold Rfloor_nat. rewrite (@Int_part_spec _ (Z.of_nat k)); [apply Nat2Z.id|rewrite <- INR_IZR_INZ; exact H]. Qed.
Lemma Rfloor_nat_mono x y : x <= y -> (Rfloor_nat x <= Rfloor_nat y)%nat.
Proof.
  intros H. unfold Rfloor_nat. assert (Int_part x <= Int_part y)%Z; [|lia].
  destruct (base_Int_part x) as [A1 A2], (base_Int_part y) as [B1 B2].
  apply Z.lt_succ_r, lt_IZR. unfold Z.succ. rewrite plus_IZR. lra.
Qed.
Lemma Rfloor_nat_bound x : 0 <= x -> INR (Rfloor_nat x) <= x < INR (Rfloor_nat x) + 1.
Proof.
  intros H. destruct (base_Int_part x) as [B1 B2]. unfold Rfloor_nat. rewrite INR_IZR_INZ, Z2Nat.id; [lra|].
  apply Z.lt_succ_r, lt_IZR. unfold Z.succ. rewrite plus_IZR. lra.
Qed.
Lemma pixel_R b mb : (0 < mb)%nat -> map_bin_to_pixel b mb = Rfloor_nat (INR mb * ln (INR b + 1) / ln (INR mb + 1)).
Proof. intros H. unfold map_bin_to_pixel. destruct (Nat.eqb_spec mb 0); [lia|]. fr. reflexivity. Qed.
Lemma ln_pos1 m : (0 < m)%nat -> 0 < ln (INR m + 1).
Proof. intros H. apply lt_INR in H. cbn [INR] in H. rewrite <- ln_1. apply ln_increasing; lra. Qed.
(* the pixel scale: 0 to 0, max_bin to max_bin, monotone, and the position is floor(max_bin * log_(max_bin+1) (bin+1)) *)
Theorem C59_pixel : forall mb : nat,
  map_bin_to_pixel 0 mb = 0%nat /\ map_bin_to_pixel mb mb = mb /\
  (forall b b', (b <= b')%nat -> (map_bin_to_pixel b mb <= map_bin_to_pixel b' mb)%nat) /\
  (forall b, (0 < mb)%nat -> let p := map_bin_to_pixel b mb in
     Rpower (INR mb + 1) (INR p / INR mb) <= INR b + 1 < Rpower (INR mb + 1) ((INR p + 1) / INR mb)).
Proof.
  intros mb. destruct (Nat.eq_dec mb 0) as [->|Hm].
  - repeat split; try reflexivity; try lia.
  - assert (Hm' : (0 < mb)%nat) by lia. pose proof (ln_pos1 Hm') as HL. pose proof (lt_INR 0 mb Hm') as HM. cbn [INR] in HM.
    split; [|split; [|split]].
    + rewrite pixel_R by exact Hm'. apply Rfloor_nat_spec. cbn [INR]. rewrite Rplus_0_l, ln_1. unfold Rdiv. rewrite Rmult_0_r, Rmult_0_l. lra.
    + rewrite pixel_R by exact Hm'. apply Rfloor_nat_spec. replace (INR mb * ln (INR mb + 1) / ln (INR mb + 1)) with (INR mb) by (field; lra). lra.
    + intros b b' Hb. rewrite !pixel_R by exact Hm'. apply Rfloor_nat_mono. unfold Rdiv. apply Rmult_le_compat_r; [left; apply Rinv_0_lt_compat; exact HL|].
      apply Rmult_le_compat_l; [lra|]. apply le_INR in Hb. pose proof (pos_INR b). destruct (Req_dec (INR b) (INR b')) as [->|N]; [lra|left; apply ln_increasing; lra].
    + intros b _ p. pose proof (pos_INR b) as Hb.
      assert (P : 0 <= INR mb * ln (INR b + 1) / ln (INR mb + 1)).
      { apply Rmult_le_pos; [apply Rmult_le_pos; [lra|]|left; apply Rinv_0_lt_compat; exact HL]. rewrite <- ln_1. destruct (Req_dec (INR b) 0) as [->|N]; [rewrite Rplus_0_l; lra|left; apply ln_increasing; lra]. }
      apply Rfloor_nat_bound in P. rewrite <- pixel_R in P by exact Hm'. fold p in P.
      assert (E : INR b + 1 = exp (ln (INR b + 1))) by (rewrite exp_ln by lra; reflexivity).
      assert (Q : ln (INR b + 1) = (INR mb * ln (INR b + 1) / ln (INR mb + 1)) / INR mb * ln (INR mb + 1)) by (field; lra).
      unfold Rpower. rewrite E. set (q := INR mb * ln (INR b + 1) / ln (INR mb + 1)) in *. rewrite Q. clearbody q. 
      assert (I : 0 < / INR mb) by (apply Rinv_0_lt_compat; exact HM).
      split.
      * assert (H1 : INR p / INR mb * ln (INR mb + 1) <= q / INR mb * ln (INR mb + 1)).
        { unfold Rdiv. apply Rmult_le_compat_r; [lra|]. apply Rmult_le_compat_r; lra. }
        destruct H1 as [H1|H1]; [left; apply exp_increasing; exact H1|rewrite H1; lra].
      * apply exp_increasing. unfold Rdiv. apply Rmult_lt_compat_r; [lra|]. apply Rmult_lt_compat_r; lra.
Qed.
Print Assumptions C59_pixel.
(* the inputs sent to pixel y *)
Definition hits (mb n y : nat) : list nat := filter (fun b => (map_bin_to_pixel b mb =? y)%nat) (seq 0 n).
Lemma hits_S mb n y : hits mb (S n) y = hits mb n y ++ (if (map_bin_to_pixel n mb =? y)%nat then [n] else []).
Proof. unfold hits. rewrite seq_S, filter_app. reflexivity. Qed.
Lemma fold_sum_app l l' : fold_right Rplus 0 (l ++ l') = fold_right Rplus 0 l + fold_right Rplus 0 l'.
Proof. induction l as [|a l IH]; cbn [app fold_right]; [ring|rewrite IH; ring]. Qed.
(* at most max_bin+1 inputs: one average per pixel, 0 where no input lands *)
Theorem C59_averages : forall (values : list R) (mb : nat), (length values <= mb + 1)%nat ->
  log_scale_bins values mb = Done (tab (mb + 1) (fun y =>
    let h := hits mb (length values) y in
    if (length h =? 0)%nat then 0 else fold_right Rplus 0 (map (fun b => nth b values 0) h) / INR (length h))).
Proof.
  intros values mb Hl. unfold log_scale_bins.
  assert (G : forall pre vs, values = pre ++ vs ->
    bin_loop mb (length pre) vs (tab (mb + 1) (fun y => fold_right Rplus 0 (map (fun b => nth b values 0) (hits mb (length pre) y))))
        (tab (mb + 1) (fun y => length (hits mb (length pre) y))) =
    Done (tab (mb + 1) (fun y => fold_right Rplus 0 (map (fun b => nth b values 0) (hits mb (length values) y))), tab (mb + 1) (fun y => length (hits mb (length values) y)))).
  { intros pre vs. revert pre. induction vs as [|v vs IH]; intros pre Hv; [rewrite app_nil_r in Hv; subst pre; reflexivity|]. cbn [bin_loop].
    assert (Hp : (map_bin_to_pixel (length pre) mb <= mb)%nat).
    { destruct (C59_pixel mb) as (_ & E & M & _). transitivity (map_bin_to_pixel mb mb); [apply M|rewrite E; lia]. rewrite Hv, app_length in Hl. cbn [length] in Hl. lia. }
    rewrite !get_tab by lia. cbn [bind]. rewrite set_ok by (rewrite tab_length; lia). cbn [bind]. rewrite set_ok by (rewrite tab_length; lia). cbn [bind].
    specialize (IH (pre ++ [v])). rewrite app_length in IH. cbn [length] in IH. rewrite <- IH by (rewrite Hv, <- app_assoc; reflexivity).
    assert (Ev : nth (length pre) values 0 = v) by (rewrite Hv, app_nth2, Nat.sub_diag by lia; reflexivity).
    f_equal.
    - apply list_ext with (d := 0); [rewrite upd_length, !tab_length; reflexivity|]. intros k Hk. rewrite upd_length, tab_length in Hk.
      rewrite nth_upd by (rewrite tab_length; lia). rewrite (Nat.add_1_r (length pre)), !nth_tab by lia. rewrite hits_S, map_app, fold_sum_app.
      rewrite (Nat.eqb_sym k). destruct (Nat.eqb_spec (map_bin_to_pixel (length pre) mb) k) as [Ek|Ek]; cbn [map fold_right]; [rewrite Ev, Ek; fr; ring|ring].
    - apply list_ext with (d := 0%nat); [rewrite upd_length, !tab_length; reflexivity|]. intros k Hk. rewrite upd_length, tab_length in Hk.
      rewrite nth_upd by (rewrite tab_length; lia). rewrite (Nat.add_1_r (length pre)), !nth_tab by lia. rewrite hits_S, app_length.
      rewrite (Nat.eqb_sym k). destruct (Nat.eqb_spec (map_bin_to_pixel (length pre) mb) k) as [Ek|Ek]; cbn [length]; [rewrite Ek; reflexivity|lia]. }
  assert (I1 : repeat 0 (mb + 1) = tab (mb + 1) (fun y => fold_right Rplus 0 (map (fun b => nth b values 0) (hits mb 0 y)))).
  { apply list_ext with (d := 0); [rewrite repeat_length, tab_length; reflexivity|]. intros k Hk. rewrite repeat_length in Hk. rewrite nth_tab, nth_repeat by exact Hk. reflexivity. }
  assert (I2 : repeat 0%nat (mb + 1) = tab (mb + 1) (fun y => length (hits mb 0 y))).
  { apply list_ext with (d := 0%nat); [rewrite repeat_length, tab_length; reflexivity|]. intros k Hk. rewrite repeat_length in Hk. rewrite nth_tab, nth_repeat by exact Hk. reflexivity. }
  change (@fzero R RF) with 0. rewrite I1, I2. pose proof (G [] values eq_refl) as G0. change (Datatypes.length (@nil R)) with 0%nat in G0. rewrite G0. cbn [bind]. f_equal.
  apply list_ext with (d := 0); [rewrite map_length, combine_length, !tab_length; lia|].
  intros k Hk. rewrite map_length, combine_length, !tab_length in Hk.
  match goal with |- nth _ (map ?f _) _ = _ => set (fn := f) end.
  rewrite nth_indep with (d' := fn (0, 0%nat)) by (rewrite map_length, combine_length, !tab_length; lia).
  rewrite map_nth. rewrite combine_nth by (rewrite !tab_length; reflexivity). rewrite !nth_tab by lia. cbv zeta.
  unfold fn. destruct (hits mb (length values) k) as [|b h] eqn:Eh; [reflexivity|]. destruct (Nat.ltb_spec 0 (length (b :: h))); [|cbn [length] in *; lia]. reflexivity.
Qed.
Print Assumptions C59_averages.
(* false without the bound on the input: four values on two pixels *)
Theorem C59_long_input_refuted : forall v0 v1 v2 v3 : R, log_scale_bins [v0; v1; v2; v3] 1 = Panic.
Proof.
  intros. apply (proj2 (@C59_panics_iff R RF RX [v0; v1; v2; v3] 1)) with (b := 3%nat); [cbn; lia|].
  rewrite pixel_R by lia. cbn [INR]. assert (L2 : 0 < ln 2) by (rewrite <- ln_1; apply ln_increasing; lra).
  rewrite (@Rfloor_nat_spec _ 2); [lia|]. replace (1 + 1 + 1 + 1) with (2 * 2) by ring. rewrite ln_mult by lra. replace (1 + 1) with 2 by ring.
  replace (1 * (ln 2 + ln 2) / ln 2) with 2 by (field; lra). cbn [INR]. lra.
Qed.
Print Assumptions C59_long_input_refuted.
Example C59_example : (length [1; 2; 3] <= 2 + 1)%nat /\ forall b, (b < 2)%nat -> (map_bin_to_pixel (F := RF) b 0 <= 0)%nat.
Proof. split; [cbn; lia|]. intros b _. cbn. lia. Qed.

(* ------------------------------------------------------------------ C60 *)
Definition log10 (x : R) : R := ln x / ln 10.
Lemma log10_mono x y : 0 < x -> x <= y -> log10 x <= log10 y.
Proof.
  intros Hx H. unfold log10, Rdiv. apply Rmult_le_compat_r; [left; apply Rinv_0_lt_compat, ln10_pos|].
  destruct H as [H|<-]; [left; apply ln_increasing; assumption|lra].
Qed.
Lemma log10_1 : log10 1 = 0.
Proof. unfold log10. rewrite ln_1. unfold Rdiv. ring. Qed.
Lemma flit20 : @flit R RF 20 = 20.
Proof. cbn. unfold Q2R. cbn [Qnum Qden]. lra. Qed.
Lemma flit_b n : @flit R RF (inject_Z (Z.of_nat n)) = INR n.
Proof. cbn. unfold Q2R, inject_Z. cbn [Qnum Qden]. rewrite Rinv_1, Rmult_1_r, <- INR_IZR_INZ. reflexivity. Qed.
Lemma to_db_R mag max floor : magnitude_to_db mag max floor = if Rle_dec max 0 then floor else if Rle_dec mag 0 then floor else Rmax (20 * log10 (mag / max)) floor.
Proof.
  unfold magnitude_to_db. rewrite flit20. cbn [fleb fmaxf flog10 RX]. fr. destruct (Rle_dec max 0); [reflexivity|]. destruct (Rle_dec mag 0); reflexivity.
Qed.
Theorem C60_db : forall max floor : R,
  (forall m m', m <= m' -> magnitude_to_db m max floor <= magnitude_to_db m' max floor) /\
  (forall m, floor <= magnitude_to_db m max floor) /\
  (forall m, floor <= 0 -> m <= max -> magnitude_to_db m max floor <= 0) /\
  (forall m, m <= 0 \/ max <= 0 -> magnitude_to_db m max floor = floor) /\
  (forall m, 0 < m -> 0 < max -> magnitude_to_db m max floor = Rmax (20 * log10 (m / max)) floor) /\
  (floor <= 0 -> 0 < max -> magnitude_to_db max max floor = 0).
Proof.
  intros max floor.
  assert (Mono : forall m m', m <= m' -> magnitude_to_db m max floor <= magnitude_to_db m' max floor).
  { intros m m' H. rewrite !to_db_R. destruct (Rle_dec max 0); [lra|].
    destruct (Rle_dec m 0), (Rle_dec m' 0); try lra; [apply Rmax_r|]. apply Rle_max_compat_r. apply Rmult_le_compat_l; [lra|].
    assert (0 < / max) by (apply Rinv_0_lt_compat; lra). apply log10_mono; [apply Rmult_lt_0_compat; lra|apply Rmult_le_compat_r; lra]. }
  assert (Top : floor <= 0 -> 0 < max -> magnitude_to_db max max floor = 0).
  { intros Hf Hm. rewrite to_db_R. destruct (Rle_dec max 0); [lra|]. replace (max / max) with 1 by (field; lra). rewrite log10_1, Rmult_0_r. apply Rmax_left. exact Hf. }
  split; [exact Mono|]. split; [|split; [|split; [|split; [|exact Top]]]].
  - intros m. rewrite to_db_R. destruct (Rle_dec max 0); [lra|]. destruct (Rle_dec m 0); [lra|apply Rmax_r].
  - intros m Hf Hm. destruct (Rle_lt_dec max 0) as [H|H].
    + rewrite to_db_R. destruct (Rle_dec max 0); lra.
    + rewrite <- (Top Hf H). apply Mono. exact Hm.
  - intros m H. rewrite to_db_R. destruct (Rle_dec max 0); [reflexivity|]. destruct (Rle_dec m 0); [reflexivity|lra].
  - intros m H1 H2. rewrite to_db_R. destruct (Rle_dec max 0); [lra|]. destruct (Rle_dec m 0); [lra|reflexivity].
Qed.
Print Assumptions C60_db.
Lemma db_scale_R mag max range : db_scale mag max range = clamp01 ((20 * log10 (Rmax (mag / max) (1 / 10 ^ 10)) + range) / range).
Proof.
  unfold db_scale. rewrite flit20. fr. cbn [fmaxf flog10 RX]. rewrite fclamp_R.
  replace (Q2R (1 # 10000000000)) with (1 / 10 ^ 10) by (unfold Q2R; cbn [Qnum Qden]; lra). reflexivity.
Qed.
Lemma clamp01_range x : 0 <= clamp01 x <= 1.
Proof. unfold clamp01. split; [apply Rmax_l|apply Rmax_lub; [lra|apply Rmin_r]]. Qed.
Lemma clamp01_mono x y : x <= y -> clamp01 x <= clamp01 y.
Proof. intros H. unfold clamp01. apply Rle_max_compat_l. apply Rle_min_compat_r. exact H. Qed.
Lemma clamp01_id x : 0 <= x <= 1 -> clamp01 x = x.
Proof. intros H. unfold clamp01. rewrite Rmin_left by lra. apply Rmax_right. lra. Qed.
Lemma clamp01_lo x : x <= 0 -> clamp01 x = 0.
Proof. intros H. unfold clamp01. rewrite Rmin_left by lra. apply Rmax_left. lra. Qed.
Lemma clamp01_hi x : 1 <= x -> clamp01 x = 1.
Proof. intros H. unfold clamp01. rewrite Rmin_right by lra. apply Rmax_right. lra. Qed.
Theorem C60_db_scale : forall max range : R, 0 < max -> 0 < range ->
  (forall m, 0 <= db_scale m max range <= 1) /\
  (forall m m', m <= m' -> db_scale m max range <= db_scale m' max range) /\
  (forall m, max <= m -> db_scale m max range = 1) /\
  (forall m, 0 < m -> 20 * log10 (m / max) <= - range -> range <= 200 -> db_scale m max range = 0) /\
  (forall m, max / 10 ^ 10 <= m <= max -> - range <= 20 * log10 (m / max) -> db_scale m max range = 1 + 20 * log10 (m / max) / range).
Proof.
  intros max range Hm Hr. assert (Hi : 0 < / max) by (apply Rinv_0_lt_compat; lra). assert (Hri : 0 < / range) by (apply Rinv_0_lt_compat; lra).
  assert (P10 : 0 < 1 / 10 ^ 10) by lra.
  assert (Mono : forall m m', m <= m' -> db_scale m max range <= db_scale m' max range).
  { intros m m' H. rewrite !db_scale_R. apply clamp01_mono. unfold Rdiv. apply Rmult_le_compat_r; [lra|]. apply Rplus_le_compat_r. apply Rmult_le_compat_l; [lra|].
    apply log10_mono; [eapply Rlt_le_trans; [exact P10|apply Rmax_r]|]. apply Rle_max_compat_r. apply Rmult_le_compat_r; lra. }
  split; [intros m; rewrite db_scale_R; apply clamp01_range|]. split; [exact Mono|]. split; [|split].
  - intros m H. rewrite db_scale_R. apply clamp01_hi.
    assert (G : 0 <= log10 (Rmax (m / max) (1 / 10 ^ 10))).
    { rewrite <- log10_1. apply log10_mono; [lra|]. eapply Rle_trans; [|apply Rmax_l]. apply Rmult_le_reg_r with max; [lra|]. unfold Rdiv. rewrite Rmult_assoc, Rinv_l by lra. lra. }
    apply Rmult_le_reg_r with range; [lra|]. unfold Rdiv at 1. rewrite Rmult_assoc, Rinv_l by lra. lra.
  - intros m Hm0 H H200. rewrite db_scale_R. apply clamp01_lo.
    assert (G : 20 * log10 (Rmax (m / max) (1 / 10 ^ 10)) <= - range).
    { destruct (Rle_lt_dec (1 / 10 ^ 10) (m / max)) as [A|A]; [rewrite Rmax_left by exact A; exact H|]. rewrite Rmax_right by lra.
      assert (E : log10 (1 / 10 ^ 10) = - 10).
      { unfold log10, Rdiv. rewrite Rmult_1_l, ln_Rinv by lra. rewrite <- (Rpower_pow 10 10) by lra. unfold Rpower. rewrite ln_exp. pose proof ln10_pos.
        cbn [INR]. field. lra. }
      rewrite E. lra. }
    apply Rmult_le_reg_r with range; [lra|]. unfold Rdiv at 1. rewrite Rmult_assoc, Rinv_l by lra. lra.
  - intros m [A B] C. rewrite db_scale_R.
    assert (D : 1 / 10 ^ 10 <= m / max).
    { apply Rmult_le_reg_r with max; [lra|]. unfold Rdiv at 2. rewrite Rmult_assoc, Rinv_l by lra. lra. }
    rewrite Rmax_left by exact D. replace ((20 * log10 (m / max) + range) / range) with (1 + 20 * log10 (m / max) / range) by (field; lra).
    apply clamp01_id. assert (U : log10 (m / max) <= 0).
    { rewrite <- log10_1. apply log10_mono; [lra|]. apply Rmult_le_reg_r with max; [lra|]. unfold Rdiv at 1. rewrite Rmult_assoc, Rinv_l by lra. lra. }
    assert (L : -1 <= 20 * log10 (m / max) / range <= 0); [|lra]. split.
    + apply Rmult_le_reg_r with range; [lra|]. unfold Rdiv at 1. rewrite Rmult_assoc, Rinv_l by lra. lra.
    + apply Rmult_le_reg_r with range; [lra|]. unfold Rdiv at 1. rewrite Rmult_assoc, Rinv_l by lra. lra.
Qed.
Print Assumptions C60_db_scale.

(* colours *)
Definition byte3 (v : nat * nat * nat) : Prop := let '(r, g, b) := v in (r <= 255 /\ g <= 255 /\ b <= 255)%nat.
Lemma lerp3_byte {T} {F : Float T} {X : FloatX T} a b (t : T) : byte3 (lerp3 a b t).
Proof. destruct a as [[a0 a1] a2], b as [[b0 b1] b2]. cbn [lerp3 byte3]. unfold lerp_u8, as_u8. repeat split; apply Nat.le_min_l. Qed.
(* any float type: the 8-bit colours fit, and the 16-bit ones are 257 times those without overflow *)
Theorem C60_wide : forall (T : Type) (F : Float T) (X : FloatX T) (colorous : colormap -> T -> nat * nat * nat) (t : T) (m : colormap),
  (forall m t, byte3 (colorous m t)) ->
  let '(r, g, b) := map_color_u8 colorous t m in
  (r <= 255 /\ g <= 255 /\ b <= 255)%nat /\ map_color_u16 colorous t m = Done (257 * r, 257 * g, 257 * b)%nat.
Proof.
  intros T F X colorous t m Hc. assert (B : byte3 (map_color_u8 colorous t m)).
  { destruct m; cbn [map_color_u8]; try apply Hc.
    - unfold fire_color. destruct (find_window _ _) as [[s e]|]; apply lerp3_byte.
    - cbv zeta. cbn [byte3]. unfold as_u8. repeat split; apply Nat.le_min_l.
    - cbv zeta. cbn [byte3]. unfold round_u8. repeat split; apply Nat.le_min_l.
    - unfold rainbow_color. destruct (rainbow_pair _ _) as [[s e]|]; [apply lerp3_byte|cbn; lia]. }
  unfold map_color_u16. destruct (map_color_u8 colorous t m) as [[r g] b]. cbn [byte3] in B. split; [exact B|].
  unfold wide, mul257. destruct (Nat.leb_spec (r * 257) (255 * 257)); [|lia]. cbn [bind].
  destruct (Nat.leb_spec (g * 257) (255 * 257)); [|lia]. cbn [bind]. destruct (Nat.leb_spec (b * 257) (255 * 257)); [|lia]. cbn [bind].
  rewrite !(Nat.mul_comm 257). reflexivity.
Qed.
Print Assumptions C60_wide.
(* linear interpolation of a channel, rounded down *)
Definition blend (a b : nat * nat * nat) (t : R) : nat * nat * nat :=
  let ch := fun x y => Rfloor_nat (INR x + (INR y - INR x) * t) in
  let '(a0, a1, a2) := a in let '(b0, b1, b2) := b in (ch a0 b0, ch a1 b1, ch a2 b2).
(* f interpolates between neighbouring stops *)
Definition follows (stops : list (R * (nat * nat * nat))) (f : R -> nat * nat * nat) : Prop :=
  forall i p c q d, nth_error stops i = Some (p, c) -> nth_error stops (S i) = Some (q, d) ->
    forall t, p <= t <= q -> f t = blend c d ((t - p) / (q - p)).
Definition fire_table : list (R * (nat * nat * nat)) :=
  [(0, (0, 0, 0)%nat); (1 / 4, (128, 0, 128)%nat); (1 / 2, (255, 165, 0)%nat); (3 / 4, (255, 255, 0)%nat); (1, (255, 255, 255)%nat)].
Definition rainbow_table : list (R * (nat * nat * nat)) :=
  [(0, (0, 0, 0)%nat); (1 / 4, (0, 0, 255)%nat); (1 / 2, (0, 255, 255)%nat); (3 / 4, (255, 255, 0)%nat); (9 / 10, (255, 0, 0)%nat); (1, (255, 255, 255)%nat)].
Lemma INR_255 : INR 255 = 255.
Proof. rewrite INR_IZR_INZ. reflexivity. Qed.
Lemma lerp_R a b t : (a <= 255)%nat -> (b <= 255)%nat -> 0 <= t <= 1 -> lerp_u8 a b t = Rfloor_nat (INR a + (INR b - INR a) * t).
Proof.
  intros Ha Hb Ht. unfold lerp_u8, as_u8. fr. cbn [ffloor RX]. apply Nat.min_r.
  apply le_INR in Ha, Hb. rewrite INR_255 in *. pose proof (pos_INR a). pose proof (pos_INR b).
  apply INR_le. rewrite INR_255. eapply Rle_trans; [apply Rfloor_nat_bound; nra|]. nra.
Qed.
Lemma lerp3_R a b t : byte3 a -> byte3 b -> 0 <= t <= 1 -> lerp3 a b t = blend a b t.
Proof.
  destruct a as [[a0 a1] a2], b as [[b0 b1] b2]. intros (A0 & A1 & A2) (B0 & B1 & B2) Ht. cbn [lerp3 blend]. rewrite !lerp_R by assumption. reflexivity.
Qed.
Lemma blend_0 a b : blend a b 0 = a.
Proof. destruct a as [[a0 a1] a2], b as [[b0 b1] b2]. unfold blend. rewrite !(@Rfloor_nat_spec _ a0), !(@Rfloor_nat_spec _ a1), !(@Rfloor_nat_spec _ a2) by lra. reflexivity. Qed.
Lemma blend_1 a b : blend a b 1 = b.
Proof. destruct a as [[a0 a1] a2], b as [[b0 b1] b2]. unfold blend. rewrite !(@Rfloor_nat_spec _ b0), !(@Rfloor_nat_spec _ b1), !(@Rfloor_nat_spec _ b2) by lra. reflexivity. Qed.
(* the stops are increasing and hold bytes *)
Fixpoint table_ok (l : list (R * (nat * nat * nat))) : Prop :=
  match l with
  | s0 :: ((s1 :: _) as r) => fst s0 < fst s1 /\ byte3 (snd s0) /\ table_ok r
  | [s0] => byte3 (snd s0)
  | [] => True
  end.
Lemma table_le l : table_ok l -> forall i s0 si, nth_error l 0 = Some s0 -> nth_error l i = Some si -> fst s0 <= fst si.
Proof.
  induction l as [|a l IH]; intros H i s0 si H0 Hi; [discriminate|]. injection H0 as <-. destruct i as [|i]; [injection Hi as <-; lra|].
  cbn [nth_error] in Hi. destruct l as [|b l]; [destruct i; discriminate|]. destruct H as (H1 & _ & H2).
  pose proof (IH H2 i b si eq_refl Hi). lra.
Qed.
Lemma frac01 p q t : p < q -> p <= t <= q -> 0 <= (t - p) / (q - p) <= 1.
Proof.
  intros Hpq Ht. split; [apply Rmult_le_pos; [lra|left; apply Rinv_0_lt_compat; lra]|].
  apply Rmult_le_reg_r with (q - p); [lra|]. unfold Rdiv. rewrite Rmult_assoc, Rinv_l by lra. lra.
Qed.
Lemma table_byte l : table_ok l -> forall i s, nth_error l i = Some s -> byte3 (snd s).
Proof.
  induction l as [|a l IH]; intros H i s Hi; [destruct i; discriminate|].
  destruct i as [|i]; cbn [nth_error] in Hi.
  - injection Hi as <-. destruct l; [exact H|apply H].
  - destruct l as [|b l]; [destruct i; discriminate|]. apply (IH (proj2 (proj2 H)) i s Hi).
Qed.
Lemma find_window_follows l : table_ok l -> forall i p c q d, nth_error l i = Some (p, c) -> nth_error l (S i) = Some (q, d) -> forall t, p <= t <= q ->
  exists p' c' q' d', find_window t l = Some ((p', c'), (q', d')) /\ lerp3 c' d' ((t - p') / (q' - p')) = blend c d ((t - p) / (q - p)).
Proof.
  induction l as [|[a ca] l IH]; intros H i p c q d Hi Hj t Ht; [destruct i; discriminate|].
  destruct l as [|[b cb] l]; [destruct i; cbn in Hj; try discriminate; destruct i; discriminate|].
  destruct H as (H1 & H2 & H3). cbn [fst snd] in *. cbn [find_window in_window fst]. unfold in_window. cbn [fleb RX fst].
  destruct i as [|i].
  - cbn in Hi, Hj. injection Hi as <- <-. injection Hj as <- <-. destruct (Rle_dec a t); [|lra]. destruct (Rle_dec t b); [|lra]. cbn [andb].
    exists a, ca, b, cb. split; [reflexivity|]. apply lerp3_R; [exact H2|apply (@table_byte _ H3 0%nat _ eq_refl)|apply frac01; assumption].
  - cbn [nth_error] in Hi. change (nth_error ((b, cb) :: l) (S i) = Some (q, d)) in Hj.
    pose proof (@table_le _ H3 i _ _ eq_refl Hi) as Hb. cbn [fst] in Hb.
    destruct (Rle_dec a t); [|lra]. destruct (Rle_dec t b) as [Htb|Htb]; cbn [andb].
    + (* t is the stop b itself, hence i = 0 *)
      assert (t = b) by lra. assert (p = b) by lra. subst t p. destruct i as [|i].
      * cbn in Hi. injection Hi as <-. exists a, ca, b, cb. split; [reflexivity|].
        replace ((b - a) / (b - a)) with 1 by (field; lra). replace ((b - b) / (q - b)) with 0 by (unfold Rdiv; ring).
        rewrite lerp3_R; [|exact H2|apply (@table_byte _ H3 0%nat _ eq_refl)|lra]. rewrite blend_0, blend_1. reflexivity.
      * exfalso. destruct l as [|[e ce] l]; [destruct i; discriminate|]. cbn [nth_error] in Hi. destruct H3 as (H31 & _ & H33). cbn [fst] in H31.
        pose proof (@table_le _ H33 i _ _ eq_refl Hi) as He. cbn [fst] in He. lra.
    + apply (IH H3 i p c q d Hi Hj t Ht).
Qed.
Lemma rainbow_pair_follows l : table_ok l -> forall i p c q d, nth_error l i = Some (p, c) -> nth_error l (S i) = Some (q, d) -> forall t, p <= t <= q ->
  exists p' c' q' d', rainbow_pair t l = Some ((p', c'), (q', d')) /\ p' < q' /\ lerp3 c' d' ((t - p') / (q' - p')) = blend c d ((t - p) / (q - p)).
Proof.
  induction l as [|[a ca] l IH]; intros H i p c q d Hi Hj t Ht; [destruct i; discriminate|].
  destruct l as [|[b cb] l]; [destruct i; cbn in Hj; try discriminate; destruct i; discriminate|].
  destruct H as (H1 & H2 & H3). cbn [fst snd] in *. cbn [rainbow_pair fst fltb RX].
  destruct i as [|i].
  - cbn in Hi, Hj. injection Hi as <- <-. injection Hj as <- <-. destruct (Rlt_dec b t); [lra|].
    exists a, ca, b, cb. split; [reflexivity|]. split; [exact H1|]. apply lerp3_R; [exact H2|apply (@table_byte _ H3 0%nat _ eq_refl)|apply frac01; assumption].
  - cbn [nth_error] in Hi. change (nth_error ((b, cb) :: l) (S i) = Some (q, d)) in Hj.
    pose proof (@table_le _ H3 i _ _ eq_refl Hi) as Hb. cbn [fst] in Hb.
    destruct (Rlt_dec b t) as [Htb|Htb].
    + apply (IH H3 i p c q d Hi Hj t Ht).
    + assert (t = b) by lra. assert (p = b) by lra. subst t p. destruct i as [|i].
      * cbn in Hi. injection Hi as <-. exists a, ca, b, cb. split; [reflexivity|]. split; [exact H1|].
        replace ((b - a) / (b - a)) with 1 by (field; lra). replace ((b - b) / (q - b)) with 0 by (unfold Rdiv; ring).
        rewrite lerp3_R; [|exact H2|apply (@table_byte _ H3 0%nat _ eq_refl)|lra]. rewrite blend_0, blend_1. reflexivity.
      * exfalso. destruct l as [|[e ce] l]; [destruct i; discriminate|]. cbn [nth_error] in Hi. destruct H3 as (H31 & _ & H33). cbn [fst] in H31.
        pose proof (@table_le _ H33 i _ _ eq_refl Hi) as He. cbn [fst] in He. lra.
Qed.
Lemma fire_R : @fire_stops R RF = fire_table.
Proof. unfold fire_stops, fire_table. cbn [flit fzero fone RF RFloat_of]. unfold Q2R. cbn [Qnum Qden]. reflexivity. Qed.
Lemma rainbow_R : @rainbow_stops R RF = rainbow_table.
Proof. unfold rainbow_stops, rainbow_table. cbn [flit fzero fone RF RFloat_of]. unfold Q2R. cbn [Qnum Qden]. reflexivity. Qed.
Lemma fire_ok : table_ok fire_table.
Proof. cbn. repeat split; try lia; lra. Qed.
Lemma rainbow_ok : table_ok rainbow_table.
Proof. cbn. repeat split; try lia; lra. Qed.
Lemma table_range l i p c q d t : table_ok l -> (forall s, In s l -> 0 <= fst s <= 1) -> nth_error l i = Some (p, c) -> nth_error l (S i) = Some (q, d) -> p <= t <= q -> clamp01 t = t.
Proof. intros _ H Hi Hj Ht. apply nth_error_In in Hi, Hj. apply H in Hi, Hj. cbn [fst] in *. apply clamp01_id. lra. Qed.
(* the two stop-based palettes interpolate linearly between their documented colours *)
Theorem C60_gradients : forall colorous : colormap -> R -> nat * nat * nat,
  follows fire_table (fun t => map_color_u8 colorous t Fire) /\
  follows rainbow_table (fun t => map_color_u8 colorous t Rainbow).
Proof.
  intros colorous. split.
  - intros i p c q d Hi Hj t Ht. cbn [map_color_u8]. fr. rewrite fclamp_R.
    assert (Ec : clamp01 t = t) by (apply (@table_range fire_table i p c q d t fire_ok); [intros s Hs; cbn in Hs; intuition (subst s; cbn; lra)|exact Hi|exact Hj|exact Ht]).
    rewrite Ec. unfold fire_color. rewrite fire_R.
    destruct (@find_window_follows _ fire_ok i p c q d Hi Hj t Ht) as (p' & c' & q' & d' & E & V). rewrite E. exact V.
  - intros i p c q d Hi Hj t Ht. cbn [map_color_u8]. fr. rewrite fclamp_R.
    assert (Ec : clamp01 t = t) by (apply (@table_range rainbow_table i p c q d t rainbow_ok); [intros s Hs; cbn in Hs; intuition (subst s; cbn; lra)|exact Hi|exact Hj|exact Ht]).
    rewrite Ec. unfold rainbow_color. rewrite rainbow_R.
    destruct (@rainbow_pair_follows _ rainbow_ok i p c q d Hi Hj t Ht) as (p' & c' & q' & d' & E & L & V). rewrite E. cbn [fst snd fltb RX].
    destruct (Rlt_dec p' q'); [exact V|contradiction].
Qed.
Print Assumptions C60_gradients.
(* the other palettes, and the values outside [0,1] *)
Theorem C60_legacy_gray : forall (colorous : colormap -> R -> nat * nat * nat) t, 0 <= t <= 1 ->
  map_color_u8 colorous t Legacy = (Rfloor_nat (64 + 191 * t), Rfloor_nat (255 * t), Rfloor_nat (64 + 160 * t)) /\
  (let g := Rfloor_nat (255 * t + 1 / 2) in map_color_u8 colorous t Gray = (g, g, g) /\ (g <= 255)%nat).
Proof.
  intros colorous t Ht. cbn [map_color_u8]. fr. rewrite fclamp_R, clamp01_id by exact Ht. unfold as_u8, round_u8. cbn [ffloor fround_nat RX]. unfold Q2R. cbn [Qnum Qden].
  assert (B : forall x, 0 <= x < 256 -> (Rfloor_nat x <= 255)%nat).
  { intros x Hx. pose proof (@Rfloor_nat_bound x ltac:(lra)). assert (INR (Rfloor_nat x) < INR 256) by (rewrite (INR_IZR_INZ 256); cbn; lra). apply INR_lt in H0. lia. }
  split.
  - replace (64 * / 1 * (1 - t) + 255 * / 1 * t) with (64 + 191 * t) by lra. replace (255 * / 1 * t) with (255 * t) by lra.
    replace (64 * / 1 * (1 - t) + 224 * / 1 * t) with (64 + 160 * t) by lra. rewrite !Nat.min_r by (apply B; lra). reflexivity.
  - cbv zeta. replace (t * (255 * / 1) + / 2) with (255 * t + 1 / 2) by lra. rewrite Nat.min_r by (apply B; lra). split; [reflexivity|apply B; lra].
Qed.
Print Assumptions C60_legacy_gray.
Theorem C60_clamped : forall (colorous : colormap -> R -> nat * nat * nat) m t,
  (t <= 0 -> map_color_u8 colorous t m = map_color_u8 colorous 0 m) /\ (1 <= t -> map_color_u8 colorous t m = map_color_u8 colorous 1 m).
Proof.
  intros colorous m t. unfold map_color_u8. change (@fzero R RF) with 0. change (@fone R RF) with 1. rewrite !fclamp_R.
  split; intros H; [rewrite (clamp01_lo H), (@clamp01_lo 0) by lra|rewrite (clamp01_hi H), (@clamp01_hi 1) by lra]; reflexivity.
Qed.
Print Assumptions C60_clamped.
Theorem C60_end_points : forall colorous : colormap -> R -> nat * nat * nat,
  map_color_u8 colorous 0 Fire = (0, 0, 0)%nat /\ map_color_u8 colorous 1 Fire = (255, 255, 255)%nat /\
  map_color_u8 colorous 0 Rainbow = (0, 0, 0)%nat /\ map_color_u8 colorous 1 Rainbow = (255, 255, 255)%nat /\
  map_color_u8 colorous 0 Gray = (0, 0, 0)%nat /\ map_color_u8 colorous 1 Gray = (255, 255, 255)%nat /\
  map_color_u8 colorous 0 Legacy = (64, 0, 64)%nat /\ map_color_u8 colorous 1 Legacy = (255, 255, 224)%nat.
Proof.
  intros colorous. destruct (C60_gradients colorous) as [GF GR].
  destruct (@C60_legacy_gray colorous 0 ltac:(lra)) as [L0 [G0 _]]. destruct (@C60_legacy_gray colorous 1 ltac:(lra)) as [L1 [G1 _]].
  assert (F0 := GF 0%nat _ _ _ _ eq_refl eq_refl 0 ltac:(lra)). assert (F1 := GF 3%nat _ _ _ _ eq_refl eq_refl 1 ltac:(lra)).
  assert (R0 := GR 0%nat _ _ _ _ eq_refl eq_refl 0 ltac:(lra)). assert (R1 := GR 4%nat _ _ _ _ eq_refl eq_refl 1 ltac:(lra)).
  replace ((0 - 0) / (1 / 4 - 0)) with 0 in F0, R0 by field. replace ((1 - 3 / 4) / (1 - 3 / 4)) with 1 in F1 by field. replace ((1 - 9 / 10) / (1 - 9 / 10)) with 1 in R1 by field.
  rewrite blend_0 in F0, R0. rewrite blend_1 in F1, R1.
  repeat match goal with |- _ /\ _ => split end; try assumption.
  - rewrite G0. rewrite (@Rfloor_nat_spec _ 0) by (cbn [INR]; lra). reflexivity.
  - rewrite G1. rewrite (@Rfloor_nat_spec _ 255) by (rewrite INR_255; lra). reflexivity.
  - rewrite L0. rewrite (@Rfloor_nat_spec _ 64), (@Rfloor_nat_spec _ 0), (@Rfloor_nat_spec _ 64) by (rewrite INR_IZR_INZ; cbn; lra). reflexivity.
  - rewrite L1. rewrite (@Rfloor_nat_spec _ 255), (@Rfloor_nat_spec _ 255), (@Rfloor_nat_spec _ 224) by (rewrite INR_IZR_INZ; cbn; lra). reflexivity.
Qed.
Print Assumptions C60_end_points.
(* from magnitudes: silence gets the colour of 0, the maximum that of 1, in between the scaled level *)
Theorem C60_from_magnitude : forall (colorous : colormap -> R -> nat * nat * nat) m max floor, 0 < max -> floor < 0 ->
  (forall mag, mag <= 0 -> color_from_magnitude_u8 colorous mag max floor m = map_color_u8 colorous 0 m) /\
  color_from_magnitude_u8 colorous max max floor m = map_color_u8 colorous 1 m /\
  (forall mag, 0 < mag -> floor <= 20 * log10 (mag / max) ->
     color_from_magnitude_u8 colorous mag max floor m = map_color_u8 colorous (1 + 20 * log10 (mag / max) / (- floor)) m).
Proof.
  intros colorous m max floor Hm Hf. destruct (C60_db max floor) as (_ & _ & _ & D1 & D2 & D3). unfold color_from_magnitude_u8. fr.
  split; [|split].
  - intros mag H. rewrite D1 by (left; exact H). f_equal. field. lra.
  - rewrite D3 by lra. f_equal. field. lra.
  - intros mag H1 H2. rewrite D2 by assumption. rewrite Rmax_left by exact H2. f_equal. field. lra.
Qed.
Print Assumptions C60_from_magnitude.
Theorem C60_from_magnitude_wide : forall (T : Type) (F : Float T) (X : FloatX T) (colorous : colormap -> T -> nat * nat * nat) mag max floor m,
  (forall m t, byte3 (colorous m t)) ->
  let '(r, g, b) := color_from_magnitude_u8 colorous mag max floor m in
  color_from_magnitude_u16 colorous mag max floor m = Done (257 * r, 257 * g, 257 * b)%nat.
Proof.
  intros T F X colorous mag max floor m Hc. pose proof (C60_wide F X colorous (fdiv (fsub (magnitude_to_db mag max floor) floor) (fneg floor)) m Hc) as H.
  unfold color_from_magnitude_u16, color_from_magnitude_u8. cbv zeta. unfold map_color_u16 in H.
  destruct (map_color_u8 colorous _ m) as [[r g] b]. apply H.
Qed.
Print Assumptions C60_from_magnitude_wide.
(* palette names: case-insensitive, everything else is Fire *)
Definition known : list (string * colormap) :=
  [("legacy", Legacy); ("gray", Gray); ("viridis", Viridis); ("plasma", Plasma); ("inferno", Inferno); ("rainbow", Rainbow)]%string.
Theorem C60_parse : forall s, (forall n m, In (n, m) known -> same_text s n -> parse s = m) /\ ((forall n m, In (n, m) known -> ~ same_text s n) -> parse s = Fire).
Proof.
  intros s. unfold parse. cbv zeta. split.
  - intros n m Hin E. apply lower_text in E. unfold known in Hin. cbn in Hin. rewrite E. repeat destruct Hin as [Hin|Hin]; try injection Hin as <- <-; try reflexivity. contradiction.
  - intros H0. assert (H : forall n m, In (n, m) known -> lower s <> n).
    { intros n m Hin E. apply (H0 n m Hin). apply lower_text. rewrite E. unfold known in Hin. cbn in Hin. repeat destruct Hin as [Hin|Hin]; try injection Hin as <- <-; try reflexivity. contradiction. }
    unfold known in H. pose proof (H _ _ (or_introl eq_refl)) as N1. pose proof (H _ _ (or_intror (or_introl eq_refl))) as N2.
    pose proof (H _ _ (or_intror (or_intror (or_introl eq_refl)))) as N3. pose proof (H _ _ (or_intror (or_intror (or_intror (or_introl eq_refl))))) as N4.
    pose proof (H _ _ (or_intror (or_intror (or_intror (or_intror (or_introl eq_refl)))))) as N5.
    pose proof (H _ _ (or_intror (or_intror (or_intror (or_intror (or_intror (or_introl eq_refl))))))) as N6.
    apply String.eqb_neq in N1, N2, N3, N4, N5, N6. rewrite N1, N2, N3, N4, N5, N6. reflexivity.
Qed.
Print Assumptions C60_parse.
Example C60_example : parse "GrAy" = Gray /\ parse "heat" = Fire /\ 0 < 1 /\ -120 < 0 /\ forall (m : colormap) (t : R), byte3 (0, 1, 255)%nat.
Proof. split; [reflexivity|]. split; [reflexivity|]. split; [lra|]. split; [lra|]. intros. cbn. lia. Qed.

(* Property C100: the short-time Fourier transform in IEEE binary32/binary64 arithmetic. *)
From Coq Require Import Reals Lra Lia ZArith List Bool.
From Flocq Require Import Core BinarySingleNaN.
From Verif Require Import L_err L_flx L_pi L_ierr M_fft L_fft L_obj L_nd L_stft P_fft P_err P_ierr P_irerr P_stft L_ieee.
Import ListNotations.
Set Implicit Arguments.
Open Scope R_scope.

(* ---------- specification ---------- *)
(* frame k of the exact numbers: the samples from k * hop on, each times the window there (P_stft.windowed) *)
Definition frame_of (f : fmt) (signal window : list (num f)) (start : nat) : list C := windowed (real_values signal) (real_values window) start.

(* ---------- proofs ---------- *)
Lemma dft_close n (a b : nat -> C) k : Cabs (dft n a k -c dft n b k) <= rsum n (fun i => Cabs (a i -c b i)).
Proof.
  unfold dft. enough (H : forall V : nat -> C, (forall j, Cabs (V j) = 1) -> Cabs (csum n (fun j => a j *c V j) -c csum n (fun j => b j *c V j)) <= rsum n (fun i => Cabs (a i -c b i)))
    by (apply (H (fun j => W n (j * k))); intros j; apply Cabs_W).
  intros V HV. induction n as [|n IH]; cbn [csum rsum].
  - replace (C0 -c C0) with C0 by ring. rewrite Cabs_0. lra.
  - replace (csum n (fun j => a j *c V j) +c a n *c V n -c (csum n (fun j => b j *c V j) +c b n *c V n))
      with ((csum n (fun j => a j *c V j) -c csum n (fun j => b j *c V j)) +c (a n -c b n) *c V n) by ring.
    eapply Rle_trans; [apply Cabs_tri|]. rewrite Cabs_mul, HV. lra.
Qed.
Lemma stft_fresh (T : Type) (F : Float T) (c : cfg) (sg window : list T) hop frames : (0 < length window)%nat /\ (c_std c = true \/ is_pow2 (length window) = true) -> (0 < hop)%nat -> (length sg <= hop * length frames)%nat ->
  exists p, stft (fft c) new_planner sg window hop frames = Done (p, tab (length frames) (fun k => fft_fresh c (wframe sg window (k * hop))), ROk).
Proof.
  intros [Hw1 Hw2] Hh Hf. unfold stft. destruct (Nat.eqb_spec hop 0); [lia|]. rewrite div_ceil_ok by lia. cbn [bind].
  assert (Hc : ((length sg + hop - 1) / hop <= length frames)%nat) by (apply ceil_le; [exact Hh|lia]).
  destruct (Nat.ltb_spec (length frames) ((length sg + hop - 1) / hop)); [lia|]. clear Hf Hc H.
  enough (G : forall idx p, fit c (length window) p -> exists p', stft_frames (fft c) sg window hop idx p frames =
     Done (p', tab (length frames) (fun k => fft_fresh c (wframe sg window ((idx + k) * hop))), ROk)) by exact (G 0%nat new_planner (fit_new c _)).
  induction frames as [|f rest IH]; intros idx p Hp; cbn [stft_frames length].
  - exists p. reflexivity.
  - rewrite (load_exact (fft c)) by apply resize_length. cbn [bind].
    destruct (@fft_fit T F c p (wframe sg window (idx * hop)) (length window) Hp (wframe_length _ _ _) Hw1 Hw2) as (p1 & E & Hk). rewrite E. cbn [bind].
    destruct (IH (idx + 1)%nat p1 (Hk _ (right_after_refl c _) Hp)) as (p2 & E2). rewrite E2. cbn [bind]. exists p2. rewrite tab_S_l, Nat.add_0_r. do 3 f_equal. f_equal.
    apply tab_ext. intros k Hk'. do 2 f_equal. lia.
Qed.
Section Lem.
Variables (f : fmt) (o : libm f) (c : cfg).
Local Notation G := (ieee o).
Local Notation u := (bpow radix2 (- precf f)).
Lemma etaf_floor : 2 * etaf f <= u * floor_size f.
Proof.
  unfold etaf, floor_size. rewrite <- bpow_plus. apply Rle_trans with (bpow radix2 (SpecFloat.emin (precf f) (emaxf f))); [lra|]. apply bpow_le. clear. destruct f; cbn; lia.
Qed.
Lemma rv_nth (x : list (num f)) i : (i < length x)%nat -> nth i (real_values x) 0 = B2R (nth i x (B754_zero false)).
Proof. intros H. unfold real_values. change 0 with (B2R (B754_zero (prec := precf f) (emax := emaxf f) false)) at 1. apply map_nth. Qed.
Lemma rv_over (x : list (num f)) i : (length x <= i)%nat -> nth i (real_values x) 0 = 0.
Proof. intros H. apply nth_overflow. unfold real_values. rewrite map_length. exact H. Qed.
Lemma frame_length s w start : length (frame_of (f := f) s w start) = length w.
Proof. unfold frame_of. rewrite windowed_length. unfold real_values. apply map_length. Qed.
(* the frame as computed *)
Lemma wframe_close s w start : finite_reals s -> finite_reals w -> norm1 (frame_of s w start) <= bpow radix2 (emaxf f - 3) ->
  finite_signal (wframe (F := G) s w start) /\
  forall i, (i < length w)%nat -> Cabs (at_ (values (wframe (F := G) s w start)) i -c at_ (frame_of s w start) i) <= u * Cabs (at_ (frame_of s w start) i) + etaf f.
Proof.
  intros Hs Hw HN.
  assert (K : forall i, (i < length w)%nat -> at_ (frame_of s w start) i = RtoC (nth i (real_values w) 0 * nth (start + i) (real_values s) 0)).
  { intros i Hi. unfold frame_of, windowed. rewrite at_tab; [reflexivity|]. unfold real_values. rewrite map_length. exact Hi. }
  assert (B : forall i, (i < length w)%nat -> Cabs (at_ (frame_of s w start) i) <= maxf f).
  { intros i Hi. apply Rle_trans with (norm1 (frame_of s w start)).
    - unfold norm1. rewrite frame_length. clear - Hi. set (g := fun j => Cabs (at_ (frame_of s w start) j)). change (g i <= rsum (length w) g).
      assert (P : forall j, 0 <= g j) by (intros; apply Cabs_nonneg). clearbody g. induction (length w) as [|n IH]; [lia|]. cbn [rsum].
      destruct (Nat.eq_dec i n) as [->|]; [|specialize (IH ltac:(lia)); specialize (P n); lra].
      assert (0 <= rsum n g) by (apply rsum_pos; intros; apply P). lra.
    - eapply Rle_trans; [exact HN|]. eapply Rle_trans; [|apply maxf_big]. pose proof (bpow_gt_0 radix2 (emaxf f - 2)).
      assert (bpow radix2 (emaxf f - 3) <= bpow radix2 (emaxf f - 1)) by (apply bpow_le; lia). lra. }
  assert (M : forall i, (i < length w)%nat -> (start + i < length s)%nat ->
    fin (@fmul _ G (nth (start + i) s (@fzero _ G)) (nth i w (@fzero _ G))) /\
    Rabs (val (@fmul _ G (nth (start + i) s (@fzero _ G)) (nth i w (@fzero _ G))) - nth i (real_values w) 0 * nth (start + i) (real_values s) 0)
      <= v0 f * Rabs (nth i (real_values w) 0 * nth (start + i) (real_values s) 0) + etaf f).
  { intros i Hi Hj. specialize (B i Hi). rewrite K, Cabs_R in B by exact Hi. rewrite rv_nth in B by exact Hi. rewrite rv_nth in B by exact Hj. rewrite rv_nth by exact Hi. rewrite rv_nth by exact Hj.
    rewrite (Rmult_comm (B2R _)) in *. apply (@i_mul _ _ _ _ _ _ _ (ieee_bounded o)); [apply Hs, nth_In; exact Hj|apply Hw, nth_In; exact Hi|exact B]. }
  split.
  - intros z Hz. unfold wframe, tab in Hz. apply in_map_iff in Hz. destruct Hz as (i & <- & Hi). apply in_seq in Hi. cbn [re im].
    destruct (Nat.ltb_spec (start + i) (length s)) as [Hj|Hj]; split; try reflexivity. apply M; lia.
  - intros i Hi. rewrite (values_at o) by (rewrite wframe_length; exact Hi). rewrite K by exact Hi. unfold wframe, nthc. rewrite nth_tab by exact Hi.
    rewrite Cabs_R. pose proof (etaf_pos f) as E0.
    destruct (Nat.ltb_spec (start + i) (length s)) as [Hj|Hj].
    + match goal with |- Cabs (cv _ (mkcx ?a _) -c RtoC ?b) <= _ => replace (cv (val (f := f)) (mkcx a (@fzero _ G)) -c RtoC b) with (RtoC (val a - b)) end.
      * rewrite Cabs_R. apply M; assumption.
      * unfold cv, RtoC, Csub. cbn. f_equal. unfold val. cbn. ring.
    + rewrite (rv_over s) by exact Hj. rewrite Rmult_0_r, Rabs_R0.
      replace (cv (val (f := f)) (mkcx (@fzero _ G) (@fzero _ G)) -c RtoC 0) with C0; [rewrite Cabs_0; lra|].
      unfold cv, RtoC, Csub, C0. cbn. f_equal; unfold val; cbn; ring.
Qed.
Lemma frame_close s w start : finite_reals s -> finite_reals w -> INR (length w) <= bpow radix2 (precf f) -> norm1 (frame_of s w start) <= bpow radix2 (emaxf f - 3) ->
  let N := norm1 (frame_of s w start) in let x := wframe (F := G) s w start in
  norm1 (values x) <= N + (u * N + INR (length w) * etaf f) /\ norm1 (values x) <= bpow radix2 (emaxf f - 2) /\
  forall k, (k < length w)%nat -> Cabs (at_ (DFT (values x)) k -c at_ (DFT (frame_of s w start)) k) <= u * N + INR (length w) * etaf f.
Proof.
  intros Hs Hw Hn HN N x. destruct (wframe_close start Hs Hw HN) as [_ H]. fold x in H.
  assert (Lx : length (values x) = length w) by (rewrite values_length; apply wframe_length).
  assert (S : rsum (length w) (fun i => u * Cabs (at_ (frame_of s w start) i) + etaf f) = u * N + INR (length w) * etaf f).
  { rewrite rsum_plus, rsum_scal, rsum_const'. unfold N, norm1. rewrite frame_length. reflexivity. }
  assert (A : norm1 (values x) <= N + (u * N + INR (length w) * etaf f)).
  { rewrite <- S. unfold N, norm1. rewrite Lx, frame_length, <- rsum_plus. apply rsum_le'. intros i Hi. specialize (H i Hi).
    replace (at_ (values x) i) with (at_ (frame_of s w start) i +c (at_ (values x) i -c at_ (frame_of s w start) i)) at 1 by ring.
    eapply Rle_trans; [apply Cabs_tri|]. lra. }
  split; [exact A|]. split.
  - assert (N0 : 0 <= N) by apply norm1_pos. fold N in HN. pose proof (v0_small f) as V. pose proof (v0_pos f) as V0. unfold v0 in V, V0.
    assert (E1 : INR (length w) * etaf f <= 1).
    { apply Rle_trans with (bpow radix2 (precf f) * etaf f); [apply Rmult_le_compat_r; [pose proof (etaf_pos f); lra|exact Hn]|].
      unfold etaf. assert (bpow radix2 (precf f) * bpow radix2 (SpecFloat.emin (precf f) (emaxf f)) <= bpow radix2 1) by (rewrite <- bpow_plus; apply bpow_le; clear; destruct f; cbn; lia).
      change (bpow radix2 1) with 2 in H0. lra. }
    assert (E2 : 4 <= bpow radix2 (emaxf f - 3)). { change 4 with (bpow radix2 2). apply bpow_le. clear. destruct f; cbn; lia. }
    replace (bpow radix2 (emaxf f - 2)) with (2 * bpow radix2 (emaxf f - 3)).
    + assert (u * N <= / 16777216 * N) by (apply Rmult_le_compat_r; lra). lra.
    + replace (emaxf f - 2)%Z with (1 + (emaxf f - 3))%Z by lia. rewrite bpow_plus. reflexivity.
  - intros k Hk. rewrite !DFT_at by (rewrite ?Lx, ?frame_length; exact Hk). rewrite Lx, frame_length. rewrite <- S.
    eapply Rle_trans; [apply dft_close|]. apply rsum_le'. exact H.
Qed.
Lemma frames_gen s w hop frames e : (0 < length w)%nat /\ (c_std c = true \/ is_pow2 (length w) = true) -> (0 < hop)%nat -> (length s <= hop * length frames)%nat ->
  (forall k, (k < length frames)%nat -> exists p y, fft (F := G) c (new_planner (T := num f)) (wframe (F := G) s w (k * hop)) = Done (p, y, ROk) /\
     finite_signal y /\ within (e k) (values y) (DFT (frame_of s w (k * hop)))) ->
  exists p ys, stft (F := G) (fft (F := G) c) (new_planner (T := num f)) s w hop frames = Done (p, ys, ROk) /\ length ys = length frames /\
    forall k, (k < length frames)%nat -> finite_signal (nth k ys []) /\ within (e k) (values (nth k ys [])) (DFT (frame_of s w (k * hop))).
Proof.
  intros Hw Hh Hf H. destruct (@stft_fresh _ G c s w hop frames Hw Hh Hf) as [p E]. exists p. eexists. split; [exact E|]. split; [apply tab_length|].
  intros k Hk. destruct (H k Hk) as (p' & y & E' & H1 & H2). rewrite nth_tab by exact Hk.
  destruct (@fft_fresh_ok _ G c (wframe (F := G) s w (k * hop))) as [p'' E'']; [rewrite wframe_length; apply Hw|rewrite wframe_length; apply Hw|].
  rewrite E' in E''. assert (Ey : y = fft_fresh (F := G) c (wframe (F := G) s w (k * hop))) by exact (f_equal (fun r => match r with Done (_, z, _) => z | _ => [] end) E'').
  rewrite <- Ey. split; assumption.
Qed.
Lemma within_add a b (y z v : list C) : within a y z -> length z = length v -> (forall k, (k < length v)%nat -> Cabs (at_ z k -c at_ v k) <= b) -> within (a + b) y v.
Proof.
  intros [H1 H2] Hl H. split; [congruence|]. intros k Hk. replace (at_ y k -c at_ v k) with ((at_ y k -c at_ z k) +c (at_ z k -c at_ v k)) by ring.
  eapply Rle_trans; [apply Cabs_tri|]. specialize (H2 k ltac:(lia)). specialize (H k Hk). lra.
Qed.
End Lem.

Lemma frame_unit (f : fmt) (signal window : list (num f)) start : (forall r, In r (real_values signal) -> Rabs r <= 1) -> (forall r, In r (real_values window) -> Rabs r <= 1) ->
  norm1 (frame_of signal window start) <= INR (length window).
Proof.
  intros Bs Bw.
  assert (B : forall l : list R, (forall r, In r l -> Rabs r <= 1) -> forall i, Rabs (nth i l 0) <= 1).
  { intros l H i. destruct (nth_in_or_default i l 0) as [D|D]; [apply H; exact D|rewrite D, Rabs_R0; lra]. }
  unfold norm1. rewrite frame_length. rewrite <- (Rmult_1_r (INR _)), <- rsum_const'. apply rsum_le'. intros i Hi.
    unfold frame_of, windowed. rewrite at_tab by (unfold real_values; rewrite map_length; exact Hi). rewrite Cabs_R, Rabs_mult.
    pose proof (B _ Bs (start + i)%nat). pose proof (B _ Bw i). pose proof (Rabs_pos (nth i (real_values window) 0)). pose proof (Rabs_pos (nth (start + i) (real_values signal) 0)). nra.
Qed.

(* ---------- theorems ---------- *)
(* windows of 32, 64, 128, ... samples *)
Theorem C100_ieee_stft : forall (f : fmt) (o : libm f) (c : cfg) (signal window : list (num f)) hop frames,
  accurate_trig o -> c_precomp c = false \/ accurate_tables o -> finite_reals signal -> finite_reals window -> (32 <= length window)%nat -> is_pow2 (length window) = true ->
  15 * INR (length window) * INR (Nat.log2 (length window)) <= bpow radix2 (precf f) -> (0 < hop)%nat -> (length signal <= hop * length frames)%nat ->
  (forall k, (k < length frames)%nat -> norm1 (frame_of signal window (k * hop)) <= bpow radix2 (emaxf f - 3)) ->
  exists p ys, stft (F := ieee o) (fft (F := ieee o) c) (new_planner (T := num f)) signal window hop frames = Done (p, ys, ROk) /\ length ys = length frames /\
    forall k, (k < length frames)%nat -> finite_signal (nth k ys []) /\
      within (16 * INR (length window) * INR (Nat.log2 (length window)) * bpow radix2 (- precf f) * (norm1 (frame_of signal window (k * hop)) + INR (length window) * floor_size f))
        (values (nth k ys [])) (DFT (frame_of signal window (k * hop))).
Proof.
  intros f o c signal window hop frames HT Hc Hs Hw Hn Hp Hb Hh Hf HN. apply frames_gen; [split; [lia|right; exact Hp]|exact Hh|exact Hf|]. intros k Hk. specialize (HN k Hk).
  destruct (@nums f _ 15 Hn ltac:(lra) Hb) as (HnR & HL & Hnb & _ & HV).
  destruct (wframe_close o (k * hop) Hs Hw HN) as [Fx _]. destruct (frame_close o (k * hop) Hs Hw Hnb HN) as (A1 & A2 & A3). cbv zeta in *.
  set (x := wframe (F := ieee o) signal window (k * hop)) in *. assert (Lx : length x = length window) by apply wframe_length.
  destruct (@C89_ieee_fft f o c x HT Hc Fx) as (p & y & E & Fy & Y); rewrite ?Lx; try assumption. rewrite Lx in Y. exists p, y. split; [exact E|]. split; [exact Fy|].
  eapply within_le.
  - eapply within_add; [exact Y| |].
    + rewrite !DFT_length, values_length, frame_length. exact Lx.
    + rewrite DFT_length, frame_length. exact A3.
  - set (N := norm1 (frame_of signal window (k * hop))) in *. assert (N0 : 0 <= N) by apply norm1_pos. set (n := INR (length window)) in *. set (L := INR (Nat.log2 (length window))) in *.
    pose proof (etaf_floor f) as EF. pose proof (etaf_pos f) as E0. pose proof (v0_pos f) as V0. unfold v0 in *. set (u := bpow radix2 (- precf f)) in *.
    assert (W0 : 160 <= n * L) by nra. set (w := n * L) in *. set (M := norm1 (values x)) in *.
    replace (15 * n * L * u) with (15 * w * u) by (unfold w; ring). replace (16 * n * L * u) with (16 * w * u) by (unfold w; ring).
    assert (S1 : 15 * w * u * (M + n * floor_size f) <= 15 * w * u * (N + n * floor_size f) + (u * N + n * etaf f)).
    { assert (C0 : 0 <= 15 * w * u) by nra. assert (D0 : 0 <= u * N + n * etaf f) by nra.
      assert (15 * w * u * (M + n * floor_size f) <= 15 * w * u * (N + (u * N + n * etaf f) + n * floor_size f)) by (apply Rmult_le_compat_l; lra).
      assert (15 * w * u * (u * N + n * etaf f) <= 1 * (u * N + n * etaf f)) by (apply Rmult_le_compat_r; lra). lra. }
    assert (S2 : 2 * (u * N) <= w * u * N). { assert (0 <= u * N) by nra. nra. }
    assert (S3 : n * (2 * etaf f) <= n * (u * floor_size f)) by (apply Rmult_le_compat_l; lra).
    assert (S4 : n * (u * floor_size f) <= w * u * (n * floor_size f)).
    { assert (0 <= n * (u * floor_size f)) by (apply Rmult_le_pos; lra). nra. }
    lra.
Qed.
Print Assumptions C100_ieee_stft.
(* windows of 1, 2, 4, 8 or 16 samples; nothing is asked of sin and cos *)
Theorem C100_ieee_small : forall (f : fmt) (o : libm f) (c : cfg) (signal window : list (num f)) hop frames,
  finite_reals signal -> finite_reals window -> (length window <= 16)%nat -> is_pow2 (length window) = true -> (0 < hop)%nat -> (length signal <= hop * length frames)%nat ->
  (forall k, (k < length frames)%nat -> norm1 (frame_of signal window (k * hop)) <= bpow radix2 (emaxf f - 3)) ->
  exists p ys, stft (F := ieee o) (fft (F := ieee o) c) (new_planner (T := num f)) signal window hop frames = Done (p, ys, ROk) /\ length ys = length frames /\
    forall k, (k < length frames)%nat -> finite_signal (nth k ys []) /\
      within ((INR (Nat.log2 (length window)) + 1) / 1000000 * (norm1 (frame_of signal window (k * hop)) + INR (length window) * floor_size f))
        (values (nth k ys [])) (DFT (frame_of signal window (k * hop))).
Proof.
  intros f o c signal window hop frames Hs Hw Hn Hp Hh Hf HN.
  assert (H1 : (1 <= length window)%nat). { apply is_pow2_iff in Hp. destruct Hp as [L ->]. apply pow2_pos. }
  apply frames_gen; [split; [lia|right; exact Hp]|exact Hh|exact Hf|]. intros k Hk. specialize (HN k Hk).
  assert (Hnb : INR (length window) <= bpow radix2 (precf f)).
  { apply Rle_trans with (INR 16); [apply le_INR; exact Hn|]. apply Rle_trans with (bpow radix2 4); [cbn; lra|apply bpow_le; clear; destruct f; cbn; lia]. }
  assert (L4 : INR (Nat.log2 (length window)) <= 4). { replace 4 with (INR 4) by (cbn; lra). apply le_INR. change 4%nat with (Nat.log2 16). apply Nat.log2_le_mono. exact Hn. }
  destruct (wframe_close o (k * hop) Hs Hw HN) as [Fx _]. destruct (frame_close o (k * hop) Hs Hw Hnb HN) as (A1 & A2 & A3). cbv zeta in *.
  set (x := wframe (F := ieee o) signal window (k * hop)) in *. assert (Lx : length x = length window) by apply wframe_length.
  destruct (@C89_ieee_small f o c x Fx) as (p & y & E & Fy & Y); rewrite ?Lx; try assumption. rewrite Lx in Y. exists p, y. split; [exact E|]. split; [exact Fy|].
  eapply within_le.
  - eapply within_add; [exact Y| |].
    + rewrite !DFT_length, values_length, frame_length. exact Lx.
    + rewrite DFT_length, frame_length. exact A3.
  - set (N := norm1 (frame_of signal window (k * hop))) in *. assert (N0 : 0 <= N) by apply norm1_pos.
    assert (n0 : 0 <= INR (length window)) by apply pos_INR. set (n := INR (length window)) in *. assert (L0 : 0 <= INR (Nat.log2 (length window))) by apply pos_INR. set (L := INR (Nat.log2 (length window))) in *.
    pose proof (etaf_floor f) as EF. pose proof (etaf_pos f) as E0. pose proof (v0_pos f) as V0. pose proof (v0_small f) as V1. unfold v0 in *. set (u := bpow radix2 (- precf f)) in *. set (M := norm1 (values x)) in *.
    assert (D0 : 0 <= u * N + n * etaf f) by nra.
    assert (F0 : 0 <= floor_size f) by apply bpow_ge_0.
    assert (S1 : L / 1000000 * (M + n * floor_size f) <= L / 1000000 * (N + n * floor_size f) + (u * N + n * etaf f)).
    { assert (L / 1000000 * (M + n * floor_size f) <= L / 1000000 * (N + (u * N + n * etaf f) + n * floor_size f)) by (apply Rmult_le_compat_l; lra).
      assert (L / 1000000 * (u * N + n * etaf f) <= 1 * (u * N + n * etaf f)) by (apply Rmult_le_compat_r; lra). lra. }
    assert (S2 : u * N <= / 16777216 * N) by (apply Rmult_le_compat_r; lra).
    assert (S3 : n * (2 * etaf f) <= n * (u * floor_size f)) by (apply Rmult_le_compat_l; lra).
    assert (S4 : n * (u * floor_size f) <= n * (/ 16777216 * floor_size f)) by (apply Rmult_le_compat_l; [lra|]; apply Rmult_le_compat_r; lra).
    assert (S5 : 0 <= n * floor_size f) by (apply Rmult_le_pos; lra).
    replace ((L + 1) / 1000000 * (N + n * floor_size f)) with (L / 1000000 * (N + n * floor_size f) + / 1000000 * (N + n * floor_size f)) by field. lra.
Qed.
Print Assumptions C100_ieee_small.
(* signals and windows within [-1, 1]: no overflow condition is left *)
Theorem C100_unit_range : forall (f : fmt) (o : libm f) (c : cfg) (signal window : list (num f)) hop frames,
  accurate_trig o -> c_precomp c = false \/ accurate_tables o -> finite_reals signal -> finite_reals window -> (32 <= length window)%nat -> is_pow2 (length window) = true ->
  15 * INR (length window) * INR (Nat.log2 (length window)) <= bpow radix2 (precf f) -> (0 < hop)%nat -> (length signal <= hop * length frames)%nat ->
  (forall r, In r (real_values signal) -> Rabs r <= 1) -> (forall r, In r (real_values window) -> Rabs r <= 1) ->
  exists p ys, stft (F := ieee o) (fft (F := ieee o) c) (new_planner (T := num f)) signal window hop frames = Done (p, ys, ROk) /\ length ys = length frames /\
    forall k, (k < length frames)%nat -> finite_signal (nth k ys []) /\
      within (17 * INR (length window) * INR (length window) * INR (Nat.log2 (length window)) * bpow radix2 (- precf f)) (values (nth k ys [])) (DFT (frame_of signal window (k * hop))).
Proof.
  intros f o c signal window hop frames HT Hc Hs Hw Hn Hp Hb Hh Hf Bs Bw.
  destruct (@nums f _ 15 Hn ltac:(lra) Hb) as (HnR & HL & Hnb & _ & HV).
  pose proof (fun start => @frame_unit f signal window start Bs Bw) as HN.
  destruct (@C100_ieee_stft f o c signal window hop frames HT Hc Hs Hw Hn Hp Hb Hh Hf) as (p & ys & E & Hl & H).
  - intros k Hk. eapply Rle_trans; [apply HN|]. eapply Rle_trans; [exact Hnb|]. apply bpow_le. clear. destruct f; cbn; lia.
  - exists p, ys. split; [exact E|]. split; [exact Hl|]. intros k Hk. destruct (H k Hk) as [H1 H2]. split; [exact H1|]. eapply within_le; [exact H2|].
    specialize (HN (k * hop)%nat). pose proof (norm1_pos (frame_of signal window (k * hop))) as N0. set (N := norm1 (frame_of signal window (k * hop))) in *.
    set (n := INR (length window)) in *. set (L := INR (Nat.log2 (length window))) in *. pose proof (v0_pos f) as V0. unfold v0 in V0. set (u := bpow radix2 (- precf f)) in *.
    assert (F1 : floor_size f <= / 16). { unfold floor_size. apply Rle_trans with (bpow radix2 (-4)); [apply bpow_le; clear; destruct f; cbn; lia|cbn; lra]. }
    apply Rle_trans with (16 * n * L * u * (n + n * / 16)).
    + apply Rmult_le_compat_l; [|assert (n * floor_size f <= n * / 16) by (apply Rmult_le_compat_l; lra); lra].
      apply Rmult_le_pos; [|lra]. apply Rmult_le_pos; lra.
    + right. field.
Qed.
Print Assumptions C100_unit_range.
(* 4000 ones in f32 under a window of 1024 ones, hop 256, 16 frames *)
Example C100_example : exists p ys, stft (F := ieee (exact_libm B32)) (fft (F := ieee (exact_libm B32)) (cfg_std F32)) (new_planner (T := num B32))
    (repeat (norm B32 1 0) 4000) (repeat (norm B32 1 0) 1024) 256 (repeat [] 16) = Done (p, ys, ROk) /\ length ys = 16%nat /\
  forall k, (k < 16)%nat -> finite_signal (nth k ys []) /\ within 11 (values (nth k ys [])) (DFT (frame_of (repeat (norm B32 1 0) 4000) (repeat (norm B32 1 0) 1024) (k * 256))).
Proof.
  destruct (one_ok (exact_libm B32)) as [F1 V1]. cbn [fone ieee] in F1, V1.
  assert (FR : forall k, finite_reals (repeat (norm B32 1 0) k)) by (intros k a Ha; apply repeat_spec in Ha; subst a; exact F1).
  assert (BR : forall k r, In r (real_values (repeat (norm B32 1 0) k)) -> Rabs r <= 1).
  { intros k r Hr. unfold real_values in Hr. apply in_map_iff in Hr. destruct Hr as (a & <- & Ha). apply repeat_spec in Ha. subst a. unfold val in V1. rewrite V1, Rabs_R1. lra. }
  assert (L1 : length (repeat (norm B32 1 0) 4000) = 4000%nat) by apply repeat_length.
  assert (L2 : length (repeat (norm B32 1 0) 1024) = 1024%nat) by apply repeat_length.
  assert (L3 : length (repeat (@nil (cx (num B32))) 16) = 16%nat) by reflexivity.
  assert (E1 : INR 1024 = 1024) by (rewrite INR_IZR_INZ; reflexivity).
  assert (E2 : INR (Nat.log2 1024) = 10) by (change (Nat.log2 1024) with 10%nat; rewrite INR_IZR_INZ; reflexivity).
  pose proof (FR 4000%nat) as FS. pose proof (FR 1024%nat) as FW. pose proof (BR 4000%nat) as BS. pose proof (BR 1024%nat) as BW.
  set (s := repeat (norm B32 1 0) 4000) in *. set (w := repeat (norm B32 1 0) 1024) in *. set (fr := repeat (@nil (cx (num B32))) 16) in *. clearbody s w fr.
  destruct (@C100_ieee_stft B32 (exact_libm B32) (cfg_std F32) s w 256 fr (C89_library B32) (or_intror (C89_tables B32)) FS FW) as (p & ys & E & Hl & H).
  - rewrite L2. lia.
  - rewrite L2. reflexivity.
  - rewrite L2, E1, E2. change (bpow radix2 (precf B32)) with 16777216. lra.
  - lia.
  - rewrite L1, L3. lia.
  - intros k Hk. apply Rle_trans with (bpow radix2 10); [|apply bpow_le; cbn; lia]. change (bpow radix2 10) with 1024. rewrite <- E1, <- L2. apply frame_unit; assumption.
  - exists p, ys. rewrite L3 in Hl, H. split; [exact E|]. split; [exact Hl|]. intros k Hk. destruct (H k Hk) as [H1 H2]. split; [exact H1|]. eapply within_le; [exact H2|].
    assert (N1 : norm1 (frame_of s w (k * 256)) <= 1024) by (rewrite <- E1, <- L2; apply frame_unit; assumption). pose proof (norm1_pos (frame_of s w (k * 256))).
    rewrite L2, E1, E2. change (bpow radix2 (- precf B32)) with (/ 16777216). pose proof (tiny_1 B32) as T. pose proof (tiny_pos B32). change (floor_size B32) with (tiny B32). lra.
Qed.

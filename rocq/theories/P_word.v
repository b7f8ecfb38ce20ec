(* Properties C82-C84: usize arithmetic with a fixed word size. *)
From Coq Require Import Lra Reals.
From Verif Require Import M_word L_fft L_obj L_obj2 L_fftR L_err RX P_fft P_err.
Set Implicit Arguments.
Open Scope nat_scope.

Lemma word_fits W checks n : n < 2 ^ W -> word W checks n = Done n.
Proof. intros H. unfold word. apply Nat.ltb_lt in H. rewrite H. reflexivity. Qed.
Lemma word_wraps W n : word W false n = Done (n mod 2 ^ W).
Proof.
  unfold word. destruct (Nat.ltb_spec n (2 ^ W)); [|reflexivity]. rewrite Nat.mod_small by assumption. reflexivity.
Qed.
Lemma word_panics W n : 2 ^ W <= n -> word W true n = Panic.
Proof. intros H. unfold word. destruct (Nat.ltb_spec n (2 ^ W)); [lia|reflexivity]. Qed.
Lemma pow2_pos W : 0 < 2 ^ W.
Proof. pose proof (Nat.pow_nonzero 2 W ltac:(lia)). lia. Qed.

Lemma for_try_ext {S} (b1 b2 : nat -> S -> exec (S * rres)) n : forall lo s,
  (forall i s, lo <= i < lo + n -> b1 i s = b2 i s) -> for_try n lo b1 s = for_try n lo b2 s.
Proof.
  induction n as [|n IH]; intros lo s H; cbn [for_try]; [reflexivity|].
  rewrite H by lia. destruct (b2 lo s) as [[s' [|e]]| |]; cbn [bind]; try reflexivity.
  apply IH. intros; apply H; lia.
Qed.

(* ------------------------------------------------------------------ C82 *)
Theorem C82_strided : forall (T : Type) (op : planner T -> list (cx T) -> exec (planner T * list (cx T) * rres))
  W checks p input stride scratch,
  (length scratch - 1) * stride + 1 < 2 ^ W ->
  wstrided W checks op p input stride scratch = strided op p input stride scratch.
Proof.
  intros T op W checks p input stride scratch H. unfold wstrided, strided.
  destruct (Nat.eqb_spec stride 0); [reflexivity|]. destruct (Nat.eqb_spec (length scratch) 0); [reflexivity|].
  rewrite word_fits by lia. cbn [bind]. rewrite word_fits by lia. cbn [bind].
  assert (Hi : forall i, i < length scratch -> i * stride < 2 ^ W) by (intros i Hi; nia).
  destruct (length input <? (length scratch - 1) * stride + 1); [reflexivity|]. unfold for_range. rewrite Nat.sub_0_r.
  rewrite (@for_n_ext _ (fun i s => j <- word W checks (i * stride);; v <- get input j;; set s i v) (fun i s => v <- get input (i * stride);; set s i v)).
  2:{ intros i s Hin. rewrite word_fits by (apply Hi; lia). reflexivity. }
  destruct (for_n _ 0 _ scratch) as [scr| |]; cbn [bind]; try reflexivity.
  destruct (op p scr) as [[[p' scr'] [|e]]| |]; cbn [bind]; try reflexivity.
  rewrite (@for_n_ext _ (fun i inp => v <- get scr' i;; j <- word W checks (i * stride);; set inp j v) (fun i inp => v <- get scr' i;; set inp (i * stride) v)).
  2:{ intros i s Hin. rewrite word_fits by (apply Hi; lia). reflexivity. }
  reflexivity.
Qed.
Print Assumptions C82_strided.

Lemma for_try_ext_inv {S} (P : S -> Prop) (b1 b2 : nat -> S -> exec (S * rres)) n : forall lo s,
  (forall i s, lo <= i < lo + n -> P s -> b1 i s = b2 i s /\ forall s' r, b2 i s = Done (s', r) -> P s') ->
  P s -> for_try n lo b1 s = for_try n lo b2 s /\ forall s' r, for_try n lo b2 s = Done (s', r) -> P s'.
Proof.
  induction n as [|n IH]; intros lo s H HP; cbn [for_try].
  - split; [reflexivity|]. intros s' r E. injection E as <- _. exact HP.
  - destruct (H lo s) as [E HP']; [lia|exact HP|]. rewrite E. destruct (b2 lo s) as [[s1 [|e]]| |]; cbn [bind].
    + apply IH; [|eapply HP'; reflexivity]. intros i t Hi Ht. apply H; [lia|exact Ht].
    + split; [reflexivity|]. intros s' r Er. injection Er as <- _. eapply HP'; reflexivity.
    + split; [reflexivity|discriminate].
    + split; [reflexivity|discriminate].
Qed.
Section Nd.
Context {T : Type} {F : Float T}.
Variables (W : nat) (checks : bool) (c : cfg).
Lemma wfft_slice_fits start len s : start + len < 2 ^ W -> wfft_slice W checks c start len s = fft_slice c start len s.
Proof.
  intros H. destruct s as [p data]. unfold wfft_slice, fft_slice. rewrite word_fits by exact H. cbn [bind].
  destruct (Nat.leb_spec start (start + len)); [|lia]. cbn [andb]. replace (start + len - start) with len by lia. reflexivity.
Qed.
Lemma fft_slice_Inv start len p (data : list (cx T)) p' data' r : Inv c p -> fft_slice c start len (p, data) = Done (p', data', r) -> Inv c p'.
Proof.
  intros HI E. unfold fft_slice in E. destruct (_ <=? _); [|discriminate]. inv_bind E. destruct v as [[p1 part] r1].
  injection E as <- _ _. eapply fft_preserves; eassumption.
Qed.
Definition good (n : nat) (s : planner T * list (cx T) * list (cx T)) : Prop := let '(p, _, scr) := s in Inv c p /\ length scr = n.
Lemma wstrided_slice_fits start stride n s : (n - 1) * stride + 1 < 2 ^ W -> good n s ->
  wstrided_slice W checks c start stride s = strided_slice c start stride s /\
  forall s' r, strided_slice c start stride s = Done (s', r) -> good n s'.
Proof.
  destruct s as [[p data] scratch]. intros H [HI Hl]. unfold wstrided_slice, strided_slice, fft_strided. destruct (slice_from data start); cbn [bind].
  - rewrite C82_strided by (rewrite Hl; exact H). split; [reflexivity|]. intros s' r E. inv_bind E. destruct v as [[[p1 x1] s1] r1].
    injection E as <- _. destruct (@strided_preserves _ _ c _ (@fft_preserves _ _ c) _ _ _ _ _ _ _ _ HI E0) as (HS & _ & H2).
    split; [apply HS|congruence].
  - split; [reflexivity|discriminate].
  - split; [reflexivity|discriminate].
Qed.
Lemma wfft2d_fits p (data : list (cx T)) rows cols scr : Inv c p -> rows * cols < 2 ^ W ->
  wfft2d W checks c p data rows cols scr = fft2d_inplace c p data rows cols scr.
Proof.
  intros HI H. unfold wfft2d, fft2d_inplace. rewrite word_fits by exact H. cbn [bind].
  destruct (_ =? length data); cbn [negb]; [|reflexivity].
  destruct (Nat.eqb_spec rows 0); [reflexivity|]. destruct (Nat.eqb_spec cols 0); [reflexivity|]. cbn [orb].
  destruct (Nat.eqb_spec (length scr) rows) as [Es|]; cbn [negb]; [|reflexivity].
  destruct (@for_try_ext_inv _ (fun s : planner T * list (cx T) => Inv c (fst s))
    (fun r s => start <- word W checks (r * cols);; wfft_slice W checks c start cols s) (fun r => fft_slice c (r * cols) cols) rows 0 (p, data)) as [E HP].
  { intros i [q d] Hi Hq. rewrite word_fits by nia. cbn [bind]. split; [apply wfft_slice_fits; nia|].
    intros [q' d'] r Er. eapply fft_slice_Inv; [|exact Er]. exact Hq. }
  { exact HI. }
  rewrite E. clear E. destruct (for_try rows 0 _ (p, data)) as [[[p1 d1] [|e]]| |]; cbn [bind]; try reflexivity.
  refine (proj1 (@for_try_ext_inv _ (good rows) _ _ cols 0 _ _ _)).
  - intros i s Hi Hg. apply wstrided_slice_fits; [nia|exact Hg].
  - split; [|exact Es]. exact (HP _ _ eq_refl).
Qed.
Lemma wfft3d_fits p (data : list (cx T)) depth rows cols tube row col : Inv c p -> depth * rows < 2 ^ W -> depth * rows * cols < 2 ^ W ->
  wfft3d W checks c p data depth rows cols tube row col = fft3d_inplace c p data depth rows cols tube row col.
Proof.
  intros HI H1 H2. unfold wfft3d, fft3d_inplace. rewrite word_fits by exact H1. cbn [bind]. rewrite word_fits by exact H2. cbn [bind].
  destruct (_ =? length data); cbn [negb]; [|reflexivity].
  destruct (Nat.eqb_spec depth 0); [reflexivity|]. destruct (Nat.eqb_spec rows 0); [reflexivity|]. destruct (Nat.eqb_spec cols 0); [reflexivity|]. cbn [orb].
  destruct (Nat.eqb_spec (length tube) depth) as [Et|]; cbn [negb andb]; [|reflexivity].
  destruct (Nat.eqb_spec (length row) rows) as [Er|]; cbn [negb andb]; [|reflexivity].
  destruct (length col =? cols); cbn [negb]; [|reflexivity].
  assert (Hrc : rows * cols <= depth * rows * cols) by nia.
  match goal with |- bind (for_try rows 0 ?b1 ?s) _ = bind (for_try rows 0 ?b2 _) _ =>
    destruct (@for_try_ext_inv _ (good depth) b1 b2 rows 0 s) as [E HP] end.
  { intros i s Hi Hg. apply for_try_ext_inv; [|exact Hg]. intros k s' Hk Hg'.
    assert (i * cols + cols <= rows * cols) by nia.
    rewrite word_fits by nia. cbn [bind]. rewrite word_fits by nia. cbn [bind]. rewrite word_fits by nia. cbn [bind].
    apply wstrided_slice_fits; [|exact Hg']. assert (E : depth = (depth - 1) + 1) by lia. rewrite E in H2. nia. }
  { split; assumption. }
  rewrite E. clear E. destruct (for_try rows 0 _ (p, data, tube)) as [[[[p1 d1] t1] [|e]]| |]; cbn [bind]; try reflexivity.
  specialize (HP _ _ eq_refl). destruct HP as [HI1 _].
  assert (Hd : forall i, i < depth -> i * rows * cols + rows * cols <= depth * rows * cols).
  { intros i Hi. assert (i + 1 <= depth) by lia. replace (i * rows * cols + rows * cols) with ((i + 1) * rows * cols) by ring.
    apply Nat.mul_le_mono_r. apply Nat.mul_le_mono_r. assumption. }
  assert (Hdr : forall i, i < depth -> i * rows <= depth * rows) by (intros; apply Nat.mul_le_mono_r; lia).
  match goal with |- bind (for_try depth 0 ?b1 ?s) _ = bind (for_try depth 0 ?b2 _) _ =>
    destruct (@for_try_ext_inv _ (good rows) b1 b2 depth 0 s) as [E HP] end.
  { intros i s Hi Hg. apply for_try_ext_inv; [|exact Hg]. intros k s' Hk Hg'.
    pose proof (Hd i ltac:(lia)). pose proof (Hdr i ltac:(lia)). assert (cols <= rows * cols) by nia.
    rewrite word_fits by lia. cbn [bind]. rewrite word_fits by lia. cbn [bind]. rewrite word_fits by lia. cbn [bind].
    apply wstrided_slice_fits; [|exact Hg']. assert (E : rows * cols = (rows - 1) * cols + cols) by nia. lia. }
  { split; assumption. }
  rewrite E. clear E. destruct (for_try depth 0 _ (p1, d1, row)) as [[[[p2 d2] r2] [|e]]| |]; cbn [bind]; try reflexivity.
  match goal with |- bind ?a _ = bind ?b _ => replace a with b; [reflexivity|] end. symmetry.
  apply for_try_ext. intros i s Hi. apply for_try_ext. intros k s' Hk.
  pose proof (Hd i ltac:(lia)). pose proof (Hdr i ltac:(lia)). assert (k * cols + cols <= rows * cols) by nia.
  rewrite word_fits by lia. cbn [bind]. rewrite word_fits by lia. cbn [bind]. rewrite word_fits by lia. cbn [bind]. rewrite word_fits by lia. cbn [bind].
  apply wfft_slice_fits. lia.
Qed.
End Nd.
Theorem C82_fft2d : forall (T : Type) (F : Float T) (c : cfg) W checks p (data : list (cx T)) rows cols scratch,
  reachable c p -> rows * cols < 2 ^ W ->
  wfft2d W checks c p data rows cols scratch = fft2d_inplace c p data rows cols scratch.
Proof. intros. apply wfft2d_fits; [apply reachable_Inv; assumption|assumption]. Qed.
Print Assumptions C82_fft2d.
Theorem C82_fft3d : forall (T : Type) (F : Float T) (c : cfg) W checks p (data : list (cx T)) depth rows cols tube row col,
  reachable c p -> depth * rows < 2 ^ W -> depth * rows * cols < 2 ^ W ->
  wfft3d W checks c p data depth rows cols tube row col = fft3d_inplace c p data depth rows cols tube row col.
Proof. intros. apply wfft3d_fits; [apply reachable_Inv; assumption|assumption|assumption]. Qed.
Print Assumptions C82_fft3d.

(* ---------- short-time transforms ---------- *)
Section Stft.
Context {T : Type} {F : Float T}.
Variables (W : nat) (checks : bool).
Lemma wload_fits signal window start (fr : list (cx T)) : start + length window <= 2 ^ W ->
  wload W checks signal window start fr = load signal window start fr.
Proof.
  intros H. unfold wload, load, for_range. apply for_n_ext. intros i s Hi. unfold wwsample, wsample.
  rewrite word_fits by lia. reflexivity.
Qed.
Lemma woverlap_fits window start (fr : list (cx T)) os : start + length window <= 2 ^ W ->
  woverlap W checks window start fr os = overlap window start fr os.
Proof.
  intros H. unfold woverlap, overlap, for_range. apply for_n_ext. intros i [o q] Hi.
  rewrite word_fits by lia. reflexivity.
Qed.
Context {S : Type}.
Variable op : S -> list (cx T) -> exec (S * list (cx T) * rres).
Lemma wstft_frames_fits signal window hop : forall frames idx s,
  (frames <> [] -> (idx + length frames - 1) * hop < 2 ^ W) -> (frames <> [] -> (idx + length frames - 1) * hop + length window <= 2 ^ W) ->
  wstft_frames W checks op signal window hop idx s frames = stft_frames op signal window hop idx s frames.
Proof.
  induction frames as [|f rest IH]; intros idx s H0 H; [reflexivity|]. cbn [wstft_frames stft_frames].
  specialize (H0 ltac:(discriminate)). specialize (H ltac:(discriminate)). cbn [length] in *.
  assert (idx * hop <= (idx + Datatypes.S (length rest) - 1) * hop) by (apply Nat.mul_le_mono_r; lia).
  rewrite word_fits by lia. cbn [bind]. rewrite wload_fits by lia.
  destruct (load _ _ _ _); cbn [bind]; try reflexivity. destruct (op s _) as [[[s' f'] [|e]]| |]; cbn [bind]; try reflexivity.
  rewrite IH; [reflexivity| |]; intros _; replace (idx + 1 + length rest - 1) with (idx + Datatypes.S (length rest) - 1) by lia; assumption.
Qed.
Lemma wistft_frames_fits window hop : forall frames idx s os,
  (frames <> [] -> (idx + length frames - 1) * hop < 2 ^ W) -> (frames <> [] -> (idx + length frames - 1) * hop + length window <= 2 ^ W) ->
  wistft_frames W checks op window hop idx s frames os = istft_frames op window hop idx s frames os.
Proof.
  induction frames as [|f rest IH]; intros idx s os H0 H; [reflexivity|]. cbn [wistft_frames istft_frames].
  specialize (H0 ltac:(discriminate)). specialize (H ltac:(discriminate)). cbn [length] in *.
  assert (idx * hop <= (idx + Datatypes.S (length rest) - 1) * hop) by (apply Nat.mul_le_mono_r; lia).
  rewrite word_fits by lia. cbn [bind]. destruct (negb _); [reflexivity|].
  destruct (op s _) as [[[s' f'] [|e]]| |]; cbn [bind]; try reflexivity. rewrite woverlap_fits by lia.
  destruct (overlap _ _ _ _); cbn [bind]; try reflexivity.
  rewrite IH; [reflexivity| |]; intros _; replace (idx + 1 + length rest - 1) with (idx + Datatypes.S (length rest) - 1) by lia; assumption.
Qed.
End Stft.
Theorem C82_stft : forall (T : Type) (F : Float T) (S : Type) (op : S -> list (cx T) -> exec (S * list (cx T) * rres))
  W checks s signal window hop output,
  (length output - 1) * hop < 2 ^ W -> (length output - 1) * hop + length window <= 2 ^ W ->
  wstft W checks op s signal window hop output = stft op s signal window hop output.
Proof.
  intros T F S op W checks s signal window hop output H0 H. unfold wstft, stft. destruct (hop =? 0); [reflexivity|].
  destruct (div_ceil _ _); cbn [bind]; try reflexivity. destruct (_ <? _); [reflexivity|]. apply wstft_frames_fits; intros _; assumption.
Qed.
Print Assumptions C82_stft.
(* no overflow when the caller passes as many slots as stft asks for *)
Theorem C82_stft_exact_slots : forall (T : Type) (F : Float T) (S : Type) (op : S -> list (cx T) -> exec (S * list (cx T) * rres))
  W checks s (signal window : list T) hop output,
  div_ceil (length signal) hop = Done (length output) -> length signal < 2 ^ W -> length signal + length window <= 2 ^ W ->
  wstft W checks op s signal window hop output = stft op s signal window hop output.
Proof.
  intros T F S op W checks s signal window hop output Hd H1 H2. unfold div_ceil in Hd.
  destruct (Nat.eqb_spec hop 0); [discriminate|]. injection Hd as Hd.
  assert (Q : (length output - 1) * hop <= length signal).
  { pose proof (Nat.mul_div_le (length signal + hop - 1) hop ltac:(assumption)) as P. rewrite Hd in P. nia. }
  apply C82_stft; lia.
Qed.
Print Assumptions C82_stft_exact_slots.
Theorem C82_istft : forall (T : Type) (F : Float T) (X : FloatX T) (S : Type) (op : S -> list (cx T) -> exec (S * list (cx T) * rres))
  W checks s frames window hop output scratch,
  (length frames - 1) * hop < 2 ^ W -> (length frames - 1) * hop + length window <= 2 ^ W ->
  wistft W checks op s frames window hop output scratch = istft op s frames window hop output scratch.
Proof.
  intros T F X S op W checks s frames window hop output scratch H0 H. unfold wistft, istft. destruct (hop =? 0); [reflexivity|].
  destruct (negb _); [reflexivity|]. rewrite wistft_frames_fits; [reflexivity| |]; intros _; assumption.
Qed.
Print Assumptions C82_istft.
Theorem C82_next_frame : forall (T : Type) (F : Float T) (S : Type) (op : S -> list (cx T) -> exec (S * list (cx T) * rres))
  W checks signal window hop pos s out,
  length signal + length window <= 2 ^ W -> length signal + hop <= 2 ^ W ->
  wnext_frame W checks op signal window hop pos s out = next_frame op signal window hop pos s out.
Proof.
  intros T F S op W checks signal window hop pos s out H1 H2. unfold wnext_frame, next_frame.
  destruct (negb _); [reflexivity|]. destruct (Nat.leb_spec (length signal) pos); [reflexivity|].
  rewrite wload_fits by lia. destruct (load _ _ _ _); cbn [bind]; try reflexivity.
  destruct (op s _) as [[[s' f'] [|e]]| |]; cbn [bind]; try reflexivity. rewrite word_fits by lia. reflexivity.
Qed.
Print Assumptions C82_next_frame.
(* the Kaiser window; length 0 panics only with overflow checks (C64 states the checked build) *)
Theorem C82_kaiser : forall (T : Type) (F : Float T) (X : FloatX T) W checks len (beta : T),
  (0 < len -> wkaiser W checks len beta = kaiser len beta) /\
  (len = 0 -> wkaiser W checks len beta = if checks then Panic else Done []).
Proof.
  intros T F X W checks len beta. unfold wkaiser, kaiser, wsub, usub. split; intros H.
  - destruct (Nat.leb_spec 1 len); [reflexivity|lia].
  - subst len. cbn [Nat.leb bind]. destruct checks; reflexivity.
Qed.
Print Assumptions C82_kaiser.
(* any machine with words of at least 5 bits: a 4x4 array, a strided call and a two-frame analysis *)
Example C82_example : forall (c : cfg) W checks (p : planner R) (x scr : list C), 5 <= W -> reachable c p -> length scr = 4 ->
  wfft2d W checks c p x 4 4 scr = fft2d_inplace c p x 4 4 scr /\
  wstrided W checks (fft c) p x 3 scr = fft_strided c p x 3 scr /\
  wstft W checks (fft c) p [1; 2; 3]%R [1; 1]%R 2 [[]; []] = stft (fft c) p [1; 2; 3]%R [1; 1]%R 2 [[]; []].
Proof.
  intros c W checks p x scr HW Hp Hl. assert (32 <= 2 ^ W) by (change 32 with (2 ^ 5); apply Nat.pow_le_mono_r; lia).
  split; [apply C82_fft2d; [exact Hp|lia]|]. split; [apply C82_strided; rewrite Hl; lia|].
  apply C82_stft_exact_slots; [reflexivity|cbn [length]; lia|cbn [length]; lia].
Qed.

(* ------------------------------------------------------------------ C83 *)
Lemma for_n_panic {S} (P : S -> Prop) (body : nat -> S -> exec S) n : forall lo i0 s, lo <= i0 < lo + n -> P s ->
  (forall i s, lo <= i < i0 -> P s -> exists s', body i s = Done s' /\ P s') ->
  (forall s, P s -> body i0 s = Panic) -> for_n n lo body s = Panic.
Proof.
  induction n as [|n IH]; intros lo i0 s H HP Hd Hx; [lia|]. cbn [for_n].
  destruct (Nat.eq_dec lo i0) as [->|Hne]; [rewrite Hx by exact HP; reflexivity|].
  destruct (Hd lo s ltac:(lia) HP) as (s' & E & HP'). rewrite E. cbn [bind].
  apply IH with (i0 := i0); [lia|exact HP'| |exact Hx]. intros i t Hi. apply Hd. lia.
Qed.
(* A strided call whose extent does not fit a word: the result is that of
   unbounded integers or a panic, never another value. Slices hold at most
   half the address space (isize::MAX bytes). *)
Theorem C83_strided_never_wrong : forall (T : Type) (op : planner T -> list (cx T) -> exec (planner T * list (cx T) * rres))
  W checks p input stride scratch,
  2 * length input <= 2 ^ W -> stride < 2 ^ W ->
  wstrided W checks op p input stride scratch = strided op p input stride scratch \/
  wstrided W checks op p input stride scratch = Panic.
Proof.
  intros T op W checks p input stride scratch Hl Hs. pose proof (pow2_pos W) as Hp.
  destruct (Nat.lt_ge_cases ((length scratch - 1) * stride + 1) (2 ^ W)) as [H|H]; [left; apply C82_strided; exact H|].
  unfold wstrided, strided. destruct (Nat.eqb_spec stride 0) as [|H0]; [left; reflexivity|].
  destruct (Nat.eqb_spec (length scratch) 0) as [|Hn]; [left; reflexivity|].
  destruct (Nat.ltb_spec (length input) ((length scratch - 1) * stride + 1)) as [_|Hc]; [|lia].
  destruct checks.
  { right. destruct (Nat.lt_ge_cases ((length scratch - 1) * stride) (2 ^ W)).
    - rewrite word_fits by assumption. cbn [bind]. rewrite word_panics by exact H. reflexivity.
    - rewrite word_panics by assumption. reflexivity. }
  rewrite !word_wraps. cbn [bind]. rewrite word_wraps. cbn [bind]. destruct (_ <? _); [left; reflexivity|]. right.
  match goal with |- bind ?a _ = _ => replace a with (@Panic (list (cx T))); [reflexivity|] end. symmetry.
  set (n := length scratch) in *. set (L := length input) in *. set (i0 := (L + stride - 1) / stride).
  pose proof (Nat.div_mod (L + stride - 1) stride H0) as D. fold i0 in D. pose proof (Nat.mod_upper_bound (L + stride - 1) stride H0) as Hm.
  assert (Hlo : L <= i0 * stride) by nia.
  assert (Hi : forall i, i < i0 -> i * stride < L).
  { intros i Hi. assert ((i + 1) * stride <= i0 * stride) by (apply Nat.mul_le_mono_r; lia). nia. }
  assert (Hhi : i0 * stride < 2 ^ W).
  { destruct (Nat.le_gt_cases stride L) as [Hc|Hc]; [nia|]. destruct (Nat.eq_dec L 0) as [E0|E0].
    - assert (i0 = 0) by (unfold i0; apply Nat.div_small; lia). nia.
    - assert (i0 = 1) by nia. nia. }
  unfold for_range. apply for_n_panic with (P := fun s => length s = n) (i0 := i0).
  - split; [lia|]. destruct (Nat.lt_ge_cases i0 (0 + (n - 0))) as [Hc|Hc]; [exact Hc|]. exfalso.
    destruct (Nat.eq_dec i0 0); [lia|]. pose proof (Hi (n - 1) ltac:(lia)). lia.
  - reflexivity.
  - intros i s Hin Es. rewrite word_wraps. cbn [bind]. pose proof (Hi i ltac:(lia)).
    rewrite Nat.mod_small by lia. destruct (nth_error input (i * stride)) eqn:En.
    + unfold get. rewrite En. cbn [bind]. assert (i < n). { destruct (Nat.lt_ge_cases i n); [assumption|]. pose proof (Hi (n - 1) ltac:(lia)). lia. }
      rewrite set_ok by lia. eexists. split; [reflexivity|]. rewrite upd_length. exact Es.
    + apply nth_error_None in En. fold L in En. lia.
  - intros s Es. rewrite word_wraps. cbn [bind]. rewrite Nat.mod_small by exact Hhi. rewrite get_panic by exact Hlo. reflexivity.
Qed.
Print Assumptions C83_strided_never_wrong.
(* ... and the panic does happen: the length check is itself subject to wrap-around *)
Lemma pow2_half W : 0 < W -> 2 ^ W = 2 * 2 ^ (W - 1) /\ 0 < 2 ^ (W - 1).
Proof. intros H. split; [rewrite <- Nat.pow_succ_r'; f_equal; lia|apply pow2_pos]. Qed.
Theorem C83_strided_refuted : forall (T : Type) (op : planner T -> list (cx T) -> exec (planner T * list (cx T) * rres)) W checks,
  0 < W -> exists stride, stride < 2 ^ W /\ forall p a s0 s1 s2,
    strided op p [a] stride [s0; s1; s2] = Done (p, [a], [s0; s1; s2], RErr MismatchedLengths) /\
    wstrided W checks op p [a] stride [s0; s1; s2] = Panic.
Proof.
  intros T op W checks HW. destruct (pow2_half HW) as [E Hp]. exists (2 ^ (W - 1)). split; [lia|]. intros p a s0 s1 s2.
  unfold strided, wstrided. destruct (Nat.eqb_spec (2 ^ (W - 1)) 0); [lia|]. cbn [length Nat.eqb Nat.sub].
  split; [destruct (Nat.ltb_spec 1 (2 * 2 ^ (W - 1) + 1)); [reflexivity|lia]|].
  rewrite <- E. destruct checks.
  { rewrite word_panics by lia. reflexivity. }
  rewrite word_wraps. cbn [bind]. rewrite Nat.mod_same by lia. rewrite word_wraps. cbn [bind Nat.add].
  assert (E1 : 1 mod 2 ^ W = 1) by (apply Nat.mod_small; lia). rewrite E1. cbn [Nat.ltb Nat.leb].
  unfold for_range. cbn [Nat.sub for_n]. rewrite word_wraps. cbn [bind Nat.mul]. rewrite Nat.mod_0_l by lia. cbn [get nth_error bind set Nat.ltb Nat.leb length upd].
  rewrite word_wraps. cbn [bind]. rewrite Nat.mod_small by lia. rewrite get_panic by (cbn [length]; lia). reflexivity.
Qed.
Print Assumptions C83_strided_refuted.

(* 2D: an array whose element count does not fit a word is never transformed ... *)
Lemma for_try_reaches {S} (P : S -> Prop) (body : nat -> S -> exec (S * rres)) n : forall lo s s' i0,
  for_try n lo body s = Done (s', ROk) -> P s -> lo <= i0 < lo + n ->
  (forall i s s', P s -> body i s = Done (s', ROk) -> P s') ->
  exists t t', P t /\ body i0 t = Done (t', ROk).
Proof.
  induction n as [|n IH]; intros lo s s' i0 E HP Hi Hk; [lia|]. cbn [for_try] in E.
  destruct (body lo s) as [[s1 [|e]]| |] eqn:Eb; cbn [bind] in E; try discriminate.
  destruct (Nat.eq_dec lo i0) as [->|Hne]; [exists s, s1; split; assumption|].
  eapply IH; [exact E|eapply Hk; eassumption|lia|exact Hk].
Qed.
Theorem C83_fft2d_never_ok : forall (T : Type) (F : Float T) (c : cfg) W checks p (data : list (cx T)) rows cols scratch p' data' scratch',
  reachable c p -> 2 ^ W <= rows * cols -> cols < 2 ^ W -> 2 * length data <= 2 ^ W ->
  wfft2d W checks c p data rows cols scratch <> Done (p', data', scratch', ROk).
Proof.
  intros T F c W checks p data rows cols scratch p' data' scratch' Hp H Hc Hl Er. pose proof (pow2_pos W) as HW. apply reachable_Inv in Hp.
  unfold wfft2d in Er. destruct checks; [rewrite word_panics in Er by exact H; discriminate|].
  rewrite word_wraps in Er. cbn [bind] in Er. destruct (_ =? length data); cbn [negb] in Er; [|discriminate].
  destruct (Nat.eqb_spec rows 0); [nia|]. destruct (Nat.eqb_spec cols 0); [nia|]. cbn [orb] in Er.
  destruct (length scratch =? rows); cbn [negb] in Er; [|discriminate].
  destruct (for_try rows 0 _ (p, data)) as [[[p1 d1] [|e]]| |] eqn:Ef; cbn [bind] in Er; try discriminate. clear Er.
  set (r0 := length data / cols).
  assert (Hr0 : r0 * cols <= length data < r0 * cols + cols).
  { pose proof (Nat.div_mod (length data) cols ltac:(assumption)) as D. fold r0 in D. pose proof (Nat.mod_upper_bound (length data) cols ltac:(assumption)). nia. }
  assert (Hr : r0 < rows). { destruct (Nat.lt_ge_cases r0 rows); [assumption|]. assert (rows * cols <= r0 * cols) by (apply Nat.mul_le_mono_r; assumption). lia. }
  destruct (@for_try_reaches _ (fun s : planner T * list (cx T) => Inv c (fst s) /\ length (snd s) = length data) _ rows 0 (p, data) (p1, d1) r0 Ef) as ((q & d) & (q' & d') & (_ & Hd) & Eb).
  - split; [exact Hp|reflexivity].
  - lia.
  - intros i [q d] [q' d'] [Hq Hd] Eb. cbn [fst snd] in *. rewrite word_wraps in Eb. cbn [bind] in Eb. unfold wfft_slice in Eb.
    rewrite word_wraps in Eb. cbn [bind] in Eb. set (a := (i * cols) mod 2 ^ W) in *. set (b := (a + cols) mod 2 ^ W) in *.
    destruct (Nat.leb_spec a b); cbn [andb] in Eb; [|discriminate]. destruct (Nat.leb_spec b (length d)); [|discriminate].
    inv_bind Eb. destruct v as [[q1 part] r1]. injection Eb as <- <- _.
    destruct (@fft_preserves _ _ c _ _ _ _ _ Hq E) as [HS HL]. split; [apply HS|].
    rewrite firstn_length, skipn_length in HL. rewrite !app_length, firstn_length, skipn_length. lia.
  - cbn [fst snd] in Hd. rewrite word_wraps in Eb. cbn [bind] in Eb. rewrite Nat.mod_small in Eb by lia. unfold wfft_slice in Eb.
    rewrite word_wraps in Eb. cbn [bind] in Eb. rewrite Hd in Eb.
    assert (Hz : (r0 * cols + cols) mod 2 ^ W = r0 * cols + cols \/ (r0 * cols + cols = 2 ^ W /\ (r0 * cols + cols) mod 2 ^ W = 0)).
    { destruct (Nat.eq_dec (r0 * cols + cols) (2 ^ W)) as [E|E]; [right; split; [exact E|rewrite E; apply Nat.mod_same; lia]|left].
      apply Nat.mod_small. destruct (Nat.le_gt_cases cols (length data)); [lia|]. assert (r0 = 0) by (apply Nat.div_small; assumption). nia. }
    destruct Hz as [Hz|[Hz1 Hz]]; rewrite Hz in Eb.
    + destruct (Nat.leb_spec (r0 * cols + cols) (length data)); [lia|]. rewrite andb_false_r in Eb. discriminate.
    + destruct (Nat.leb_spec (r0 * cols) 0); cbn [andb] in Eb; [|discriminate]. nia.
Qed.
Print Assumptions C83_fft2d_never_ok.
(* ... but the mismatch is not reported either: the call panics *)
Theorem C83_fft2d_refuted : forall (T : Type) (F : Float T) (c : cfg) W checks, 0 < W -> exists cols, cols < 2 ^ W /\ forall p (a b : cx T),
  fft2d_inplace c p [] 2 cols [a; b] = Done (p, [], [a; b], RErr MismatchedLengths) /\
  wfft2d W checks c p [] 2 cols [a; b] = Panic.
Proof.
  intros T F c W checks HW. destruct (pow2_half HW) as [E Hp]. exists (2 ^ (W - 1)). split; [lia|]. intros p a b.
  unfold fft2d_inplace, wfft2d. rewrite <- E. cbn [length]. split; [destruct (Nat.eqb_spec (2 ^ W) 0); [lia|reflexivity]|].
  destruct checks; [rewrite word_panics by lia; reflexivity|]. rewrite word_wraps. cbn [bind]. rewrite Nat.mod_same by lia. cbn [Nat.eqb negb orb].
  destruct (Nat.eqb_spec (2 ^ (W - 1)) 0); [lia|]. cbn [for_try]. rewrite word_wraps. cbn [bind Nat.mul]. rewrite Nat.mod_0_l by lia.
  unfold wfft_slice. cbn [Nat.add]. rewrite word_wraps. cbn [bind]. rewrite Nat.mod_small by lia.
  destruct (Nat.leb_spec (2 ^ (W - 1)) (length (@nil (cx T)))) as [H|H]; cbn [length] in H; [lia|]. rewrite andb_false_r. reflexivity.
Qed.
Print Assumptions C83_fft2d_refuted.

(* stft with more slots than frames: past the end of the signal a release
   build transforms the beginning of the signal again *)
Lemma fft_one {T} {F : Float T} c p (z : cx T) : fft c p [z] = Done (p, [z], ROk).
Proof. unfold fft, FUEL. change (fft_fuel c 6) with (fft_body c (fft_fuel c 5)). unfold fft_body. reflexivity. Qed.
Theorem C83_stft_wraps : forall (T : Type) (F : Float T) (c : cfg) W p (a w : T), 0 < W -> exists hop, 0 < hop < 2 ^ W /\
  stft (fft c) p [a] [w] hop [[]; []; []] =
    Done (p, [[mkcx (fmul a w) fzero]; [mkcx fzero fzero]; [mkcx fzero fzero]], ROk) /\
  wstft W false (fft c) p [a] [w] hop [[]; []; []] =
    Done (p, [[mkcx (fmul a w) fzero]; [mkcx fzero fzero]; [mkcx (fmul a w) fzero]], ROk) /\
  wstft W true (fft c) p [a] [w] hop [[]; []; []] = Panic.
Proof.
  intros T F c W p a w HW. destruct (pow2_half HW) as [E Hp]. set (hop := 2 ^ (W - 1)) in *. exists hop. split; [lia|].
  unfold wstft, stft. destruct (Nat.eqb_spec hop 0); [lia|]. unfold div_ceil. destruct (Nat.eqb_spec hop 0); [lia|]. cbn [bind length].
  replace (1 + hop - 1) with hop by lia. rewrite Nat.div_same by assumption. cbn [Nat.ltb Nat.leb].
  cbn [stft_frames wstft_frames]. unfold load, wload, wsample, wwsample, resize, for_range. cbn [length Nat.sub for_n firstn repeat app Nat.add Nat.mul]. rewrite !Nat.add_0_r.
  destruct (Nat.ltb_spec 0 1); [|lia]. destruct (Nat.ltb_spec hop 1) as [Q|_]; [lia|]. destruct (Nat.ltb_spec (hop + hop) 1) as [Q|_]; [lia|].
  cbn [get nth_error bind set length upd Nat.ltb Nat.leb]. rewrite !fft_one. cbn [bind]. rewrite !fft_one. cbn [bind]. rewrite !fft_one. cbn [bind].
  split; [reflexivity|]. split.
  - assert (W0 : word W false 0 = Done 0) by (apply word_fits; lia). assert (W1 : word W false hop = Done hop) by (apply word_fits; lia).
    assert (W2 : word W false (hop + hop) = Done 0). { rewrite word_wraps. f_equal. replace (hop + hop) with (2 ^ W) by lia. apply Nat.mod_same. lia. }
    repeat (rewrite ?W0, ?W1, ?W2, ?Nat.add_0_r; cbn [bind length get nth_error set upd Nat.ltb Nat.leb Nat.sub for_n firstn repeat app Nat.add Nat.mul]; rewrite ?fft_one).
    assert (LT : (hop <=? 0) = false) by (apply Nat.leb_gt; lia). rewrite LT.
    repeat (rewrite ?W0, ?W1, ?W2, ?Nat.add_0_r; cbn [bind length get nth_error set upd Nat.ltb Nat.leb Nat.sub for_n firstn repeat app Nat.add Nat.mul]; rewrite ?fft_one).
    reflexivity.
  - assert (W0 : word W true 0 = Done 0) by (apply word_fits; lia). assert (W1 : word W true hop = Done hop) by (apply word_fits; lia).
    assert (W2 : word W true (hop + hop) = Panic) by (apply word_panics; lia).
    repeat (rewrite ?W0, ?W1, ?W2, ?Nat.add_0_r; cbn [bind length get nth_error set upd Nat.ltb Nat.leb Nat.sub for_n firstn repeat app Nat.add Nat.mul]; rewrite ?fft_one).
    assert (LT : (hop <=? 0) = false) by (apply Nat.leb_gt; lia). rewrite LT.
    repeat (rewrite ?W0, ?W1, ?W2, ?Nat.add_0_r; cbn [bind length get nth_error set upd Nat.ltb Nat.leb Nat.sub for_n firstn repeat app Nat.add Nat.mul]; rewrite ?fft_one).
    reflexivity.
Qed.
Print Assumptions C83_stft_wraps.
(* "past the end of the signal the frames are transforms of zeros", refuted on every word size *)
Theorem C83_stft_refuted : forall (c : cfg) W p, 0 < W -> exists hop (signal window : list R) output frames,
  0 < hop < 2 ^ W /\ wstft W false (fft c) p signal window hop output = Done (p, frames, ROk) /\
  exists k, length signal <= k * hop /\ k < length output /\ nth k frames [] <> [C0].
Proof.
  intros c W p HW. destruct (@C83_stft_wraps R RF c W p 1%R 1%R HW) as (hop & Hh & _ & E & _).
  exists hop, [1%R], [1%R], [[]; []; []], [[mkcx (1 * 1)%R 0%R]; [mkcx 0%R 0%R]; [mkcx (1 * 1)%R 0%R]].
  split; [exact Hh|]. split; [exact E|]. exists 2. cbn [length nth]. split; [lia|]. split; [lia|].
  intros Q. injection Q as Q. lra.
Qed.
Print Assumptions C83_stft_refuted.
(* istft: the frame that belongs past the end of the output is added to its beginning *)
Theorem C83_istft_wraps_refuted : forall (c : cfg) W p, 0 < W -> exists hop (frames : list (list C)) window, 0 < hop < 2 ^ W /\
  istft (ifft c) p frames window hop [0%R] [0%R] = Done (p, frames, [1%R], [1%R], ROk) /\
  wistft W false (ifft c) p frames window hop [0%R] [0%R] = Done (p, frames, [2%R], [2%R], ROk) /\
  wistft W true (ifft c) p frames window hop [0%R] [0%R] = Panic.
Proof.
  intros c W p HW. destruct (pow2_half HW) as [E Hp]. set (hop := 2 ^ (W - 1)) in *. exists hop, [[RtoC 1]; [RtoC 2]; [RtoC 3]], [1%R]. split; [lia|].
  assert (I1 : forall q (z : C), ifft c q [z] = Done (q, [z], ROk)) by reflexivity.
  assert (LT : (hop <=? 0) = false) by (apply Nat.leb_gt; lia). assert (LT2 : (hop + hop <=? 0) = false) by (apply Nat.leb_gt; lia).
  unfold wistft, istft. destruct (Nat.eqb_spec hop 0); [lia|]. cbn [length Nat.eqb negb map].
  cbn [istft_frames wistft_frames]. unfold overlap, woverlap, normalize, for_range, eps8.
  split.
  - repeat (rewrite ?LT, ?LT2, ?Nat.add_0_r, ?I1; cbn [bind length get nth_error set upd Nat.ltb Nat.leb Nat.sub for_n firstn repeat app Nat.add Nat.mul Nat.eqb negb]).
    cbn [fltb RX flit RF RFloat_of fadd fmul fzero fone fdiv re RtoC]. destruct (Rlt_dec _ _) as [_|Hn]; [|exfalso; apply Hn; unfold Q2R; cbn [Qnum Qden]; lra].
    cbn [bind get nth_error set length Nat.ltb Nat.leb upd fdiv]. do 3 f_equal; [f_equal|]; f_equal; f_equal; field.
  - split.
    + assert (W0 : word W false 0 = Done 0) by (apply word_fits; lia). assert (W1 : word W false hop = Done hop) by (apply word_fits; lia).
      assert (W2 : word W false (hop + hop) = Done 0). { rewrite word_wraps. f_equal. replace (hop + hop) with (2 ^ W) by lia. apply Nat.mod_same. lia. }
      repeat (rewrite ?W0, ?W1, ?W2, ?LT, ?LT2, ?Nat.add_0_r, ?I1; cbn [bind length get nth_error set upd Nat.ltb Nat.leb Nat.sub for_n firstn repeat app Nat.add Nat.mul Nat.eqb negb]).
      cbn [fltb RX flit RF RFloat_of fadd fmul fzero fone fdiv re RtoC]. destruct (Rlt_dec _ _) as [_|Hn]; [|exfalso; apply Hn; unfold Q2R; cbn [Qnum Qden]; lra].
      cbn [bind get nth_error set length Nat.ltb Nat.leb upd fdiv]. do 3 f_equal; [f_equal|]; f_equal; f_equal; field.
    + assert (W0 : word W true 0 = Done 0) by (apply word_fits; lia). assert (W1 : word W true hop = Done hop) by (apply word_fits; lia).
      assert (W2 : word W true (hop + hop) = Panic) by (apply word_panics; lia).
      repeat (rewrite ?W0, ?W1, ?W2, ?LT, ?LT2, ?Nat.add_0_r, ?I1; cbn [bind length get nth_error set upd Nat.ltb Nat.leb Nat.sub for_n firstn repeat app Nat.add Nat.mul Nat.eqb negb]).
      reflexivity.
Qed.
Print Assumptions C83_istft_wraps_refuted.

(* ------------------------------------------------------------------ C84 *)
Lemma fofnat_word {T} (F : Float T) w n : n < 2 ^ w -> @fofnat T (word_float w F) n = @fofnat T F n.
Proof. intros H. cbn [word_float fofnat]. rewrite Nat.mod_small by exact H. reflexivity. Qed.
Lemma twf_word {T} (F : Float T) w c n : n < 2 ^ w -> twf (F := word_float w F) c n = twf (F := F) c n.
Proof.
  intros H. unfold twf, lookup_pre. destruct (_ && _).
  - unfold pre_table. apply tab_ext. intros k Hk. assert (k < n) by (pose proof (Nat.div_le_upper_bound n 2 n ltac:(lia) ltac:(lia)); lia).
    rewrite !fofnat_word by lia. reflexivity.
  - unfold tw_table. rewrite fofnat_word by exact H. reflexivity.
Qed.
Lemma pow2fft_word {T} (F : Float T) w c (x : list (cx T)) : length x < 2 ^ w -> pow2fft (F := word_float w F) c x = pow2fft (F := F) c x.
Proof.
  intros H. unfold pow2fft, stkp. rewrite twf_word by exact H. reflexivity.
Qed.
Lemma blue_angle_word {T} (F : Float T) w n i : n < 2 ^ w -> i * i < 2 ^ w -> blue_angle (F := word_float w F) n i = blue_angle (F := F) n i.
Proof. intros H1 H2. unfold blue_angle. rewrite !fofnat_word by assumption. reflexivity. Qed.
Lemma bluefft_word {T} (F : Float T) w c (x : list (cx T)) : (length x - 1) * (length x - 1) < 2 ^ w -> blue_m (length x) < 2 ^ w ->
  bluefft (F := word_float w F) c x = bluefft (F := F) c x.
Proof.
  intros H1 H2. set (n := length x) in *. pose proof (blue_m_ge n) as Hm.
  assert (Hn : n < 2 ^ w) by (pose proof (pow2_pos w); lia).
  assert (Hsq : forall i, i < n -> i * i < 2 ^ w). { intros i Hi. apply Nat.le_lt_trans with ((n - 1) * (n - 1)); [apply Nat.mul_le_mono; lia|exact H1]. }
  assert (EC : blue_chirp (F := word_float w F) n = blue_chirp (F := F) n).
  { unfold blue_chirp. apply tab_ext. intros i Hi. rewrite blue_angle_word; [reflexivity|exact Hn|apply Hsq; exact Hi]. }
  assert (EB : bl_b (F := word_float w F) n = bl_b (F := F) n).
  { unfold bl_b. apply tab_ext. intros i Hi. destruct (Nat.ltb_spec i n); [rewrite blue_angle_word; [reflexivity|exact Hn|apply Hsq; assumption]|].
    destruct (Nat.ltb_spec (blue_m n - n) i); [|reflexivity]. rewrite blue_angle_word; [reflexivity|exact Hn|apply Hsq; lia]. }
  unfold bluefft, bl_out, bl_a, bl_fft_b. fold n. rewrite EC, EB.
  assert (Lb : length (bl_b (F := F) n) = blue_m n) by apply bl_b_length.
  rewrite !pow2fft_word.
  - unfold bl_scale. rewrite fofnat_word by exact H2. reflexivity.
  - rewrite Lb. exact H2.
  - rewrite app_length, tab_length, repeat_length. fold n. lia.
  - rewrite map_length, zip_apply_length. rewrite pow2fft_length; rewrite ?app_length, ?tab_length, ?repeat_length; fold n.
    + replace (n + (blue_m n - n)) with (blue_m n) by lia. exact H2.
    + replace (n + (blue_m n - n)) with (blue_m n) by lia. apply blue_m_pow2.
Qed.
(* As long as (n-1)^2 and the padded length fit a word, the transform is bit
   for bit the one computed with unbounded integers. *)
Theorem C84_fits : forall (T : Type) (F : Float T) (c : cfg) w (x : list (cx T)), 0 < length x ->
  (length x - 1) * (length x - 1) < 2 ^ w -> next_pow2 (2 * length x - 1) < 2 ^ w -> c_std c = true \/ is_pow2 (length x) = true ->
  exists p p' y, fft (F := F) c new_planner x = Done (p, y, ROk) /\ fft (F := word_float w F) c new_planner x = Done (p', y, ROk).
Proof.
  intros T F c w x Hn H1 H2 Hs. destruct (@fft_fresh_ok T F c x Hn Hs) as [p E]. destruct (@fft_fresh_ok T (word_float w F) c x Hn Hs) as [p' E'].
  exists p, p', (fft_fresh (F := F) c x). split; [exact E|]. rewrite E'. do 2 f_equal. f_equal. unfold fft_fresh.
  pose proof (next_pow2_ge (2 * length x - 1)). destruct (is_pow2 (length x)); [apply pow2fft_word; lia|apply bluefft_word; assumption].
Qed.
Print Assumptions C84_fits.
(* With overflow checks a length whose indices do not fit panics before anything is computed, and every other length gives
   the tables computed with unbounded integers. *)
Lemma for_fits W n : (forall i, i < n -> i * i < 2 ^ W) -> exists z, for_range 0 n (fun i _ => word W true (i * i)) 0 = Done z.
Proof.
  intros H. destruct (@for_inv nat (fun _ _ => True) (fun i _ => word W true (i * i)) 0 n 0) as (z & E & _); [lia|exact I| |eauto].
  intros i s Hi _. unfold word. destruct (Nat.ltb_spec (i * i) (2 ^ W)) as [_|L]; [eauto|]. specialize (H i ltac:(lia)). lia.
Qed.
Lemma for_breaks W n : 0 < n -> 2 ^ W <= (n - 1) * (n - 1) -> for_range 0 n (fun i _ => word W true (i * i)) 0 = Panic.
Proof.
  intros H0 H. unfold for_range. rewrite Nat.sub_0_r. assert (K : forall k a z, a + k = n -> 0 < k -> for_n k a (fun i _ => word W true (i * i)) z = Panic).
  { induction k as [|k IH]; intros a z Ha Hk; [lia|]. cbn [for_n]. unfold word at 1. destruct (Nat.ltb_spec (a * a) (2 ^ W)) as [L|L]; [|reflexivity]. cbn [bind]. apply IH; [lia|]. destruct k; [|lia]. assert (a = n - 1) by lia. subst a. lia. }
  exact (K n 0 0 ltac:(lia) H0).
Qed.
Theorem C84_checked : forall (T : Type) (F : Float T) (c : cfg) W (p : planner T) n, 1 < n -> assoc n (pl_blue p) = None ->
  (2 ^ W <= (n - 1) * (n - 1) -> checked_bluestein W c p n = Panic) /\
  ((n - 1) * (n - 1) < 2 ^ W -> next_pow2 (2 * n - 1) < 2 ^ W -> checked_bluestein W c p n = get_bluestein c p n).
Proof.
  intros T F c W p n Hn Hc. unfold checked_bluestein. rewrite Hc. split.
  - intros H. unfold word at 1. destruct (2 * n <? 2 ^ W); [|reflexivity]. cbn [bind]. unfold word at 1. destruct (next_pow2 (2 * n - 1) <? 2 ^ W); [|reflexivity]. cbn [bind]. rewrite for_breaks by lia. reflexivity.
  - intros H1 H2. pose proof (next_pow2_ge (2 * n - 1)) as G. assert (L : 2 * n < 2 ^ W).
    { unfold next_pow2 in *. pose proof (Nat.log2_up_lt_pow2 (2 * n - 1) 1 ltac:(lia)) as K. destruct (Nat.log2_up (2 * n - 1)) as [|k]; [cbn in G; lia|]. rewrite Nat.pow_succ_r' in *. lia. }
    unfold word at 1. destruct (Nat.ltb_spec (2 * n) (2 ^ W)); [|lia]. cbn [bind]. unfold word at 1. destruct (Nat.ltb_spec (next_pow2 (2 * n - 1)) (2 ^ W)); [|lia]. cbn [bind].
    destruct (@for_fits W n) as [z ->]; [|reflexivity]. intros i Hi. apply Nat.le_lt_trans with ((n - 1) * (n - 1)); [apply Nat.mul_le_mono; lia|exact H1].
Qed.
Print Assumptions C84_checked.
Example C84_checked_example : forall h, 3 <= h -> 2 ^ (2 * h) <= (2 ^ h + 1 - 1) * (2 ^ h + 1 - 1) /\ 6 * 6 < 2 ^ (2 * h) /\ next_pow2 (2 * 7 - 1) < 2 ^ (2 * h).
Proof.
  intros h Hh. replace (2 * h) with (h + h) by lia. rewrite Nat.pow_add_r. assert (2 ^ 3 <= 2 ^ h) by (apply Nat.pow_le_mono_r; lia). change (2 ^ 3) with 8 in *. replace (2 ^ h + 1 - 1) with (2 ^ h) by lia. split; [lia|]. change (next_pow2 (2 * 7 - 1)) with 16. nia.
Qed.

(* 65535 points on wasm32, and every length there is on a 64-bit machine below 2^32 *)
Example C84_fits_n : forall h n, 3 <= h -> 0 < n -> n <= 2 ^ h -> (n - 1) * (n - 1) < 2 ^ (2 * h) /\ next_pow2 (2 * n - 1) < 2 ^ (2 * h).
Proof.
  intros h n Hh H0 Hn. replace (2 * h) with (h + h) by lia. rewrite Nat.pow_add_r. assert (2 ^ 3 <= 2 ^ h) by (apply Nat.pow_le_mono_r; lia). change (2 ^ 3) with 8 in *.
  pose proof (@next_pow2_lt (2 * n - 1) ltac:(lia)). split; [nia|]. nia.
Qed.

Open Scope R_scope.
Lemma word_RF_rounded w : rounded (word_float w RF) 0.
Proof.
  split; cbn [word_float RF RFloat_of fzero fone fneg fadd fsub fmul fdiv fmul_add]; try reflexivity; try lra; intros;
    rewrite Rminus_diag_eq by reflexivity; rewrite Rabs_R0; lra.
Qed.
Definition wangle (w n i : nat) : R := PI * INR ((i * i) mod 2 ^ w) / INR n.
Lemma word_chirp w n : (0 < n)%nat -> (n < 2 ^ w)%nat -> chirp_at (word_float w RF) (wangle w n) n 0.
Proof.
  intros Hn Hw i Hi. unfold blue_angle. rewrite (@fofnat_word R RF w n) by exact Hw.
  change (@fdiv R (word_float w RF) (@fmul R (word_float w RF) (@fpi R (word_float w RF)) (@fofnat R (word_float w RF) (i * i))) (@fofnat R RF n)) with (wangle w n i).
  change (@fneg R (word_float w RF) (wangle w n i)) with (- wangle w n i).
  split.
  - change (expi (F := word_float w RF) (wangle w n i)) with (cis (wangle w n i)). replace (cis (wangle w n i) -c cis (wangle w n i)) with C0 by ring. rewrite Cabs_0. lra.
  - change (expi (F := word_float w RF) (- wangle w n i)) with (cis (- wangle w n i)). replace (cis (- wangle w n i) -c cis (- wangle w n i)) with C0 by ring. rewrite Cabs_0. lra.
Qed.
Lemma twf_at c n k : (k < n / 2)%nat -> at_ (twf (F := RF) c n) k = W n k.
Proof.
  intros Hk. rewrite <- (@twf_R c n k Hk). unfold at_, nthc. apply nth_indep. rewrite twf_length. exact Hk.
Qed.
Lemma Cabs_sub_0 a b : Cabs (a -c b) <= 0 -> a = b.
Proof.
  intros H. pose proof (Cabs_nonneg (a -c b)) as H0. pose proof (Cabs_sq (a -c b)) as Q. replace (Cabs (a -c b)) with 0 in Q by lra.
  destruct a as [ar ai], b as [br bi]. unfold Cnorm2 in Q. cbn [Csub re im] in Q.
  pose proof (Rle_0_sqr (ar - br)) as S1. pose proof (Rle_0_sqr (ai - bi)) as S2. unfold Rsqr in S1, S2.
  f_equal; apply Rminus_diag_uniq, Rsqr_0_uniq; unfold Rsqr; lra.
Qed.
(* On a machine with 2h-bit words (wasm32: h = 16) the length 2^h + 1 is already
   too long: i * i wraps to 0 at the last index and the last output is wrong by
   at least 1 on a unit impulse, in exact arithmetic. *)
Theorem C84_refuted : forall (c : cfg) h, c_std c = true -> (3 <= h)%nat -> let n := (2 ^ h + 1)%nat in exists p y,
  fft (F := word_float (2 * h) RF) c (new_planner (T := R)) (delta1 n) = Done (p, y, ROk) /\
  1 <= Cabs (at_ y (2 ^ h) -c at_ (DFT (delta1 n)) (2 ^ h)).
Proof.
  intros c h Hs Hh n. set (w := (2 * h)%nat). set (N := (2 ^ h)%nat) in *. assert (HN : (8 <= N)%nat) by (change 8%nat with (2 ^ 3)%nat; apply Nat.pow_le_mono_r; lia).
  assert (Ew : (2 ^ w = N * N)%nat) by (unfold w, N; rewrite <- Nat.pow_add_r; f_equal; lia).
  assert (Hev : exists q, N = (2 * q)%nat /\ (4 <= q)%nat).
  { exists (2 ^ (h - 1))%nat. assert (N = 2 * 2 ^ (h - 1))%nat by (unfold N; rewrite <- Nat.pow_succ_r'; f_equal; lia). lia. }
  destruct Hev as (q & Eq & Hq). set (x := delta1 n). assert (Hx : length x = n) by apply tab_length.
  assert (Hnp : is_pow2 n = false).
  { destruct (is_pow2 n) eqn:E; [|reflexivity]. apply is_pow2_iff in E. destruct E as [[|L] EL]; unfold n in EL; [cbn in EL; lia|].
    rewrite Nat.pow_succ_r' in EL. lia. }
  assert (Hm : (blue_m n < 2 ^ w)%nat) by (unfold blue_m; pose proof (@next_pow2_lt (2 * n - 1) ltac:(unfold n; lia)); rewrite Ew; unfold n in *; nia).
  assert (Hm1 : (2 * n - 1 <= blue_m n)%nat) by apply blue_m_ge.
  assert (Hnw : (n < 2 ^ w)%nat) by (unfold n in *; lia).
  destruct (@fft_fresh_ok R (word_float w RF) c x ltac:(unfold n in *; lia) (or_introl Hs)) as [p E].
  exists p, (fft_fresh (F := word_float w RF) c x). split; [exact E|].
  assert (HnR : 0 < INR n) by (apply lt_0_INR; unfold n; lia).
  assert (EN : INR n = INR N + 1) by (unfold n; rewrite plus_INR; reflexivity).
  (* the transform is the chirp transform with the wrapped angles *)
  pose proof (@bluefft_near_gen (word_float w RF) 0 (word_RF_rounded w) c 0 ltac:(lra) (wangle w n) 1 (fun j => Cabs (at_ x j)) x x 0) as NK.
  rewrite Hx in NK. specialize (NK ltac:(intros; unfold n in *; lia) ltac:(unfold n; lia) ltac:(lra) (@word_chirp w n ltac:(unfold n; lia) Hnw)).
  specialize (NK ltac:(intros _ k Hk; rewrite twf_word by exact Hm; rewrite twf_at by exact Hk; replace (W (blue_m n) k -c W (blue_m n) k) with C0 by ring; rewrite Cabs_0; lra)).
  specialize (NK ltac:(rewrite fofnat_word by exact Hm; reflexivity) (near_self x)).
  assert (EK : at_ (bluefft (F := word_float w RF) c x) N = at_ (chirpz (wangle w n) x) N).
  { destruct NK as [_ NK]. specialize (NK N ltac:(unfold chirpz; rewrite tab_length, Hx; unfold n; lia)). destruct NK as (_ & _ & NK).
    assert (Q1 : QQ 0 0 = 1) by (unfold QQ, gam; nra). assert (G0 : gam 0 = 0) by (unfold gam; lra).
    rewrite Q1, G0, pow1 in NK. rewrite !Rplus_0_r, !Rmult_1_r, !pow1, !Rmult_1_r in NK.
    replace ((1 - 1) * ((2 * INR n - 1) * rsum n (fun j => Cabs (at_ x j)))) with 0 in NK by ring.
    apply Cabs_sub_0. exact NK. }
  assert (EF : fft_fresh (F := word_float w RF) c x = bluefft (F := word_float w RF) c x) by (unfold fft_fresh; rewrite Hx, Hnp; reflexivity).
  rewrite EF, EK.
  (* both values *)
  set (t := PI / INR n).
  assert (ED : at_ (DFT x) N = cis (- (2 * INR N * t))).
  { rewrite DFT_at by (rewrite Hx; unfold n; lia). unfold dft. rewrite Hx, (@csum_only n 1).
    3:{ intros i Hi Hi1. unfold x, delta1. rewrite at_tab by exact Hi. destruct (Nat.eqb_spec i 1); [lia|ring]. }
    2:{ unfold n; lia. }
    unfold x, delta1. rewrite at_tab by (unfold n; lia). cbn [Nat.eqb]. unfold W. rewrite Nat.mul_1_l.
    replace (- (2 * PI * INR N / INR n)) with (- (2 * INR N * t)) by (unfold t; field; lra). ring. }
  assert (EZ : at_ (chirpz (wangle w n) x) N = cis ((INR N * INR N - 2 * INR N) * t)).
  { unfold chirpz. rewrite Hx, at_tab by (unfold n; lia). rewrite (@csum_only n 1).
    3:{ intros i Hi Hi1. unfold x, delta1. rewrite at_tab by exact Hi. destruct (Nat.eqb_spec i 1); [lia|ring]. }
    2:{ unfold n; lia. }
    unfold x, delta1. rewrite at_tab by (unfold n; lia). cbn [Nat.eqb].
    assert (Eg : gap N 1 = (N - 1)%nat) by (unfold gap; lia). rewrite Eg.
    assert (T1 : wangle w n 1 = t). { unfold wangle. rewrite Nat.mod_small by nia. cbn [Nat.mul Nat.add INR]. unfold t. field. lra. }
    assert (T2 : wangle w n (N - 1) = (INR N - 1) * (INR N - 1) * t).
    { unfold wangle. rewrite Nat.mod_small by nia. rewrite mult_INR, minus_INR by lia. cbn [INR]. unfold t. field. lra. }
    assert (T3 : wangle w n N = 0). { unfold wangle. rewrite <- Ew, Nat.mod_same by nia. cbn [INR]. unfold Rdiv. ring. }
    rewrite T1, T2, T3. replace (- t + (INR N - 1) * (INR N - 1) * t - 0) with ((INR N * INR N - 2 * INR N) * t) by ring. ring. }
  assert (EV : cis ((INR N * INR N - 2 * INR N) * t) = cis (- (2 * INR N * t)) *c (Copp C1 *c cis t)).
  { replace ((INR N * INR N - 2 * INR N) * t) with (- (2 * INR N * t) + ((INR N * INR N - 1) * t + t)) by ring.
    rewrite !cis_add. f_equal. f_equal.
    replace ((INR N * INR N - 1) * t) with ((INR N - 1) * PI) by (unfold t; rewrite EN; field; lra).
    replace ((INR N - 1) * PI) with (2 * INR (q - 1) * PI + PI).
    - rewrite cis_add, cis_2PI_nat, cis_PI. ring.
    - rewrite minus_INR by lia. rewrite Eq, mult_INR. cbn [INR]. ring. }
  rewrite EZ, ED, EV.
  replace (cis (- (2 * INR N * t)) *c (Copp C1 *c cis t) -c cis (- (2 * INR N * t))) with (cis (- (2 * INR N * t)) *c Copp (C1 +c cis t)) by ring.
  rewrite Cabs_mul, Cabs_cis, Rmult_1_l. unfold Cabs. rewrite <- sqrt_1. apply sqrt_le_1_alt.
  unfold Cnorm2, cis. cbn [Copp Cadd C1 re im].
  assert (Ht : 0 < t < 1). { pose proof PI_4. pose proof PI_RGT_0. assert (9 <= INR n) by (replace 9 with (INR 9) by (cbn; lra); apply le_INR; unfold n; lia).
    unfold t. split; [apply Rdiv_lt_0_compat; lra|]. apply Rmult_lt_reg_r with (INR n); [lra|]. unfold Rdiv. rewrite Rmult_assoc, Rinv_l by lra. lra. }
  assert (Hc : 0 < cos t). { apply cos_gt_0; pose proof PI2_3_2; lra. }
  pose proof (Rle_0_sqr (sin t)) as S2. unfold Rsqr in S2. nra.
Qed.
Print Assumptions C84_refuted.
(* wasm32: 65537 points *)
Example C84_wasm32 : exists p y,
  fft (F := word_float 32 RF) (cfg_std F32) (new_planner (T := R)) (delta1 (2 ^ 16 + 1)) = Done (p, y, ROk) /\
  1 <= Cabs (at_ y (2 ^ 16) -c at_ (DFT (delta1 (2 ^ 16 + 1))) (2 ^ 16)).
Proof. exact (@C84_refuted (cfg_std F32) 16 eq_refl ltac:(lia)). Qed.

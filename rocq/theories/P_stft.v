(* Properties C32-C38: short-time Fourier transform. *)
From Coq Require Import ZArith ZifyBool ZifyNat Lra Reals Permutation.
From Verif Require Import L_stft RX.
Ltac Zify.zify_post_hook ::= Z.div_mod_to_equations.
Set Implicit Arguments.
Open Scope nat_scope.

(* ------------------------------------------------------------------ C32 *)
(* w[j] * signal[start+j], samples past the end read as 0 *)
Definition windowed (signal window : list R) (start : nat) : list C :=
  tab (length window) (fun j => RtoC (nth j window 0 * nth (start + j) signal 0)%R).
Lemma wframe_R signal window start : wframe (F := RF) signal window start = windowed signal window start.
Proof.
  apply tab_ext. intros i Hi. unfold RtoC. cbn [fmul fzero RF RFloat_of]. f_equal.
  destruct (Nat.ltb_spec (start + i) (length signal)); [ring|]. rewrite (nth_overflow signal) by lia. ring.
Qed.
Lemma windowed_length signal window start : length (windowed signal window start) = length window.
Proof. apply tab_length. Qed.
Lemma ceil_le a b n : 0 < b -> ((a + b - 1) / b <= n <-> a <= b * n).
Proof. intros Hb. split; intros H; nia. Qed.
(* enough slots: hop * slots covers the signal *)
Theorem C32_stft_frames : forall (S : Type) (op : S -> list C -> exec (S * list C * rres)) s signal window hop frames,
  0 < hop -> length signal <= hop * length frames -> steady op DFT (length window) s ->
  exists s', stft op s signal window hop frames = Done (s', tab (length frames) (fun k => DFT (windowed signal window (k * hop))), ROk).
Proof.
  intros S op s signal window hop frames Hh Hf Hop.
  destruct (@steady_runs R S op DFT (length window) s (tab (length frames) (fun k => windowed signal window (k * hop))) Hop) as [s' H].
  - intros z Hz. rewrite DFT_length. exact Hz.
  - intros z Hz. unfold tab in Hz. apply in_map_iff in Hz. destruct Hz as (k & <- & _). apply windowed_length.
  - exists s'. rewrite map_tab in H. apply stft_ok; [exact Hh|apply ceil_le; assumption|].
    erewrite tab_ext; [exact H|]. intros i Hi. apply wframe_R.
Qed.
Print Assumptions C32_stft_frames.
(* with the crate's scalar object, after any calls no larger than the window *)
Theorem C32_scalar_object : forall (c : cfg) p signal window hop frames,
  0 < hop -> length signal <= hop * length frames -> 0 < length window -> c_std c = true \/ is_pow2 (length window) = true ->
  upto c (length window) p ->
  exists p', stft (fft c) p signal window hop frames = Done (p', tab (length frames) (fun k => DFT (windowed signal window (k * hop))), ROk).
Proof.
  intros c p signal window hop frames Hh Hf Hw Hs Hp. apply C32_stft_frames; try assumption.
  eapply steady2_l. apply scalar_exact; eassumption.
Qed.
Print Assumptions C32_scalar_object.
Theorem C32_errors : forall (T : Type) (F : Float T) (S : Type) (op : S -> list (cx T) -> exec (S * list (cx T) * rres)) s signal window hop frames,
  (hop = 0 -> stft op s signal window hop frames = Done (s, frames, RErr InvalidHopSize)) /\
  (0 < hop -> hop * length frames < length signal -> stft op s signal window hop frames = Done (s, frames, RErr MismatchedLengths)).
Proof.
  intros T F S op s signal window hop frames. unfold stft. split.
  - intros ->. reflexivity.
  - intros Hh Hl. destruct (Nat.eqb_spec hop 0); [lia|]. rewrite div_ceil_ok by lia. cbn [bind].
    destruct (Nat.ltb_spec (length frames) ((length signal + hop - 1) / hop)) as [_|H]; [reflexivity|]. apply ceil_le in H; lia.
Qed.
Print Assumptions C32_errors.
(* the single-frame function *)
Theorem C32_frame : forall (S : Type) (op : S -> list C -> exec (S * list C * rres)) s signal window start out,
  (length out = length window -> steady op DFT (length window) s -> exists s', frame op s signal window start out = Done (s', DFT (windowed signal window start), ROk)) /\
  (length out < length window -> frame op s signal window start out = Panic).
Proof.
  intros S op s signal window start out. unfold frame. split.
  - intros Hl (P & Hs & HP). rewrite (load_exact op); [|exact Hl]. cbn [bind]. rewrite wframe_R.
    destruct (HP s _ Hs (windowed_length signal window start)) as (s' & E & _). exists s'. exact E.
  - intros Hl. unfold load, for_range. rewrite Nat.sub_0_r.
    assert (G : forall n i (fr : list C), length fr = length out -> i <= length out -> length out < i + n -> i + n <= length window ->
      for_n n i (fun i fr => x <- wsample signal window start i;; set fr i (mkcx x fzero)) fr = Panic).
    { induction n as [|n IH]; intros i fr Hfr Hi Hn Hw; [lia|]. cbn [for_n].
      assert (exists x, wsample signal window start i = Done x) as [x ->].
      { unfold wsample. destruct (Nat.ltb_spec (start + i) (length signal)); [|eauto]. rewrite !get_nth with (d := fzero) by lia. eexists. reflexivity. }
      cbn [bind]. destruct (Nat.eq_dec i (length out)).
      - rewrite set_panic by lia. reflexivity.
      - rewrite set_ok by lia. cbn [bind]. apply IH; rewrite ?upd_length; lia. }
    rewrite G by lia. reflexivity.
Qed.
Print Assumptions C32_frame.
Example C32_example : exists s', stft (fft (cfg_std F32)) new_planner [1; 2; 3; 4; 5]%R [1; 1; 1]%R 2 (repeat [] 3) =
  Done (s', [DFT [RtoC (1 * 1); RtoC (1 * 2); RtoC (1 * 3)]; DFT [RtoC (1 * 3); RtoC (1 * 4); RtoC (1 * 5)]; DFT [RtoC (1 * 5); RtoC (1 * 0); RtoC (1 * 0)]]%R, ROk).
Proof.
  destruct (@C32_scalar_object (cfg_std F32) new_planner [1; 2; 3; 4; 5]%R [1; 1; 1]%R 2 (repeat [] 3)) as [p' E]; [lia|cbn; lia|cbn; lia|left; reflexivity|apply upto_new|].
  - exists p'. rewrite E. reflexivity.
Qed.

(* ------------------------------------------------------------------ C33 *)
(* a caller that asks for a frame once per buffer *)
Fixpoint next_frames {T} {F : Float T} {S} (op : S -> list (cx T) -> exec (S * list (cx T) * rres)) (signal window : list T) (hop pos : nat) (s : S)
  (outs : list (list (cx T))) : exec (S * list (list (cx T) * result bool)) :=
  match outs with
  | [] => Done (s, [])
  | o :: rest =>
    '(s, pos, o, r) <- next_frame op signal window hop pos s o ;;
    '(s, rs) <- next_frames op signal window hop pos s rest ;; Done (s, (o, r) :: rs)
  end.
Lemma next_frames_end {T} {F : Float T} {S} (op : S -> list (cx T) -> exec (S * list (cx T) * rres)) signal window hop s : forall outs pos,
  (forall o, In o outs -> length o = length window) -> length signal <= pos ->
  next_frames op signal window hop pos s outs = Done (s, map (fun o => (o, Ok false)) outs).
Proof.
  induction outs as [|o rest IH]; intros pos Ho Hp; cbn [next_frames map]; [reflexivity|].
  rewrite next_frame_end; [|apply Ho; left; reflexivity|exact Hp]. cbn [bind]. rewrite IH; [reflexivity|intros; apply Ho; right; assumption|exact Hp].
Qed.
Lemma next_frames_batch {T} {F : Float T} {S} (op : S -> list (cx T) -> exec (S * list (cx T) * rres)) signal window hop s' ys more :
  (forall o, In o more -> length o = length window) -> forall frames outs idx s,
  length outs = length frames -> (forall o, In o outs -> length o = length window) -> 0 < hop ->
  (forall k, k < length frames -> (idx + k) * hop < length signal) -> length signal <= (idx + length frames) * hop ->
  stft_frames op signal window hop idx s frames = Done (s', ys, ROk) ->
  next_frames op signal window hop (idx * hop) s (outs ++ more) = Done (s', map (fun y => (y, Ok true)) ys ++ map (fun o => (o, Ok false)) more).
Proof.
  intros Hm. revert s' ys. intros s' ys frames. revert ys. induction frames as [|f rest IH]; intros ys [|o outs] idx s Hl Ho Hh Hin Hend; cbn [length] in *; try lia; cbn [stft_frames].
  - intros [= -> <-]. apply next_frames_end; [exact Hm|]. nia.
  - rewrite (load_exact op) by apply resize_length. cbn [bind]. destruct (op s (wframe signal window (idx * hop))) as [[[s1 y] [|e]]| |] eqn:E; cbn [bind]; try discriminate.
    destruct (stft_frames op signal window hop (idx + 1) s1 rest) as [[[s2 ys2] r2]| |] eqn:E2; cbn [bind]; try discriminate. intros [= -> <- ->].
    cbn [app next_frames]. erewrite next_frame_ok; [|apply Ho; left; reflexivity| |exact E].
    2:{ specialize (Hin 0 ltac:(lia)). rewrite Nat.add_0_r in Hin. exact Hin. }
    cbn [bind]. replace (idx * hop + hop) with ((idx + 1) * hop) by lia. erewrite IH; [| | | | | |exact E2].
    + reflexivity.
    + lia.
    + intros; apply Ho; right; assumption.
    + exact Hh.
    + intros k Hk. replace (idx + 1 + k) with (idx + Datatypes.S k) by lia. apply Hin. lia.
    + replace (idx + 1 + length rest) with (idx + Datatypes.S (length rest)) by lia. exact Hend.
Qed.
(* K is the number of frames: the least with K * hop covering the signal *)
Theorem C33_streaming_equals_batch : forall (T : Type) (F : Float T) (S : Type) (op : S -> list (cx T) -> exec (S * list (cx T) * rres))
  s signal window hop K frames outs more s' ys,
  0 < hop -> length signal <= K * hop -> (forall k, k < K -> k * hop < length signal) -> length frames = K ->
  stft op s signal window hop frames = Done (s', ys, ROk) ->
  length outs = K -> (forall o, In o (outs ++ more) -> length o = length window) ->
  stream_new hop = Ok 0 /\
  next_frames op signal window hop 0 s (outs ++ more) = Done (s', map (fun y => (y, Ok true)) ys ++ map (fun o => (o, Ok false)) more).
Proof.
  intros T F S op s signal window hop K frames outs more s' ys Hh Hc Hin Hf E Ho Hlen. split.
  - unfold stream_new. destruct (Nat.eqb_spec hop 0); [lia|reflexivity].
  - unfold stft in E. destruct (Nat.eqb_spec hop 0); [lia|]. rewrite div_ceil_ok in E by lia. cbn [bind] in E.
    destruct (_ <? _); [discriminate|]. replace 0 with (0 * hop) by lia. eapply next_frames_batch; try exact E; try lia.
    + intros o Hin'. apply Hlen, in_or_app. auto.
    + intros o Hin'. apply Hlen, in_or_app. auto.
    + intros k Hk. apply Hin. lia.
Qed.
Print Assumptions C33_streaming_equals_batch.
Theorem C33_errors : forall (T : Type) (F : Float T) (S : Type) (op : S -> list (cx T) -> exec (S * list (cx T) * rres)) s signal window hop pos out,
  stream_new 0 = Err InvalidHopSize /\
  (length out <> length window -> next_frame op signal window hop pos s out = Done (s, pos, out, Err MismatchedLengths)).
Proof.
  intros. split; [reflexivity|]. intros H. unfold next_frame. destruct (Nat.eqb_spec (length out) (length window)); [contradiction|reflexivity].
Qed.
Print Assumptions C33_errors.
Example C33_example : length [1; 2; 3; 4; 5]%R <= 3 * 2 /\ (forall k, k < 3 -> k * 2 < length [1; 2; 3; 4; 5]%R) /\
  exists s' ys, stft (fft (cfg_std F32)) new_planner [1; 2; 3; 4; 5]%R [1; 1; 1]%R 2 (repeat [] 3) = Done (s', ys, ROk).
Proof.
  split; [cbn; lia|]. split; [cbn; lia|]. destruct C32_example as [s' E]. eauto.
Qed.

(* ------------------------------------------------------------------ C34 *)
(* sum of squared window values over the frames covering sample p *)
Definition energy (window : list R) (hop K p : nat) : R :=
  rsum K (fun k => if (k * hop <=? p) && (p <? k * hop + length window) then nth (p - k * hop) window 0 * nth (p - k * hop) window 0 else 0)%R.
Lemma ola_R (g : nat -> nat -> R) wl hop p k a0 :
  ola g wl hop p k a0 = (a0 + rsum k (fun j => if (j * hop <=? p) && (p <? j * hop + wl) then g j (p - j * hop)%nat else 0))%R.
Proof.
  induction k as [|k IH]; cbn [ola rsum]; [ring|]. rewrite IH. cbn [fadd RF RFloat_of]. destruct (_ && _); ring.
Qed.
Lemma gwin_energy window hop p K : ola (gwin window) (length window) hop p K 0%R = energy window hop K p.
Proof. rewrite ola_R. unfold energy. rewrite Rplus_0_l. reflexivity. Qed.
Lemma eps8_R : eps8 (F := RF) = (/ 100000000)%R.
Proof. unfold eps8. cbn [flit RF RFloat_of]. unfold Q2R. cbn. lra. Qed.
Definition threshold : R := (/ 100000000)%R.
Theorem C34_istft_inverts_stft : forall (S : Type) (op1 op2 : S -> list C -> exec (S * list C * rres)) s signal window hop frames L scr,
  0 < hop -> length signal <= hop * length frames -> length scr = L -> steady2 op1 op2 DFT IDFT (length window) s ->
  exists s1 ys s2 fs o scr', stft op1 s signal window hop frames = Done (s1, ys, ROk) /\
    istft op2 s1 ys window hop (repeat 0%R L) scr = Done (s2, fs, o, scr', ROk) /\ length o = L /\
    forall p, p < L -> (threshold < energy window hop (length frames) p)%R -> nth p o 0%R = nth p signal 0%R.
Proof.
  intros S op1 op2 s signal window hop frames L scr Hh Hf Hscr (P & Hs & HP).
  assert (Hrun : forall zs s, P s -> (forall z, In z zs -> length z = length window) ->
     (exists s', runs op1 s zs s' (map DFT zs) /\ P s') /\ (exists s', runs op2 s zs s' (map IDFT zs) /\ P s')).
  { clear s Hs. induction zs as [|z zs IH]; intros s Hs Hz; cbn [map].
    - split; exists s; (split; [constructor|exact Hs]).
    - assert (Hlz : length z = length window) by (apply Hz; left; reflexivity). destruct (HP s z Hs Hlz) as [(s1 & E1 & H1) (s2 & E2 & H2)]. split.
      + destruct (IH s1 H1 (fun z Hi => Hz z (or_intror Hi))) as [(s' & Hr & Hp) _]. exists s'. split; [|exact Hp]. econstructor; [exact E1|apply DFT_length|exact Hr].
      + destruct (IH s2 H2 (fun z Hi => Hz z (or_intror Hi))) as [_ (s' & Hr & Hp)]. exists s'. split; [|exact Hp]. econstructor; [exact E2|apply IDFT_length|exact Hr]. }
  set (zs := tab (length frames) (fun k => windowed signal window (k * hop))).
  assert (Hzs : forall z, In z zs -> length z = length window).
  { intros z Hz. unfold zs, tab in Hz. apply in_map_iff in Hz. destruct Hz as (k & <- & _). apply windowed_length. }
  destruct (Hrun zs s Hs Hzs) as [(s1 & H1 & P1) _].
  destruct (Hrun (map DFT zs) s1 P1) as [_ (s2 & H2 & P2)].
  { intros z Hz. apply in_map_iff in Hz. destruct Hz as (z0 & <- & Hz0). rewrite DFT_length. apply Hzs, Hz0. }
  rewrite map_map in H2. rewrite (map_ext (fun x => IDFT (DFT x)) (fun z => z)) in H2 by (intros; apply IDFT_DFT). rewrite map_id in H2.
  destruct (@istft_ok R RF RX S op2 window hop (map DFT zs) s1 s2 zs (repeat 0%R L) scr Hh) as (scr' & Ei); [rewrite repeat_length; exact Hscr|exact H2| |].
  { intros z Hz. apply in_map_iff in Hz. destruct Hz as (z0 & <- & Hz0). rewrite DFT_length. apply Hzs, Hz0. }
  exists s1, (map DFT zs), s2, zs. do 2 eexists. split; [|split; [exact Ei|split]].
  - apply stft_ok; [exact Hh|apply ceil_le; assumption|]. erewrite tab_ext; [exact H1|]. intros i Hi. apply wframe_R.
  - unfold istft_out. rewrite tab_length, repeat_length. reflexivity.
  - intros p Hp He. unfold istft_out. rewrite repeat_length, nth_tab by exact Hp. rewrite nth_repeat.
    change (@fzero R RF) with 0%R. rewrite gwin_energy. assert (Lz : length zs = length frames) by apply tab_length. rewrite Lz.
    unfold normed. rewrite eps8_R. cbn [fltb RX fdiv RF RFloat_of]. destruct (Rlt_dec _ _) as [_|Hn]; [|exfalso; apply Hn; exact He].
    assert (Es : ola (gsig window zs) (length window) hop p (length frames) 0%R = (nth p signal 0 * energy window hop (length frames) p)%R).
    { rewrite ola_R. unfold energy. rewrite <- rsum_scal, Rplus_0_l. apply rsum_ext. intros k Hk.
      destruct (Nat.leb_spec (k * hop) p), (Nat.ltb_spec p (k * hop + length window)); cbn [andb]; try ring.
      unfold gsig, zs. rewrite nth_tab by exact Hk. unfold windowed. rewrite nth_tab by lia. cbn [re RtoC fmul fzero RF RFloat_of].
      replace (k * hop + (p - k * hop)) with p by lia. ring. }
    rewrite Es. unfold threshold in He. field. lra.
Qed.
Print Assumptions C34_istft_inverts_stft.
Theorem C34_scalar_object : forall (c : cfg) p signal window hop frames L scr,
  0 < hop -> length signal <= hop * length frames -> length scr = L -> 0 < length window -> c_std c = true \/ is_pow2 (length window) = true ->
  upto c (length window) p ->
  exists s1 ys s2 fs o scr', stft (fft c) p signal window hop frames = Done (s1, ys, ROk) /\
    istft (ifft c) s1 ys window hop (repeat 0%R L) scr = Done (s2, fs, o, scr', ROk) /\ length o = L /\
    forall p, p < L -> (threshold < energy window hop (length frames) p)%R -> nth p o 0%R = nth p signal 0%R.
Proof.
  intros c p signal window hop frames L scr Hh Hf Hl Hw Hs Hp. apply C34_istft_inverts_stft; try assumption. apply scalar_exact; assumption.
Qed.
Print Assumptions C34_scalar_object.
(* the errors of istft: bad hop and bad scratch length touch nothing; a frame of the wrong length is
   reported after the frames before it have been added, and the frames after it are untouched *)
Theorem C34_errors : forall (T : Type) (F : Float T) (X : FloatX T) (S : Type) (op : S -> list (cx T) -> exec (S * list (cx T) * rres)) s frames window hop (out scr : list T),
  (hop = 0 -> istft op s frames window hop out scr = Done (s, frames, out, scr, RErr InvalidHopSize)) /\
  (0 < hop -> length scr <> length out -> istft op s frames window hop out scr = Done (s, frames, out, scr, RErr MismatchedLengths)) /\
  (0 < hop -> length scr = length out -> forall a f b s' ys, frames = a ++ f :: b -> L_prov.runs op s a s' ys -> (forall g, In g a -> length g = length window) ->
     length f <> length window -> exists o sc, istft op s frames window hop out scr = Done (s', ys ++ f :: b, o, sc, RErr MismatchedLengths)).
Proof.
  intros T F X S op s frames window hop out scr. unfold istft. split; [|split].
  - intros ->. reflexivity.
  - intros Hh Hl. destruct (Nat.eqb_spec hop 0); [lia|]. destruct (Nat.eqb_spec (length scr) (length out)); [lia|]. reflexivity.
  - intros Hh Hl a f b s' ys -> Hr Ha Hf. destruct (Nat.eqb_spec hop 0); [lia|]. rewrite Hl, Nat.eqb_refl. cbn [negb].
    assert (G : forall a s s' ys, L_prov.runs op s a s' ys -> (forall g, In g a -> length g = length window) -> forall idx o1 o2, length o1 = length o2 ->
      exists os, istft_frames op window hop idx s (a ++ f :: b) (o1, o2) = Done (s', ys ++ f :: b, os, RErr MismatchedLengths)).
    { clear - Hf. induction 1 as [|s z zs s1 y s' ys E Hy Hr IH]; intros Ha idx o1 o2 Ho; cbn [app istft_frames].
      - destruct (Nat.eqb_spec (length f) (length window)); [contradiction|]. cbn [negb]. eauto.
      - destruct (Nat.eqb_spec (length z) (length window)) as [Hz|Hz]; [|exfalso; apply Hz, Ha; left; reflexivity]. cbn [negb]. rewrite E. cbn [bind].
        rewrite (overlap_ok op) by congruence. cbn [bind].
        match goal with |- context [istft_frames op window hop (idx + 1) s1 _ (?u, ?v)] => destruct (IH (fun g Hg => Ha g (or_intror Hg)) (idx + 1) u v) as [os E2] end.
        { rewrite !tab_length. exact Ho. } rewrite E2. cbn [bind]. eauto. }
    destruct (G a s s' ys Hr Ha 0 out (map (fun _ => fzero) scr)) as [[o sc] E]; [rewrite map_length; lia|]. rewrite E. cbn [bind]. eauto.
Qed.
Print Assumptions C34_errors.
(* the single-frame inverse adds the windowed frame where it overlaps the output, wherever that ends, and
   changes nothing else *)
Theorem C34_inverse_frame : forall (T : Type) (F : Float T) (S : Type) (op : S -> list (cx T) -> exec (S * list (cx T) * rres)) s fr window start (out : list T) s' y,
  op s fr = Done (s', y, ROk) -> length y = length window ->
  exists o, inverse_frame op s fr window start out = Done (s', y, o, ROk) /\ length o = length out /\
    (forall i, i < length window -> start + i < length out -> nth (start + i) o fzero = fadd (nth (start + i) out fzero) (fmul (re (nth i y czero)) (nth i window fzero))) /\
    (forall p, p < start \/ start + length window <= p -> nth p o fzero = nth p out fzero).
Proof.
  intros T F S op s fr window start out s' y E Hy. unfold inverse_frame. rewrite E. cbn [bind].
  destruct (@for_inv (list T) (fun k o => length o = length out /\
     (forall i, i < k -> start + i < length out -> nth (start + i) o fzero = fadd (nth (start + i) out fzero) (fmul (re (nth i y czero)) (nth i window fzero))) /\
     (forall p, p < start \/ start + k <= p -> nth p o fzero = nth p out fzero))
    (fun i out => if start + i <? length out then
        o <- get out (start + i) ;; z <- get y i ;; w <- get window i ;; set out (start + i) (fadd o (fmul (re z) w)) else Done out) 0 (length window) out) as (o & E2 & L & H1 & H2).
  - lia.
  - split; [reflexivity|]. split; [intros; lia|reflexivity].
  - intros k o Hk (L & H1 & H2). rewrite L. destruct (Nat.ltb_spec (start + k) (length out)) as [Hlt|Hge].
    + rewrite (@get_nth _ o _ fzero) by lia. cbn [bind]. rewrite (@get_nth _ y _ czero) by lia. cbn [bind].
      rewrite (@get_nth _ window _ fzero) by lia. cbn [bind]. rewrite set_ok by lia. eexists. split; [reflexivity|]. split; [rewrite upd_length; exact L|]. split.
      * intros i Hi Hl. rewrite nth_upd by lia. destruct (Nat.eqb_spec (start + i) (start + k)) as [e|].
        { replace i with k by lia. rewrite H2 by lia. reflexivity. } apply H1; lia.
      * intros p Hp. rewrite nth_upd by lia. destruct (Nat.eqb_spec p (start + k)); [lia|]. apply H2. lia.
    + eexists. split; [reflexivity|]. split; [exact L|]. split; [intros i Hi Hl; apply H1; lia|intros p Hp].
      destruct (Nat.eq_dec p (start + k)) as [->|]; [|apply H2; lia]. rewrite !nth_overflow by lia. reflexivity.
  - rewrite E2. cbn [bind]. eauto 6.
Qed.
Print Assumptions C34_inverse_frame.
Example C34_frame_example : exists s' y, ifft (cfg_std F32) new_planner [C1; C0; C0] = Done (s', y, ROk) /\ length y = length [1; 1; 1]%R /\ 1 + 1 < length [0; 0; 0]%R.
Proof.
  destruct (@C02_ifft_is_idft (cfg_std F32) [C1; C0; C0]) as [q E]; [cbn; lia|left; reflexivity|]. exists q, (IDFT [C1; C0; C0]). split; [exact E|].
  rewrite IDFT_length. cbn. lia.
Qed.
Example C34_example : (forall p, p < 5 -> (threshold < energy [1; 1; 1]%R 2 3 p)%R) /\ length [1; 2; 3; 4; 5]%R <= 2 * 3.
Proof.
  split; [|cbn; lia]. intros p Hp. unfold threshold, energy.
  do 5 (destruct p as [|p]; [cbn; lra|]). lia.
Qed.

(* ------------------------------------------------------------------ C35 *)
(* false: the frames are added to what the output buffer held *)
Theorem C35_overwrites_output_refuted : exists (c : cfg) (frames : list (list C)) window hop out out' scr s ys o sc s' ys' o' sc',
  length out = length out' /\
  istft (ifft c) new_planner frames window hop out scr = Done (s, ys, o, sc, ROk) /\
  istft (ifft c) new_planner frames window hop out' scr = Done (s', ys', o', sc', ROk) /\ o <> o'.
Proof.
  set (c := cfg_std F32). exists c, [[C1]], [1%R], 1, [0%R], [1%R], [0%R].
  assert (H : forall z : list C, length z = 1 -> exists s, runs (ifft c) new_planner [z] s [ifft_fresh c z]).
  { intros z Hz. destruct (@steady_runs R _ (ifft c) (ifft_fresh c) 1 new_planner [z]) as [s Hs].
    - eapply steady2_r. apply scalar_steady2; [lia|left; reflexivity|apply upto_new].
    - intros z0 H0. rewrite <- H0. apply fresh_length; [lia|left; reflexivity].
    - intros z0 [<-|[]]. exact Hz.
    - exists s. exact Hs. }
  destruct (H [C1] eq_refl) as [s Hr].
  destruct (@istft_ok R RF RX _ (ifft c) [1%R] 1 [[C1]] new_planner s _ [0%R] [0%R] ltac:(lia) eq_refl Hr) as [sc E]; [intros f [<-|[]]; reflexivity|].
  destruct (@istft_ok R RF RX _ (ifft c) [1%R] 1 [[C1]] new_planner s _ [1%R] [0%R] ltac:(lia) eq_refl Hr) as [sc' E']; [intros f [<-|[]]; reflexivity|].
  do 8 eexists. split; [reflexivity|]. split; [exact E|]. split; [exact E'|].
  intros He. apply (f_equal (fun l => nth 0 l 0%R)) in He. revert He. unfold istft_out. cbn [length]. rewrite !nth_tab by (cbn; lia).
  rewrite !ola_R. cbn [map length rsum nth Nat.mul Nat.leb andb Nat.ltb plus Nat.sub]. unfold gwin, gsig, ifft_fresh. cbn [length Nat.eqb nth re C1 fmul RF RFloat_of fzero].
  unfold normed. rewrite eps8_R. cbn [fltb RX fdiv RF RFloat_of]. destruct (Rlt_dec _ _) as [_|Hn]; [lra|]. exfalso. apply Hn. lra.
Qed.
Print Assumptions C35_overwrites_output_refuted.
(* what does hold: the scratch contents are irrelevant *)
Theorem C35_scratch_irrelevant : forall (T : Type) (F : Float T) (X : FloatX T) (S : Type) (op : S -> list (cx T) -> exec (S * list (cx T) * rres))
  s frames window hop out scr scr', length scr = length out -> length scr' = length out ->
  istft op s frames window hop out scr = istft op s frames window hop out scr' \/ hop = 0.
Proof.
  intros T F X S op s frames window hop out scr scr' H1 H2. unfold istft. destruct (Nat.eqb_spec hop 0); [auto|left].
  rewrite H1, H2, Nat.eqb_refl. cbn [negb].
  assert (E : forall l l' : list T, length l = length l' -> map (fun _ : T => fzero) l = map (fun _ : T => fzero) l').
  { induction l as [|a l IH]; intros [|b l'] Hl; cbn in *; try lia; [reflexivity|]. f_equal. apply IH. lia. }
  rewrite (E scr scr') by lia. reflexivity.
Qed.
Print Assumptions C35_scratch_irrelevant.
(* exactly how the previous output enters the result *)
Theorem C35_accumulates : forall (S : Type) (op : S -> list C -> exec (S * list C * rres)) s frames window hop out scr s' ys o scr', keeps op s ->
  istft op s frames window hop out scr = Done (s', ys, o, scr', ROk) ->
  exists o0 sc0, istft op s frames window hop (repeat 0%R (length out)) scr = Done (s', ys, o0, sc0, ROk) /\ length o = length out /\
    forall p, p < length out -> let e := energy window hop (length frames) p in
      ((threshold < e -> nth p o 0 = nth p o0 0 + nth p out 0 / e) /\ (e <= threshold -> nth p o 0 = nth p o0 0 + nth p out 0))%R.
Proof.
  intros S op s frames window hop out scr s' ys o scr' Hk E. destruct (istft_runs _ _ _ _ _ Hk E) as (Hh & Hl & Hr & Hf).
  destruct (@istft_ok R RF RX S op window hop frames s s' ys out scr Hh Hl Hr Hf) as [sc1 E1]. rewrite E in E1. injection E1 as -> _.
  destruct (@istft_ok R RF RX S op window hop frames s s' ys (repeat 0%R (length out)) scr Hh) as [sc2 E2]; [rewrite repeat_length; exact Hl|exact Hr|exact Hf|].
  do 2 eexists. split; [exact E2|]. split; [apply tab_length|]. intros p Hp. cbn zeta. unfold istft_out. rewrite repeat_length, !nth_tab by exact Hp. rewrite nth_repeat.
  change (@fzero R RF) with 0%R. rewrite gwin_energy. rewrite (runs_length Hr). rewrite !(ola_R (gsig _ _)). set (e := energy _ _ _ _). set (q := rsum _ _).
  unfold normed. rewrite eps8_R. cbn [fltb RX fdiv RF RFloat_of]. unfold threshold. split; intros He; destruct (Rlt_dec _ _) as [H|H]; lra.
Qed.
Print Assumptions C35_accumulates.

(* ------------------------------------------------------------------ C36 *)
Fixpoint push_all {T} {F : Float T} {X : FloatX T} {S} (op : S -> list (cx T) -> exec (S * list (cx T) * rres)) (s : S) (st : istream (T := T)) (frames : list (list (cx T)))
  : exec (S * istream (T := T) * list (result (list T))) :=
  match frames with
  | [] => Done (s, st, [])
  | f :: rest => '(s, st, r) <- push_frame op s st f ;; '(s, st, rs) <- push_all op s st rest ;; Done (s, st, r :: rs)
  end.
Lemma push_all_ok {T} {F : Float T} {X : FloatX T} {S} (op : S -> list (cx T) -> exec (S * list (cx T) * rres)) wl hop window :
  0 < hop <= wl -> wl <= length window -> forall frames s s' ys Y st,
  (forall f, In f frames -> length f = wl) -> runs op s frames s' ys -> str_inv wl hop window Y st ->
  exists st', push_all op s st frames = Done (s', st', tab (length frames) (fun k => Ok (tab hop (fun i => stream_out window wl hop (Y ++ ys) ((length Y + k) * hop + i))))) /\
    str_inv wl hop window (Y ++ ys) st'.
Proof.
  intros Hh Hw. induction frames as [|f rest IH]; intros s s' ys Y st Hf Hr Hst; cbn [push_all].
  - inversion Hr; subst. exists st. rewrite app_nil_r. auto.
  - apply runs_inv in Hr. destruct Hr as (s1 & y & ys' & -> & Eo & Hy & Hr). assert (Hlf : length f = wl) by (apply Hf; left; reflexivity).
    destruct (@push_ok T F X S op wl hop window Y st f s s1 y Hst Hh Hw Hlf Eo) as (st1 & E1 & H1); [lia|]. rewrite E1. cbn [bind].
    destruct (IH s1 s' ys' (Y ++ [y]) st1) as (st2 & E2 & H2); [intros; apply Hf; right; assumption|exact Hr|exact H1|].
    rewrite E2. cbn [bind]. exists st2. rewrite <- app_assoc in H2. cbn [app] in H2. split; [|exact H2]. do 2 f_equal.
    cbn [length]. rewrite tab_S_l. rewrite <- app_assoc, app_length. cbn [app length]. f_equal.
    + f_equal. apply tab_ext. intros i Hi. rewrite Nat.add_0_r. unfold stream_out. rewrite !app_length. cbn [length].
      rewrite !(@ola_late _ _ _ _ _ _ _ (length Y + 1) (length Y + Datatypes.S (length ys'))) by nia.
      rewrite (@ola_ext _ _ (gsig window (Y ++ y :: ys')) (gsig window (Y ++ [y]))); [reflexivity|].
      intros j i0 Hj. replace (Y ++ y :: ys') with ((Y ++ [y]) ++ ys') by (rewrite <- app_assoc; reflexivity).
      unfold gsig. rewrite (app_nth1 (Y ++ [y]) ys') by (rewrite app_length; cbn; lia). reflexivity.
    + apply tab_ext. intros k Hk. f_equal. apply tab_ext. intros i Hi. f_equal. lia.
Qed.
Lemma concat_tab {A} K h (g : nat -> A) : concat (tab K (fun k => tab h (fun i => g (k * h + i)))) = tab (K * h) g.
Proof.
  induction K as [|K IH]; [reflexivity|]. rewrite tab_S, concat_app, IH. cbn [concat]. rewrite app_nil_r.
  replace (Datatypes.S K * h) with (K * h + h) by lia. rewrite tab_app. reflexivity.
Qed.
Theorem C36_stream_equals_batch : forall (T : Type) (F : Float T) (X : FloatX T) (S : Type) (op : S -> list (cx T) -> exec (S * list (cx T) * rres))
  s frames window hop total s' ys o scr scr', keeps op s -> hop <= length window -> 0 < length frames ->
  total = (length frames - 1) * hop + length window ->
  istft op s frames window hop (repeat fzero total) scr = Done (s', ys, o, scr', ROk) ->
  exists st0 st1 st2 pieces last, istream_new (length window) hop window = Ok st0 /\
    push_all op s st0 frames = Done (s', st1, map Ok pieces) /\ (forall q, In q pieces -> length q = hop) /\
    flush st1 = Done (st2, last) /\ flush st2 = Done (st2, []) /\
    concat pieces ++ last = o /\ length o = total.
Proof.
  intros T F X S op s frames window hop total s' ys o scr scr' Hk Hle Hn Htot E.
  destruct (istft_runs _ _ _ _ _ Hk E) as (Hh & Hl & Hr & Hf).
  destruct (@istft_ok T F X S op window hop frames s s' ys (repeat fzero total) scr Hh Hl Hr Hf) as [sc1 E1]. rewrite E in E1. injection E1 as -> _.
  destruct (@str_new T F (length window) hop window Hh) as (st0 & E0 & H0).
  destruct (@push_all_ok T F X S op (length window) hop window ltac:(lia) (le_n _) frames s s' ys [] st0 Hf Hr H0) as (st1 & Ep & H1). cbn [app length plus] in *.
  pose proof (runs_length Hr) as Hlen.
  destruct (@flush_ok T F X S op (length window) hop window ys st1 H1 ltac:(lia) ltac:(lia)) as (st2 & Ef & Ef2).
  exists st0, st1, st2, (tab (length frames) (fun k => tab hop (fun i => stream_out window (length window) hop ys (k * hop + i)))). eexists.
  split; [exact E0|]. split; [rewrite map_tab; exact Ep|]. split; [|split; [exact Ef|split; [exact Ef2|split]]].
  - intros q Hq. unfold tab at 1 in Hq. apply in_map_iff in Hq. destruct Hq as (k & <- & _). apply tab_length.
  - rewrite (concat_tab (length frames) hop (fun p => stream_out window (length window) hop ys p)). rewrite Hlen, <- tab_app.
    unfold istft_out. rewrite repeat_length. replace (length frames * hop + (length window - hop)) with total by (subst total; destruct (length frames); nia).
    apply tab_ext. intros p Hp. unfold stream_out. rewrite nth_repeat. reflexivity.
  - unfold istft_out. rewrite tab_length. apply repeat_length.
Qed.
Print Assumptions C36_stream_equals_batch.
Lemma scalar_answers {T} {F : Float T} (c : cfg) (p : planner T) : reachable c p -> answers (fft c) p /\ answers (ifft c) p.
Proof.
  intros Hp. split; exists (reachable c); (split; [exact Hp|]); intros q z Hq.
  - destruct (C05_fft_contract z Hq) as (q' & y & E & Hl & Hr & _). eauto 6.
  - destruct (C05_ifft_contract z Hq) as (q' & y & E & Hl & Hr & _). eauto 6.
Qed.
Theorem C36_scalar_object : forall (T : Type) (F : Float T) (X : FloatX T) (c : cfg) p, reachable c p -> keeps (ifft c) (p : planner T).
Proof. intros. apply answers_keeps, scalar_answers. assumption. Qed.
Print Assumptions C36_scalar_object.
Example C36_example : forall (c : cfg), c_std c = true -> exists (s' : planner R) ys o scr',
  istft (ifft c) new_planner [[C1; C0; C0]; [C0; C1; C0]] [1; 1; 1]%R 2 (repeat 0%R 5) (repeat 0%R 5) = Done (s', ys, o, scr', ROk) /\ 5 = (2 - 1) * 2 + 3.
Proof.
  intros c Hs. destruct (@steady_runs R _ (ifft c) IDFT 3 new_planner [[C1; C0; C0]; [C0; C1; C0]]) as [s' Hr].
  - eapply steady2_r. apply scalar_exact; [lia|left; exact Hs|apply upto_new].
  - intros z Hz. rewrite IDFT_length. exact Hz.
  - intros z [<-|[<-|[]]]; reflexivity.
  - destruct (@istft_ok R RF RX _ (ifft c) [1; 1; 1]%R 2 _ new_planner s' _ (repeat 0%R 5) (repeat 0%R 5) ltac:(lia) eq_refl Hr) as [scr' E]; [intros z [<-|[<-|[]]]; reflexivity|].
    do 4 eexists. split; [exact E|reflexivity].
Qed.

(* ------------------------------------------------------------------ C37 *)
(* false for every hop larger than the window: the third accepted frame panics *)
Theorem C37_every_hop_refuted : forall (T : Type) (F : Float T) (X : FloatX T) (S : Type) (op : S -> list (cx T) -> exec (S * list (cx T) * rres))
  wl hop window s f1 f2 f3 s1 s2 s3 y1 y2 y3,
  wl < hop -> wl <= length window -> length f1 = wl -> length f2 = wl -> length f3 = wl ->
  op s f1 = Done (s1, y1, ROk) -> op s1 f2 = Done (s2, y2, ROk) -> op s2 f3 = Done (s3, y3, ROk) ->
  length y1 = wl -> length y2 = wl -> length y3 = wl ->
  exists st, istream_new wl hop window = Ok st /\ push_all op s st [f1; f2; f3] = Panic.
Proof.
  intros T F X S op wl hop window s f1 f2 f3 s1 s2 s3 y1 y2 y3 Hh Hw L1 L2 L3 E1 E2 E3 K1 K2 K3.
  unfold istream_new. destruct (Nat.eqb_spec hop 0); [lia|]. eexists. split; [reflexivity|]. cbn [push_all].
  match goal with |- context [push_frame op s ?st f1] => assert (H0 : str_wide wl hop 0 st) end.
  { constructor; cbn [is_win is_hop is_window is_time is_pos is_out is_count is_norm is_buf]; rewrite ?repeat_length; try reflexivity; lia. }
  destruct (push_wide op _ _ H0 Hh E1 L1 ltac:(lia)) as [G _]. destruct (G ltac:(lia)) as (st1 & p1 & -> & H1). cbn [bind].
  destruct (push_wide op _ _ H1 Hh E2 L2 ltac:(lia)) as [G2 _]. destruct (G2 ltac:(lia)) as (st2 & p2 & -> & H2). cbn [bind].
  destruct (push_wide op _ _ H2 Hh E3 L3 ltac:(lia)) as [_ G3]. rewrite G3 by lia. reflexivity.
Qed.
Print Assumptions C37_every_hop_refuted.
(* with the crate's own transform: any supported window and any larger hop *)
Theorem C37_scalar_refuted : forall (T : Type) (F : Float T) (X : FloatX T) (c : cfg) window hop (f1 f2 f3 : list (cx T)),
  0 < length window < hop -> c_std c = true \/ is_pow2 (length window) = true ->
  length f1 = length window -> length f2 = length window -> length f3 = length window ->
  exists st, istream_new (length window) hop window = Ok st /\ push_all (ifft c) new_planner st [f1; f2; f3] = Panic.
Proof.
  intros T F X c window hop f1 f2 f3 Hh Hs L1 L2 L3.
  destruct (steady2_r (@scalar_steady2 T F c (length window) new_planner ltac:(lia) Hs (upto_new c (length window)))) as (P & P0 & HP).
  destruct (HP _ f1 P0 L1) as (s1 & E1 & P1). destruct (HP _ f2 P1 L2) as (s2 & E2 & P2). destruct (HP _ f3 P2 L3) as (s3 & E3 & P3).
  assert (Hl : forall f : list (cx T), length f = length window -> length (ifft_fresh c f) = length window).
  { intros f Hf. rewrite <- Hf. apply fresh_length; rewrite ?Hf; [lia|exact Hs]. }
  eapply C37_every_hop_refuted; try eassumption; auto; lia.
Qed.
Print Assumptions C37_scalar_refuted.
Example C37_refuted_example : 0 < length [1%R] < 2 /\ c_std (cfg_std F32) = true.
Proof. cbn. split; [lia|reflexivity]. Qed.
(* false even for hop <= window length when the caller's window has fewer values *)
Theorem C37_short_window_refuted : forall (T : Type) (F : Float T) (X : FloatX T) (S : Type) (op : S -> list (cx T) -> exec (S * list (cx T) * rres))
  wl hop window s f s' y, 0 < hop -> length window < wl -> length f = wl -> op s f = Done (s', y, ROk) -> length y = wl ->
  exists st, istream_new wl hop window = Ok st /\ push_frame op s st f = Panic.
Proof.
  intros T F X S op wl hop window s f s' y Hh Hw Hf E Hy. unfold istream_new. destruct (Nat.eqb_spec hop 0); [lia|]. eexists. split; [reflexivity|].
  unfold push_frame. rewrite Hf, repeat_length, Nat.eqb_refl. cbn [negb]. rewrite E. cbn [bind].
  match goal with |- context [for_range 0 wl ?b ?i] => assert (G : for_range 0 wl b i = Panic) end; [|rewrite G; reflexivity].
  unfold for_range. rewrite Nat.sub_0_r.
  match goal with |- for_n wl 0 ?b ?i = _ => set (body := b) end.
  assert (G : forall n i buf nrm, i <= length window -> length window < i + n -> i + n <= wl -> length buf = wl + hop * 2 -> length nrm = wl + hop * 2 ->
    for_n n i body (buf, nrm) = Panic).
  { induction n0 as [|k IH]; intros i buf nrm Hi H1 H2 H3 H4; [lia|]. cbn [for_n]. unfold body at 1. destruct (Nat.eq_dec i (length window)).
    - rewrite get_panic by lia. reflexivity.
    - rewrite (@get_nth T window i fzero) by lia. cbn [bind]. rewrite (@get_nth _ y i czero) by lia. cbn [bind plus].
      rewrite (@get_nth T buf i fzero) by lia. cbn [bind]. rewrite set_ok by lia. cbn [bind].
      rewrite (@get_nth T nrm i fzero) by lia. cbn [bind]. rewrite set_ok by lia. cbn [bind]. apply IH; rewrite ?upd_length; lia. }
  apply G; rewrite ?repeat_length; lia.
Qed.
Print Assumptions C37_short_window_refuted.
(* what does hold: for hop <= window length no sequence of pushes (of frames of
   any length) and flushes panics, and every accepted frame yields hop samples *)
Inductive scall (T : Type) := Push (f : list (cx T)) | Flush.
Arguments Flush {T}.
Fixpoint run_stream {T} {F : Float T} {X : FloatX T} {S} (op : S -> list (cx T) -> exec (S * list (cx T) * rres)) (s : S) (st : istream (T := T)) (ks : list (scall T))
  : exec (S * istream (T := T) * list (result (list T))) :=
  match ks with
  | [] => Done (s, st, [])
  | Push f :: rest => '(s, st, r) <- push_frame op s st f ;; '(s, st, rs) <- run_stream op s st rest ;; Done (s, st, r :: rs)
  | Flush :: rest => '(st, piece) <- flush st ;; '(s, st, rs) <- run_stream op s st rest ;; Done (s, st, Ok piece :: rs)
  end.
Theorem C37_small_hop : forall (T : Type) (F : Float T) (X : FloatX T) (S : Type) (op : S -> list (cx T) -> exec (S * list (cx T) * rres))
  s wl hop window ks, answers op s -> 0 < hop <= wl -> wl <= length window ->
  exists st s' st' rs, istream_new wl hop window = Ok st /\ run_stream op s st ks = Done (s', st', rs) /\ length rs = length ks /\
    forall i f piece, nth_error ks i = Some (Push f) -> nth_error rs i = Some (Ok piece) -> length f = wl /\ length piece = hop.
Proof.
  intros T F X S op s wl hop window ks (P & Hs & HP) Hh Hw. destruct (@len_new T F wl hop window ltac:(lia) Hw) as (st & E & Hst). exists st. specialize (Hst ltac:(lia)).
  enough (G : exists s' st' rs, run_stream op s st ks = Done (s', st', rs) /\ length rs = length ks /\
    forall i f piece, nth_error ks i = Some (Push f) -> nth_error rs i = Some (Ok piece) -> length f = wl /\ length piece = hop).
  { destruct G as (s' & st' & rs & G1 & G2 & G3). exists s', st', rs. auto. }
  clear E. revert s st Hs Hst. induction ks as [|k ks IH]; intros s st Hs Hst; cbn [run_stream].
  - exists s, st, []. repeat split; destruct i; discriminate.
  - destruct k as [f|].
    + destruct (HP s f Hs) as (s1 & y & r & Eo & Hy & Hs1).
      destruct (@push_total T F X S op wl hop st s f Hst Hh (ex_intro _ s1 (ex_intro _ y (ex_intro _ r (conj Eo Hy))))) as (s2 & st2 & r2 & Ep & Hst2 & Hp).
      assert (HP2 : P s2 /\ (forall piece, r2 = Ok piece -> length f = wl)).
      { revert Ep. unfold push_frame. destruct Hst as [A1 A2 A3 A4 A5 A6 A7]. destruct st as [wl_ hop_ win_ buf nrm time pos out cnt]. cbn in *. subst wl_ hop_.
        destruct (Nat.eqb_spec (length f) wl) as [Hf|Hf]; cbn [negb].
        2:{ intros [= <- <- <-]. split; [exact Hs|discriminate]. }
        destruct (negb _); [discriminate|]. rewrite Eo. cbn [bind]. destruct r as [|e].
        2:{ intros [= <- <- <-]. split; [exact Hs1|discriminate]. }
        match goal with |- context [bind ?e _] => destruct e as [[b1 n1]| |]; cbn [bind]; try discriminate end.
        match goal with |- context [bind ?e _] => destruct e as [[b2 n2]| |]; cbn [bind]; try discriminate end.
        match goal with |- context [let '(_, _) := ?e in _] => destruct e as [b3 n3] end.
        match goal with |- context [bind ?e _] => destruct e as [[b4 n4]| |]; cbn [bind]; try discriminate end.
        destruct (slice _ _ _); cbn [bind]; try discriminate. intros [= <- <- <-]. split; [exact Hs1|]. intros; exact Hf. }
      destruct HP2 as [HP2 Hf]. rewrite Ep. cbn [bind]. destruct (IH s2 st2 HP2 Hst2) as (s3 & st3 & rs & -> & Hl & Hr). cbn [bind].
      do 3 eexists. split; [reflexivity|]. split; [cbn; lia|]. intros [|i] f0 piece; cbn [nth_error]; [|apply Hr].
      intros [= <-] [= ->]. split; [apply (Hf piece); reflexivity|apply Hp; reflexivity].
    + destruct (@flush_total T F X S op wl hop st Hst Hh) as (st2 & piece & -> & Hst2). cbn [bind].
      destruct (IH s st2 Hs Hst2) as (s3 & st3 & rs & -> & Hl & Hr). cbn [bind].
      do 3 eexists. split; [reflexivity|]. split; [cbn; lia|]. intros [|i] f0 pc; cbn [nth_error]; [discriminate|apply Hr].
Qed.
Print Assumptions C37_small_hop.
Example C37_example : forall c : cfg, answers (ifft c) (new_planner (T := R)) /\ 0 < 2 <= 3.
Proof. intros c. split; [apply scalar_answers, reachable_new|lia]. Qed.

(* ------------------------------------------------------------------ C38 *)
(* the frames of the parallel version do not depend on the order in which the
   threads run and equal those of stft with the crate's scalar object *)
Theorem C38_parallel_frames : forall (T : Type) (F : Float T) (X : FloatX T) (c : cfg) p signal window hop frames sched,
  0 < hop -> 0 < length window -> c_std c = true \/ is_pow2 (length window) = true -> upto c (length window) p ->
  length signal <= hop * length frames -> Permutation sched (seq 0 (length frames)) ->
  exists p' (ys : list (list (cx T))), stft (fft c) p signal window hop frames = Done (p', ys, ROk) /\
    stft_parallel c sched signal window hop frames = Done (ys, ROk).
Proof.
  intros T F X c p signal window hop frames sched Hh Hw Hs Hp Hf Hperm.
  destruct (@steady_runs T _ (fft c) (fft_fresh c) (length window) p (tab (length frames) (fun k => wframe signal window (k * hop)))) as [p' Hr].
  - eapply steady2_l. apply scalar_steady2; assumption.
  - intros z Hz. rewrite <- Hz. apply fresh_length; rewrite ?Hz; assumption.
  - intros z Hz. unfold tab in Hz. apply in_map_iff in Hz. destruct Hz as (k & <- & _). apply wframe_length.
  - exists p', (tab (length frames) (fun k => fft_fresh c (wframe signal window (k * hop)))). rewrite map_tab in Hr. split.
    + apply stft_ok; [exact Hh|apply ceil_le; assumption|exact Hr].
    + unfold stft_parallel. destruct (Nat.eqb_spec hop 0); [lia|].
      destruct (@par_frames_ok T F c signal window hop Hw Hs sched frames) as (out' & E & Hl & Hn).
      * eapply Permutation_NoDup; [apply Permutation_sym; exact Hperm|apply seq_NoDup].
      * intros i Hi. apply (Permutation_in _ Hperm), in_seq in Hi. lia.
      * rewrite E. do 2 f_equal. apply list_ext with (d := []); [rewrite tab_length; exact Hl|]. intros i Hi. rewrite Hl in Hi. rewrite Hn, nth_tab by exact Hi.
        destruct (in_dec Nat.eq_dec i sched) as [_|Hx]; [reflexivity|]. exfalso. apply Hx, (Permutation_in _ (Permutation_sym Hperm)), in_seq. lia.
Qed.
Print Assumptions C38_parallel_frames.
(* the inverse: the same samples wherever the window energy exceeds the
   threshold, and 0 (not the unnormalised sum) elsewhere *)
Theorem C38_parallel_inverse : forall (T : Type) (F : Float T) (X : FloatX T) (c : cfg) p (frames : list (list (cx T))) window hop out scr sched,
  0 < hop -> 0 < length window -> c_std c = true \/ is_pow2 (length window) = true -> upto c (length window) p ->
  (forall f, In f frames -> length f = length window) -> length scr = length out -> Permutation sched (seq 0 (length frames)) ->
  exists p' ys o norm o', istft (ifft c) p frames window hop out scr = Done (p', ys, o, norm, ROk) /\
    inverse_parallel c sched frames window hop out = Done (o', ROk) /\ length o = length out /\ length o' = length out /\ length norm = length out /\
    forall i, i < length out -> nth i o' fzero = if fltb eps8 (nth i norm fzero) then nth i o fzero else fzero.
Proof.
  intros T F X c p frames window hop out scr sched Hh Hw Hs Hp Hf Hscr Hperm.
  destruct (@steady_runs T _ (ifft c) (ifft_fresh c) (length window) p frames) as [p' Hr].
  - eapply steady2_r. apply scalar_steady2; assumption.
  - intros z Hz. rewrite <- Hz. apply fresh_length; rewrite ?Hz; assumption.
  - exact Hf.
  - pose proof (@istft_norm T F X _ (ifft c) window hop frames p p' _ out scr Hh Hscr Hr Hf) as E.
    do 5 eexists. split; [exact E|]. split; [apply inverse_parallel_ok; assumption|]. unfold istft_out. rewrite !tab_length. split; [reflexivity|]. split; [reflexivity|]. split; [reflexivity|].
    intros i Hi. rewrite !nth_tab by exact Hi. rewrite map_length. cbn zeta. unfold normed. destruct (fltb _ _); reflexivity.
Qed.
Print Assumptions C38_parallel_inverse.
Theorem C38_hop_error : forall (T : Type) (F : Float T) (X : FloatX T) (c : cfg) sched signal window (frames : list (list (cx T))) (out : list T),
  stft_parallel c sched signal window 0 frames = Done (frames, RErr InvalidHopSize) /\
  inverse_parallel c sched frames window 0 out = Done (out, RErr InvalidHopSize).
Proof. intros. split; reflexivity. Qed.
Print Assumptions C38_hop_error.
(* false: too few frame slots is an error for stft but not for the parallel version *)
Theorem C38_same_errors_refuted : exists (c : cfg) signal window hop (frames : list (list C)) p ys,
  stft (fft c) new_planner signal window hop frames = Done (p, frames, RErr MismatchedLengths) /\
  stft_parallel c (seq 0 (length frames)) signal window hop frames = Done (ys, ROk).
Proof.
  exists (cfg_std F32), [1; 2]%R, [1]%R, 1, [], new_planner, []. split; reflexivity.
Qed.
Print Assumptions C38_same_errors_refuted.
(* false for the inverse where the energy is below the threshold: a zero window *)
Theorem C38_same_samples_refuted : exists (c : cfg) (frames : list (list C)) window hop out p ys o norm o',
  istft (ifft c) new_planner frames window hop out [0%R] = Done (p, ys, o, norm, ROk) /\
  inverse_parallel c (seq 0 (length frames)) frames window hop out = Done (o', ROk) /\ o' <> o.
Proof.
  set (c := cfg_std F32). exists c, [], [1%R], 1, [1%R].
  destruct (@C38_parallel_inverse R RF RX c new_planner [] [1%R] 1 [1%R] [0%R] []) as (p' & ys & o & norm & o' & E1 & E2 & L1 & L2 & L3 & H); [lia|cbn; lia|left; reflexivity|apply upto_new|intros f []|reflexivity|apply Permutation_refl|].
  - exists p', ys, o, norm, o'. split; [exact E1|]. split; [exact E2|]. intros ->.
    pose proof (@istft_norm R RF RX _ (ifft c) [1%R] 1 [] new_planner new_planner [] [1%R] [0%R] ltac:(lia) eq_refl (runs_nil _ _) (fun f H => match H with end)) as E.
    rewrite E1 in E. injection E as -> -> -> ->. specialize (H 0 ltac:(cbn; lia)). revert H. unfold istft_out. cbn [length]. rewrite !nth_tab by lia. cbn [ola length nth].
    unfold normed. rewrite eps8_R. cbn [fltb RX fdiv fzero RF RFloat_of]. destruct (Rlt_dec (/ 100000000) 0); [lra|].
    intros HH; lra.
Qed.
Print Assumptions C38_same_samples_refuted.
Example C38_example : Permutation [2; 0; 1] (seq 0 3) /\ length [1; 2; 3; 4; 5]%R <= 2 * 3.
Proof.
  split; [|cbn; lia]. cbn. eapply perm_trans; [apply perm_swap|]. apply perm_skip, perm_swap.
Qed.

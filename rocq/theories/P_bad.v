(* Property C98: a value that is not a number is never hidden by a transform, and stays in the object. *)
From Coq Require Import ZArith ZifyBool ZifyNat.
From Flocq Require Import Core BinarySingleNaN.
From Verif Require Import M_fft L_fft L_obj L_rfft L_stft L_nd P_fft P_rfft P_stft L_bad L_ieee.
Ltac Zify.zify_post_hook ::= Z.div_mod_to_equations.
Set Implicit Arguments.
Open Scope nat_scope.

(* ---- specification: `absorbing` and `tainted` of L_bad.v ---- *)
(* the lengths the build supports *)
Definition length_ok (c : cfg) (n : nat) : Prop := 0 < n /\ (c_std c = true \/ is_pow2 n = true).

Theorem C98_fft : forall (T : Type) (F : Float T) (P : T -> Prop) (c : cfg) p (x : list (cx T)) z, absorbing F P -> reachable c p -> length_ok c (length x) ->
  In z x -> tainted P z -> exists p' y, fft c p x = Done (p', y, ROk) /\ length y = length x /\ forall w, In w y -> tainted P w.
Proof. intros T F P c p x z HP Hp [H1 H2] Hz Hb. destruct (@fft_bad T F c P HP p x (reachable_Inv Hp) H1 H2) as (p' & y & E & L & B); [exists z; auto|]. eauto. Qed.
Print Assumptions C98_fft.

Theorem C98_ifft : forall (T : Type) (F : Float T) (P : T -> Prop) (c : cfg) p (x : list (cx T)) z, absorbing F P -> reachable c p -> length_ok c (length x) ->
  In z x -> tainted P z -> exists p' y, ifft c p x = Done (p', y, ROk) /\ length y = length x /\ forall w, In w y -> tainted P w.
Proof. intros T F P c p x z HP Hp [H1 H2] Hz Hb. destruct (@ifft_bad T F c P HP p x (reachable_Inv Hp) H1 H2) as (p' & y & E & L & B); [exists z; auto|]. eauto. Qed.
Print Assumptions C98_ifft.

(* the real transform: every bin of the half spectrum *)
Section Real.
Context {T : Type} {F : Float T}.
Variables (c : cfg) (P : T -> Prop).
Hypothesis HP : absorbing F P.
Let pa := ab_add HP.
Let ps := ab_sub HP.
Let pm := ab_mul HP.
Let pn := ab_neg HP.
Lemma post_bad v a b w : tainted P a -> tainted P (post c v a b w).
Proof. intros [H|H]; destruct v; unfold tainted, post, post_scalar, post_simd, half_avx, half_neon; cbn; auto 12. Qed.
Lemma ipost_bad v a b w : tainted P a \/ tainted P b -> tainted P (ipost c v a b w).
Proof. intros [[H|H]|[H|H]]; destruct v; unfold tainted, ipost, ipost_scalar, ipost_simd, half_avx, half_neon; cbn; auto 12. Qed.
Lemma ihalf_bad v a : P a -> P (ihalf v a).
Proof. intros H. destruct v; unfold ihalf, half_avx, half_neon; cbn; auto. Qed.
Lemma packed_bad x r : Nat.Even (length x) -> In r x -> P r -> some_bad P (packed x).
Proof.
  intros [m Hm] Hr Hb. destruct (In_nth x r fzero Hr) as (i & Hi & E). exists (mkcx (nth (2 * (i / 2)) x fzero) (nth (2 * (i / 2) + 1) x fzero)). split.
  - unfold packed, tab, nthf. apply in_map_iff. exists (i / 2). split; [reflexivity|apply in_seq; lia].
  - destruct (Nat.even i) eqn:Ev.
    + left. cbn [re]. apply Nat.even_spec in Ev. destruct Ev as [k ->]. replace (2 * (2 * k / 2)) with (2 * k) by lia. rewrite E. exact Hb.
    + right. cbn [im]. assert (Od : Nat.odd i = true) by (rewrite <- Nat.negb_even, Ev; reflexivity). apply Nat.odd_spec in Od. destruct Od as [k ->].
      replace (2 * ((2 * k + 1) / 2) + 1) with (2 * k + 1) by lia. rewrite E. exact Hb.
Qed.
Lemma rclosed_bad v m tw y : 0 < m -> length y = m -> all_bad P y -> all_bad P (rclosed (post c v) m tw y).
Proof.
  intros Hm Ly B. unfold rclosed. apply all_tab. intros k Hk. assert (B0 : tainted P (nthc y 0)) by (apply all_nth; [exact B|lia]).
  destruct (Nat.eqb_spec k m); [left; cbn; apply ps; exact B0|]. destruct (Nat.eqb_spec k 0); [left; cbn; apply pa; exact B0|].
  apply post_bad, all_nth; [exact B|lia].
Qed.
Lemma rdirect_bad v p x out scr r : Inv c p -> 0 < length x -> Nat.Even (length x) -> (c_std c = true \/ is_pow2 (length x / 2) = true) ->
  length out = length x / 2 + 1 -> length x / 2 <= length scr -> In r x -> P r ->
  exists p' y scr', rfft_direct c (fft c) v p x out scr (build_twiddle_table c (length x / 2)) = Done (p', y, scr', ROk) /\ length y = length x / 2 + 1 /\ all_bad P y.
Proof.
  intros HI Hn He Hs Ho Hsc Hr Hb. assert (He' := He). destruct He' as [m Hm]. assert (Hx : length x / 2 = m) by lia.
  destruct (@fft_bad T F c P HP p (packed x) HI) as (p' & y & E & L & B).
  { rewrite packed_length. lia. } { rewrite packed_length. exact Hs. } { eapply packed_bad; eassumption. }
  rewrite packed_length in L. rewrite rfft_direct_ok.
  - rewrite E. cbn [bind]. eexists _, _, _. split; [reflexivity|]. split; [apply tab_length|]. apply rclosed_bad; [lia|lia|exact B].
  - apply rcheck_none. lia.
  - rewrite rtable_length. lia.
  - intros s' y' E'. rewrite E in E'. injection E' as _ <-. exact L.
Qed.
Lemma iclosed_bad v m tw y : 0 < m -> length y = m + 1 ->
  (exists k, k <= m /\ (if (k =? 0) || (k =? m) then P (re (nthc y k)) else tainted P (nthc y k))) -> some_bad P (iclosed c v m tw y).
Proof.
  intros Hm Ly (k & Hk & Hb). unfold iclosed, tab.
  destruct (Nat.eqb_spec k 0) as [->|K0]; [|destruct (Nat.eqb_spec k m) as [->|Km]]; cbn [orb] in Hb.
  - eexists. split; [apply in_map_iff; exists 0; split; [reflexivity|apply in_seq; lia]|]. left. cbn. apply ihalf_bad, pa. auto.
  - eexists. split; [apply in_map_iff; exists 0; split; [reflexivity|apply in_seq; lia]|]. left. cbn. apply ihalf_bad, pa. auto.
  - eexists. split; [apply in_map_iff; exists k; split; [reflexivity|apply in_seq; lia]|]. cbn beta. destruct (Nat.eqb_spec k 0); [contradiction|].
    apply ipost_bad. auto.
Qed.
Lemma irdirect_bad v p y (out : list T) scr : Inv c p -> 0 < length out -> Nat.Even (length out) -> (c_std c = true \/ is_pow2 (length out / 2) = true) ->
  length y = length out / 2 + 1 -> length out / 2 <= length scr ->
  (exists k, k <= length out / 2 /\ (if (k =? 0) || (k =? length out / 2) then P (re (nthc y k)) else tainted P (nthc y k))) ->
  exists p' o scr', irfft_direct c (ifft c) v p y out scr (build_twiddle_table c (length out / 2)) = Done (p', o, scr', ROk) /\ length o = length out /\
    forall i, 2 * i + 1 < length out -> P (nth (2 * i) o fzero) \/ P (nth (2 * i + 1) o fzero).
Proof.
  intros HI Hn He Hs Ho Hsc Hy. destruct He as [m Hm]. assert (Hx : length out / 2 = m) by lia.
  set (z := iclosed c v (length out / 2) (build_twiddle_table c (length out / 2)) y).
  assert (Lz : length z = length out / 2) by apply tab_length.
  destruct (@ifft_bad T F c P HP p z HI) as (p' & w & E & L & B).
  { rewrite Lz. lia. } { rewrite Lz. exact Hs. } { apply iclosed_bad; [lia|exact Ho|exact Hy]. }
  rewrite irfft_direct_ok.
  - fold z. rewrite E. cbn [bind]. eexists _, _, _. split; [reflexivity|]. split; [rewrite unpacked_length; lia|].
    intros i Hi. assert (Bi : tainted P (nthc w i)) by (apply all_nth; [exact B|lia]). unfold unpacked. rewrite !nth_tab by lia.
    assert (V1 : Nat.even (2 * i) = true) by (apply Nat.even_spec; exists i; reflexivity).
    assert (V2 : Nat.even (2 * i + 1) = false) by (rewrite <- Nat.negb_odd; apply negb_false_iff, Nat.odd_spec; exists i; reflexivity).
    rewrite V1, V2. replace (2 * i / 2) with i by lia. replace ((2 * i + 1) / 2) with i by lia. exact Bi.
  - apply rcheck_none. lia.
  - rewrite rtable_length. lia.
  - fold z. intros s' y' E'. rewrite E in E'. injection E' as _ <-. lia.
Qed.
End Real.

Theorem C98_rfft : forall (T : Type) (F : Float T) (P : T -> Prop) (c : cfg) (v : rpath) p rp (x : list T) out r, absorbing F P -> reachable c p -> rreach c rp ->
  0 < length x -> Nat.Even (length x) -> (c_std c = true \/ is_pow2 (length x / 2) = true) -> length out = length x / 2 + 1 -> In r x -> P r ->
  exists rp' p' y, prfft c (fft c) v rp p x out = Done (rp', p', y, ROk) /\ length y = length x / 2 + 1 /\ forall w, In w y -> tainted P w.
Proof.
  intros T F P c v p rp x out r HP Hp Hrp Hn He Hs Ho Hr Hb. destruct (prfft_ok (fft c) v p x out (rreach_inv Hrp)) as (rp' & scr & _ & Hl & rest & E).
  destruct (@rdirect_bad T F c P HP v p x out scr r (reachable_Inv Hp) Hn He Hs Ho ltac:(lia) Hr Hb) as (p' & y & scr' & E' & L & B).
  rewrite E, E'. cbn [bind]. eauto 7.
Qed.
Print Assumptions C98_rfft.

(* the inverse: of each pair of neighbouring samples at least one; the imaginary parts of the first and last bin are not looked at *)
Theorem C98_irfft : forall (T : Type) (F : Float T) (P : T -> Prop) (c : cfg) (v : rpath) p rp (y : list (cx T)) out, absorbing F P -> reachable c p -> rreach c rp ->
  0 < length out -> Nat.Even (length out) -> (c_std c = true \/ is_pow2 (length out / 2) = true) -> length y = length out / 2 + 1 ->
  P (re (nth 0 y czero)) \/ P (re (nth (length out / 2) y czero)) \/ (exists k, 0 < k < length out / 2 /\ tainted P (nth k y czero)) ->
  exists rp' p' o, pirfft c (ifft c) v rp p y out = Done (rp', p', o, ROk) /\ length o = length out /\
    forall i, 2 * i + 1 < length out -> P (nth (2 * i) o fzero) \/ P (nth (2 * i + 1) o fzero).
Proof.
  intros T F P c v p rp y out HP Hp Hrp Hn He Hs Ho Hb. destruct (pirfft_ok (ifft c) v p y out (rreach_inv Hrp)) as (rp' & scr & _ & Hl & rest & E).
  destruct (@irdirect_bad T F c P HP v p y out scr (reachable_Inv Hp) Hn He Hs Ho ltac:(lia)) as (p' & o & scr' & E' & L & B).
  { destruct Hb as [Hb|[Hb|(k & Hk & Hb)]]; [exists 0|exists (length out / 2)|exists k].
    - split; [lia|exact Hb].
    - split; [lia|]. rewrite Nat.eqb_refl, orb_true_r. exact Hb.
    - split; [lia|]. destruct (Nat.eqb_spec k 0); [lia|]. destruct (Nat.eqb_spec k (length out / 2)); [lia|]. exact Hb. }
  rewrite E, E'. cbn [bind]. eauto 7.
Qed.
Print Assumptions C98_irfft.

(* the short-time transform: the frames whose window reaches sample i; the window's weight there does not matter *)
Theorem C98_stft : forall (T : Type) (F : Float T) (P : T -> Prop) (c : cfg) p (signal window : list T) hop frames i, absorbing F P -> reachable c p ->
  length_ok c (length window) -> 0 < hop -> length signal <= hop * length frames -> i < length signal -> P (nth i signal fzero) ->
  exists p' ys, stft (fft c) p signal window hop frames = Done (p', ys, ROk) /\ length ys = length frames /\
    forall k, k < length frames -> k * hop <= i < k * hop + length window -> length (nth k ys []) = length window /\ forall w, In w (nth k ys []) -> tainted P w.
Proof.
  intros T F P c p signal window hop frames i HP Hp [Hw1 Hw2] Hh Hf Hi Hb. unfold stft. destruct (Nat.eqb_spec hop 0); [lia|]. rewrite div_ceil_ok by lia. cbn [bind].
  assert (Hc : (length signal + hop - 1) / hop <= length frames) by (apply ceil_le; [exact Hh|lia]).
  destruct (Nat.ltb_spec (length frames) ((length signal + hop - 1) / hop)); [lia|]. clear Hf Hc H.
  enough (G : forall idx p, reachable c p -> exists p' ys, stft_frames (fft c) signal window hop idx p frames = Done (p', ys, ROk) /\ length ys = length frames /\
    forall k, k < length frames -> (idx + k) * hop <= i < (idx + k) * hop + length window -> length (nth k ys []) = length window /\ forall w, In w (nth k ys []) -> tainted P w)
    by exact (G 0 p Hp).
  clear p Hp. induction frames as [|f rest IH]; intros idx p Hp; cbn [stft_frames length].
  - exists p, []. split; [reflexivity|]. split; [reflexivity|]. intros k Hk. lia.
  - rewrite (load_exact (fft c)) by apply resize_length. cbn [bind]. set (x := wframe signal window (idx * hop)).
    assert (Lx : length x = length window) by apply wframe_length.
    destruct (C05_fft_contract x Hp) as (p1 & y & E & Ly & Hp1 & _).
    assert (Ex : expected c (length x) = ROk).
    { unfold expected. rewrite Lx. destruct (Nat.eqb_spec (length window) 0); [lia|]. destruct Hw2 as [->| ->]; [reflexivity|]. destruct (c_std c); reflexivity. }
    rewrite Ex in E. rewrite E. cbn [bind]. destruct (IH (idx + 1) p1 Hp1) as (p2 & ys & E2 & L2 & G2). rewrite E2. cbn [bind].
    exists p2, (y :: ys). split; [reflexivity|]. split; [cbn; lia|]. intros [|k] Hk Hin; cbn [nth].
    + rewrite Nat.add_0_r in Hin. split; [lia|]. destruct (@fft_bad T F c P HP p x (reachable_Inv Hp)) as (p1' & y' & E' & _ & B); [lia|rewrite Lx; exact Hw2| |].
      * exists (nth (i - idx * hop) x czero). split; [apply nth_In; lia|]. left. unfold x, wframe. rewrite nth_tab by lia. cbn [re].
        replace (idx * hop + (i - idx * hop)) with i by lia. destruct (Nat.ltb_spec i (length signal)); [|lia]. apply (ab_mul HP). left. exact Hb.
      * rewrite E in E'. injection E' as _ <-. exact B.
    + apply G2; [lia|]. replace (idx + 1 + k) with (idx + S k) by lia. exact Hin.
Qed.
Print Assumptions C98_stft.

(* frames the sample does not reach do not depend on it, on an object that has done no longer transform *)
Theorem C98_stft_local : forall (T : Type) (F : Float T) (c : cfg) (signal signal' window : list T) hop frames i, length_ok c (length window) -> 0 < hop ->
  length signal <= hop * length frames -> length signal' = length signal -> (forall j, j <> i -> nth j signal' fzero = nth j signal fzero) ->
  exists p p' ys ys', stft (fft c) new_planner signal window hop frames = Done (p, ys, ROk) /\ stft (fft c) new_planner signal' window hop frames = Done (p', ys', ROk) /\
    forall k, ~ (k * hop <= i < k * hop + length window) -> nth k ys' [] = nth k ys [].
Proof.
  intros T F c signal signal' window hop frames i [Hw1 Hw2] Hh Hf Hl Hs.
  assert (G : forall sg, length sg = length signal -> exists p, stft (fft c) new_planner sg window hop frames = Done (p, tab (length frames) (fun k => fft_fresh c (wframe sg window (k * hop))), ROk)).
  { intros sg Hsg. unfold stft. destruct (Nat.eqb_spec hop 0); [lia|]. rewrite div_ceil_ok by lia. cbn [bind].
    assert (Hc : (length sg + hop - 1) / hop <= length frames) by (apply ceil_le; [exact Hh|lia]).
    destruct (Nat.ltb_spec (length frames) ((length sg + hop - 1) / hop)); [lia|]. clear Hf Hc H.
    enough (G : forall idx p, fit c (length window) p -> exists p', stft_frames (fft c) sg window hop idx p frames =
       Done (p', tab (length frames) (fun k => fft_fresh c (wframe sg window ((idx + k) * hop))), ROk)) by exact (G 0 new_planner (fit_new c _)).
    induction frames as [|f rest IH]; intros idx p Hp; cbn [stft_frames length].
    - exists p. reflexivity.
    - rewrite (load_exact (fft c)) by apply resize_length. cbn [bind].
      destruct (@fft_fit T F c p (wframe sg window (idx * hop)) (length window) Hp (wframe_length _ _ _) Hw1 Hw2) as (p1 & E & Hk). rewrite E. cbn [bind].
      destruct (IH (idx + 1) p1 (Hk _ (right_after_refl c _) Hp)) as (p2 & E2). rewrite E2. cbn [bind]. exists p2. rewrite tab_S_l, Nat.add_0_r. do 3 f_equal. f_equal.
      apply tab_ext. intros k Hk'. do 2 f_equal. lia. }
  destruct (G signal eq_refl) as [p E]. destruct (G signal' Hl) as [p' E']. exists p, p'. eexists _, _. split; [exact E|]. split; [exact E'|].
  intros k Hk. destruct (Nat.ltb_spec k (length frames)) as [A|A].
  - rewrite !nth_tab by exact A. f_equal. unfold wframe. rewrite Hl. apply tab_ext. intros j Hj. rewrite Hs by lia. reflexivity.
  - rewrite !nth_overflow by (rewrite tab_length; exact A). reflexivity.
Qed.
Print Assumptions C98_stft_local.

(* ---- f32 and f64: what a tainted transform leaves in the object ---- *)
(* every later shorter transform, of any data, is tainted *)
Theorem C98_poisons_object : forall (T : Type) (F : Float T) (P : T -> Prop) (c : cfg) p (big x : list (cx T)) z p1 y, absorbing F P -> reachable c p -> c_kind c <> OtherT ->
  is_pow2 (length big) = true -> is_pow2 (length x) = true -> 16 < length x < length big -> In z big -> tainted P z -> fft c p big = Done (p1, y, ROk) ->
  exists p2 y2, fft c p1 x = Done (p2, y2, ROk) /\ length y2 = length x /\ forall w, In w y2 -> tainted P w.
Proof.
  intros T F P c p big x z p1 y HP Hp Hk Hb Hx Hlt Hz Hbad E.
  destruct (@pow2_step T F c P HP p big (reachable_Inv Hp) Hk Hb ltac:(lia)) as (p1' & y' & E' & HI1 & _ & L1 & B1). rewrite E in E'. injection E' as <- _.
  destruct B1 as [_ B1]; [left; exists z; auto|].
  destruct (@pow2_step T F c P HP p1 x HI1 Hk Hx ltac:(lia)) as (p2 & y2 & E2 & _ & L2 & _ & B2). exists p2, y2. split; [exact E2|]. split; [exact L2|].
  apply B2. right. apply B1. lia.
Qed.
Print Assumptions C98_poisons_object.

(* an object that has done one longer transform (of clean data): all frames from the first one that reaches the sample on *)
Theorem C98_stft_spreads : forall (T : Type) (F : Float T) (P : T -> Prop) (c : cfg) p (big : list (cx T)) p1 y (signal window : list T) hop frames i, absorbing F P ->
  reachable c p -> c_kind c <> OtherT -> is_pow2 (length big) = true -> is_pow2 (length window) = true -> 16 < length window < length big -> fft c p big = Done (p1, y, ROk) ->
  0 < hop -> length signal <= hop * length frames -> i < length signal -> P (nth i signal fzero) ->
  exists p' ys, stft (fft c) p1 signal window hop frames = Done (p', ys, ROk) /\ length ys = length frames /\
    forall k0 k, k0 <= k < length frames -> k0 * hop <= i < k0 * hop + length window -> length (nth k ys []) = length window /\ forall w, In w (nth k ys []) -> tainted P w.
Proof.
  intros T F P c p big p1 y signal window hop frames i HP Hp Hk Hbig Hw Hlt E Hh Hf Hi Hb.
  destruct (@pow2_step T F c P HP p big (reachable_Inv Hp) Hk Hbig ltac:(lia)) as (p1' & y' & E' & HI1 & _ & L1 & _). rewrite E in E'. injection E' as <- _.
  assert (Hsz : length window < length (pl_sre p1)) by lia. assert (H16 : 16 < length window) by lia. clear L1 E Hlt Hbig Hp p y' big y.
  unfold stft. destruct (Nat.eqb_spec hop 0); [lia|]. rewrite div_ceil_ok by lia. cbn [bind].
  assert (Hc : (length signal + hop - 1) / hop <= length frames) by (apply ceil_le; [exact Hh|lia]).
  destruct (Nat.ltb_spec (length frames) ((length signal + hop - 1) / hop)); [lia|]. clear Hf Hc H.
  enough (G : forall idx p, Inv c p -> length window < length (pl_sre p) -> exists p' ys, stft_frames (fft c) signal window hop idx p frames = Done (p', ys, ROk) /\ length ys = length frames /\
    forall k0 k, k0 <= k < length frames -> (idx + k0) * hop <= i < (idx + k0) * hop + length window \/ poisoned P p (length window) -> length (nth k ys []) = length window /\ all_bad P (nth k ys [])).
  { destruct (G 0 p1 HI1 Hsz) as (p' & ys & E & L & A). exists p', ys. split; [exact E|]. split; [exact L|]. intros k0 k K1 K2. apply (A k0 k K1). left. exact K2. }
  clear p1 HI1 Hsz. induction frames as [|f rest IH]; intros idx p HI Hsz; cbn [stft_frames length].
  - exists p, []. split; [reflexivity|]. split; [reflexivity|]. intros k0 k K. lia.
  - rewrite (load_exact (fft c)) by apply resize_length. cbn [bind]. set (x := wframe signal window (idx * hop)).
    assert (Lx : length x = length window) by apply wframe_length.
    destruct (@pow2_step T F c P HP p x HI Hk) as (p1 & y & E & HI1 & Ly & L1 & B1); [rewrite Lx; exact Hw|rewrite Lx; exact H16|].
    rewrite E. cbn [bind]. destruct (IH (idx + 1) p1 HI1 ltac:(lia)) as (p2 & ys & E2 & L2 & G2). rewrite E2. cbn [bind].
    exists p2, (y :: ys). split; [reflexivity|]. split; [cbn; lia|]. rewrite Lx in B1.
    assert (Cov : idx * hop <= i < idx * hop + length window -> some_bad P x).
    { intros Hin. exists (nth (i - idx * hop) x czero). split; [apply nth_In; lia|]. left. unfold x, wframe. rewrite nth_tab by lia. cbn [re].
      replace (idx * hop + (i - idx * hop)) with i by lia. destruct (Nat.ltb_spec i (length signal)); [|lia]. apply (ab_mul HP). left. exact Hb. }
    intros k0 k K H. destruct k as [|k]; cbn [nth].
    + split; [lia|]. apply B1. assert (k0 = 0) as -> by lia. rewrite Nat.add_0_r in H. destruct H; auto.
    + destruct k0 as [|k0].
      * apply (G2 0 k); [lia|]. right. apply B1; [|lia]. rewrite Nat.add_0_r in H. destruct H; auto.
      * apply (G2 k0 k); [lia|]. destruct H as [H|H]; [left; replace (idx + 1 + k0) with (idx + S k0) by lia; exact H|right; apply B1; [auto|lia]].
Qed.
Print Assumptions C98_stft_spreads.

(* ---- IEEE arithmetic: infinities and NaN together, and NaN alone, are such values ---- *)
Lemma absorbing_nonfinite f (o : libm f) : absorbing (ieee o) (fun x => is_finite x = false).
Proof.
  split; cbn [fadd fsub fmul fneg fdiv fmul_add ieee].
  - intros [s|s| |s m e B] [s'|s'| |s' m' e' B'] [H|H]; try discriminate H; cbn; try reflexivity; destruct (Bool.eqb _ _); reflexivity.
  - intros [s|s| |s m e B] [s'|s'| |s' m' e' B'] [H|H]; try discriminate H; cbn; try reflexivity; destruct s, s'; reflexivity.
  - intros [s|s| |s m e B] [s'|s'| |s' m' e' B'] [H|H]; try discriminate H; reflexivity.
  - intros [s|s| |s m e B] H; try discriminate H; reflexivity.
  - intros [s|s| |s m e B] [s'|s'| |s' m' e' B'] H; try discriminate H; reflexivity.
  - intros [s|s| |s m e B] [s'|s'| |s' m' e' B'] [s''|s''| |s'' m'' e'' B''] [H|[H|H]]; try discriminate H; try reflexivity; destruct s, s', s''; reflexivity.
Qed.
Lemma absorbing_nan f (o : libm f) : absorbing (ieee o) (fun x => is_nan x = true).
Proof.
  split; cbn [fadd fsub fmul fneg fdiv fmul_add ieee].
  - intros [s|s| |s m e B] [s'|s'| |s' m' e' B'] [H|H]; try discriminate H; reflexivity.
  - intros [s|s| |s m e B] [s'|s'| |s' m' e' B'] [H|H]; try discriminate H; reflexivity.
  - intros [s|s| |s m e B] [s'|s'| |s' m' e' B'] [H|H]; try discriminate H; reflexivity.
  - intros [s|s| |s m e B] H; try discriminate H; reflexivity.
  - intros [s|s| |s m e B] [s'|s'| |s' m' e' B'] H; try discriminate H; reflexivity.
  - intros [s|s| |s m e B] [s'|s'| |s' m' e' B'] [s''|s''| |s'' m'' e'' B''] [H|[H|H]]; try discriminate H; reflexivity.
Qed.
Definition not_finite {f} (z : cx (num f)) : Prop := is_finite (re z) = false \/ is_finite (im z) = false.
Theorem C98_ieee : forall (f : fmt) (o : libm f) (c : cfg) (p : planner (num f)) x z, reachable (F := ieee o) c p -> length_ok c (length x) -> In z x -> not_finite z ->
  (exists p' y, fft (F := ieee o) c p x = Done (p', y, ROk) /\ length y = length x /\ forall w, In w y -> not_finite w) /\
  (exists p' y, ifft (F := ieee o) c p x = Done (p', y, ROk) /\ length y = length x /\ forall w, In w y -> not_finite w).
Proof.
  intros f o c p x z Hp Hl Hz Hb. split; [apply (@C98_fft (num f) (ieee o) _ c p x z (absorbing_nonfinite o) Hp Hl Hz Hb)|apply (@C98_ifft (num f) (ieee o) _ c p x z (absorbing_nonfinite o) Hp Hl Hz Hb)].
Qed.
Print Assumptions C98_ieee.

(* the expectation that finite samples on a working object give finite bins unless they overflow: after one 64-point transform with a NaN,
   32 zeros transform to 32 bins that are not numbers *)
Theorem C98_clean_data_refuted : forall (f : fmt) (o : libm f) (c : cfg), c_kind c <> OtherT -> exists (big : list (cx (num f))) p p' y,
  run_calls (F := ieee o) c new_planner [CFft big] = Done p /\
  fft (F := ieee o) c p (repeat (mkcx (B754_zero false) (B754_zero false)) 32) = Done (p', y, ROk) /\ length y = 32 /\
  forall w, In w y -> is_nan (re w) = true \/ is_nan (im w) = true.
Proof.
  intros f o c Hk. set (zero := mkcx (B754_zero false : num f) (B754_zero false)). set (big := mkcx (B754_nan : num f) (B754_zero false) :: repeat zero 63).
  assert (Rn : reachable (F := ieee o) c new_planner) by apply reachable_new.
  destruct (@C98_fft _ (ieee o) _ c new_planner big (mkcx B754_nan (B754_zero false)) (absorbing_nan o) Rn) as (p & y & E & _ & _); [split; [cbn; lia|right; reflexivity]|left; reflexivity|left; reflexivity|].
  destruct (@C98_poisons_object _ (ieee o) _ c new_planner big (repeat zero 32) (mkcx B754_nan (B754_zero false)) p y (absorbing_nan o) Rn Hk) as (p2 & y2 & E2 & L2 & B2);
    [reflexivity|reflexivity|cbn; lia|left; reflexivity|left; reflexivity|exact E|].
  exists big, p, p2, y2. split; [cbn [run_calls run_call]; unfold forget; rewrite E; reflexivity|]. split; [exact E2|]. split; [exact L2|exact B2].
Qed.
Print Assumptions C98_clean_data_refuted.

(* a NaN among 24 samples of a real signal; a window of 32 with hop 16 *)
Example C98_example : exists (x : list (num B32)) (z : cx (num B32)), length x = 24 /\ Nat.Even (length x) /\ In B754_nan x /\ is_nan (nth 20 x (B754_zero false)) = true /\
  not_finite z /\ length_ok (cfg_std F32) 24 /\ length_ok (cfg_nostd F32) 32 /\ ~ length_ok (cfg_nostd F32) 24 /\ 0 * 16 <= 20 < 0 * 16 + 32 /\ is_pow2 32 = true.
Proof.
  exists (repeat (B754_zero false) 20 ++ B754_nan :: repeat (B754_zero true) 3), (mkcx B754_nan (B754_zero false)).
  split; [reflexivity|]. split; [exists 12; reflexivity|]. split; [apply in_or_app; right; left; reflexivity|]. split; [reflexivity|]. split; [left; reflexivity|].
  split; [split; [lia|left; reflexivity]|]. split; [split; [lia|right; reflexivity]|]. split; [intros [_ [H|H]]; discriminate H|]. split; [lia|reflexivity].
Qed.

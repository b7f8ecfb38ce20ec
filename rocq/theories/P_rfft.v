(* Properties C28-C31: real FFT. *)
From Coq Require Import Lra Reals ZArith.
From Verif Require Import L_rfft L_plan P_fft P_entry.
Set Implicit Arguments.
Open Scope nat_scope.

(* a real FFT planner after any calls, with any FFT providers and arguments *)
Inductive rreach {T} {F : Float T} (c : cfg) : rplanner T -> Prop :=
| rr_new : rreach c (rnew c)
| rr_tw rp m rp' t : rreach c rp -> rget_twiddles c rp m = Done (rp', t) -> rreach c rp'
| rr_pack rp m rp' t : rreach c rp -> rget_pack c rp m = Done (rp', t) -> rreach c rp'
| rr_fft S (op : S -> list (cx T) -> exec (S * list (cx T) * rres)) v rp s x out scr rp' s' out' scr' r :
    rreach c rp -> rfft_with_scratch c op v rp s x out scr = Done (rp', s', out', scr', r) -> rreach c rp'
| rr_ifft S (op : S -> list (cx T) -> exec (S * list (cx T) * rres)) v rp s x out scr rp' s' out' scr' r :
    rreach c rp -> irfft_with_scratch c op v rp s x out scr = Done (rp', s', out', scr', r) -> rreach c rp'
| rr_pfft S (op : S -> list (cx T) -> exec (S * list (cx T) * rres)) v rp s x out rp' s' out' r :
    rreach c rp -> prfft c op v rp s x out = Done (rp', s', out', r) -> rreach c rp'
| rr_pifft S (op : S -> list (cx T) -> exec (S * list (cx T) * rres)) v rp s x out rp' s' out' r :
    rreach c rp -> pirfft c op v rp s x out = Done (rp', s', out', r) -> rreach c rp'
| rr_packed S (op : S -> list (cx T) -> exec (S * list (cx T) * rres)) rp s x out scr rp' s' out' scr' r :
    rreach c rp -> rfft_packed c op rp s x out scr = Done (rp', s', out', scr', r) -> rreach c rp'
| rr_ipacked S (op : S -> list (cx T) -> exec (S * list (cx T) * rres)) rp s x out scr rp' s' out' scr' r :
    rreach c rp -> irfft_packed c op rp s x out scr = Done (rp', s', out', scr', r) -> rreach c rp'.

Ltac un_bind H :=
  repeat match type of H with
  | bind ?e _ = Done _ => let E := fresh "E" in destruct e eqn:E; cbn [bind] in H; try discriminate H
  | (let '(_, _) := ?p in _) = Done _ => destruct p
  end.
Section Reach.
Context {T : Type} {F : Float T}.
Variable c : cfg.
Section Op.
Context {S : Type}.
Variable op : S -> list (cx T) -> exec (S * list (cx T) * rres).
Lemma rws_ok v rp s x out scr : rinv c rp -> exists rp', rinv c rp' /\ rp_scratch rp' = rp_scratch rp /\
  rfft_with_scratch c op v rp s x out scr =
   ('(s, out, scr, r) <- rfft_direct c op v s x out scr (build_twiddle_table c (length x / 2)) ;; Done (rp', s, out, scr, r)).
Proof.
  intros H. unfold rfft_with_scratch. destruct (rget_ok (length x / 2) H) as (r1 & E1 & H1 & S1). rewrite E1. cbn [bind].
  destruct (rpack_ok (length x / 2) H1) as (r2 & E2 & H2 & S2). rewrite E2. cbn [bind]. exists r2. rewrite S2, S1. auto.
Qed.
Lemma irws_ok v rp s x out scr : rinv c rp -> exists rp', rinv c rp' /\ rp_scratch rp' = rp_scratch rp /\
  irfft_with_scratch c op v rp s x out scr =
   ('(s, out, scr, r) <- irfft_direct c op v s x out scr (build_twiddle_table c (length out / 2)) ;; Done (rp', s, out, scr, r)).
Proof.
  intros H. unfold irfft_with_scratch. destruct (rget_ok (length out / 2) H) as (r1 & E1 & H1 & S1). rewrite E1. cbn [bind].
  destruct (rpack_ok (length out / 2) H1) as (r2 & E2 & H2 & S2). rewrite E2. cbn [bind]. exists r2. rewrite S2, S1. auto.
Qed.
(* the planner's own scratch has the right size whatever it held *)
Lemma prfft_ok v rp s x out : rinv c rp -> exists rp' scr, rinv c rp' /\ length scr = length x / 2 /\ exists rest,
  prfft c op v rp s x out =
   ('(s, out, scr, r) <- rfft_direct c op v s x out scr (build_twiddle_table c (length x / 2)) ;; Done (put_scratch rp' (scr ++ rest), s, out, r)).
Proof.
  intros H. unfold prfft. set (k := length x / 2).
  pose proof (grow_length (rp_scratch rp) k czero) as Lg. set (g := grow (rp_scratch rp) k czero) in *.
  unfold slice_to. destruct (Nat.leb_spec k (length g)); [|lia]. cbn [bind].
  assert (Ht : rinv c (take_scratch rp)) by exact H.
  destruct (rws_ok v s x out (firstn k g) Ht) as (rp' & H' & _ & E). rewrite E. exists rp', (firstn k g).
  split; [exact H'|]. split; [rewrite firstn_length; lia|]. exists (skipn k g).
  fold k. destruct (rfft_direct c op v s x out (firstn k g) (build_twiddle_table c k)) as [[[[a b] d] r]| |]; reflexivity.
Qed.
Lemma pirfft_ok v rp s x out : rinv c rp -> exists rp' scr, rinv c rp' /\ length scr = length out / 2 /\ exists rest,
  pirfft c op v rp s x out =
   ('(s, out, scr, r) <- irfft_direct c op v s x out scr (build_twiddle_table c (length out / 2)) ;; Done (put_scratch rp' (scr ++ rest), s, out, r)).
Proof.
  intros H. unfold pirfft. set (k := length out / 2).
  pose proof (grow_length (rp_scratch rp) k czero) as Lg. set (g := grow (rp_scratch rp) k czero) in *.
  unfold slice_to. destruct (Nat.leb_spec k (length g)); [|lia]. cbn [bind].
  assert (Ht : rinv c (take_scratch rp)) by exact H.
  destruct (irws_ok v s x out (firstn k g) Ht) as (rp' & H' & _ & E). rewrite E. exists rp', (firstn k g).
  split; [exact H'|]. split; [rewrite firstn_length; lia|]. exists (skipn k g).
  fold k. destruct (irfft_direct c op v s x out (firstn k g) (build_twiddle_table c k)) as [[[[a b] d] r]| |]; reflexivity.
Qed.
Lemma packed_planner rp s x out scr rp' s' out' scr' r : rinv c rp -> rfft_packed c op rp s x out scr = Done (rp', s', out', scr', r) -> rinv c rp'.
Proof.
  intros H E. unfold rfft_packed in E. destruct (rcheck _ _ _); [injection E as <- _ _ _ _; exact H|].
  destruct (for_range _ _ _ _); cbn [bind] in E; try discriminate. destruct (slice_to _ _); cbn [bind] in E; try discriminate.
  destruct (op s _) as [[[s1 y] r1]| |]; cbn [bind] in E; try discriminate. destruct r1; [|injection E as <- _ _ _ _; exact H].
  destruct (get _ _); cbn [bind] in E; try discriminate. destruct (set out _ _); cbn [bind] in E; try discriminate.
  destruct (set _ _ _); cbn [bind] in E; try discriminate.
  destruct (rget_ok (length x / 2) H) as (r2 & E2 & H2 & S2). rewrite E2 in E. cbn [bind] in E.
  destruct (bins _ _ _ _ _); cbn [bind] in E; try discriminate. injection E as <- _ _ _ _. exact H2.
Qed.
Lemma ipacked_eq rp s x out scr : rinv c rp -> exists rp', rinv c rp' /\
  irfft_packed c op rp s x out scr = ('(s, out, scr, r) <- irfft_direct c op PScalar s x out scr (build_twiddle_table c (length out / 2)) ;; Done (rp', s, out, scr, r)).
Proof.
  intros H. unfold irfft_packed. destruct (rcheck _ _ _) eqn:Ec.
  - exists rp. split; [exact H|]. unfold irfft_direct. rewrite Ec. reflexivity.
  - destruct (rget_ok (length out / 2) H) as (r1 & E1 & H1 & S1). rewrite E1. cbn [bind]. exists r1. auto.
Qed.
End Op.
Lemma rreach_inv rp : rreach c rp -> rinv c rp.
Proof.
  induction 1 as [|rp m rp' t _ IH E|rp m rp' t _ IH E|S op v rp s x out scr rp' s' out' scr' r _ IH E|S op v rp s x out scr rp' s' out' scr' r _ IH E
    |S op v rp s x out rp' s' out' r _ IH E|S op v rp s x out rp' s' out' r _ IH E|S op rp s x out scr rp' s' out' scr' r _ IH E|S op rp s x out scr rp' s' out' scr' r _ IH E].
  - apply rinv_new.
  - destruct (rget_ok m IH) as (r1 & E1 & H1 & _). congruence.
  - destruct (rpack_ok m IH) as (r1 & E1 & H1 & _). congruence.
  - destruct (rws_ok op v s x out scr IH) as (r1 & H1 & _ & E1). rewrite E1 in E. destruct (rfft_direct _ _ _ _ _ _ _ _) as [[[[a b] d] q]| |]; cbn [bind] in E; congruence.
  - destruct (irws_ok op v s x out scr IH) as (r1 & H1 & _ & E1). rewrite E1 in E. destruct (irfft_direct _ _ _ _ _ _ _ _) as [[[[a b] d] q]| |]; cbn [bind] in E; congruence.
  - destruct (prfft_ok op v s x out IH) as (r1 & scr & H1 & _ & rest & E1). rewrite E1 in E. destruct (rfft_direct _ _ _ _ _ _ _ _) as [[[[a b] d] q]| |]; cbn [bind] in E; try discriminate. injection E as <- _ _ _. exact H1.
  - destruct (pirfft_ok op v s x out IH) as (r1 & scr & H1 & _ & rest & E1). rewrite E1 in E. destruct (irfft_direct _ _ _ _ _ _ _ _) as [[[[a b] d] q]| |]; cbn [bind] in E; try discriminate. injection E as <- _ _ _. exact H1.
  - eapply packed_planner; eassumption.
  - destruct (ipacked_eq op s x out scr IH) as (r1 & H1 & E1). rewrite E1 in E. destruct (irfft_direct _ _ _ _ _ _ _ _) as [[[[a b] d] q]| |]; cbn [bind] in E; congruence.
Qed.
End Reach.

(* ------------------------------------------------------------------ C28 *)
(* the half spectrum sum_j x[j] exp(-2 pi i j k / n), k = 0 .. n/2 *)
Definition half_spectrum (x : list R) : list C :=
  tab (length x / 2 + 1) (fun k => csum (length x) (fun j => RtoC (nth j x 0%R) *c W (length x) (j * k))).
(* a provider computing the DFT of length m in state s *)
Definition does {S} (op : S -> list C -> exec (S * list C * rres)) (f : list C -> list C) (m : nat) (s : S) : Prop :=
  forall z, length z = m -> exists s', op s z = Done (s', f z, ROk).
Lemma rdirect_R (c : cfg) v {S} (op : S -> list C -> exec (S * list C * rres)) s (x : list R) out scr :
  0 < length x -> Nat.Even (length x) -> length out = length x / 2 + 1 -> length x / 2 <= length scr -> does op DFT (length x / 2) s ->
  exists s' scr', rfft_direct c op v s x out scr (build_twiddle_table c (length x / 2)) = Done (s', half_spectrum x, scr', ROk).
Proof.
  intros Hn [m Hm] Ho Hs Hop. assert (Hx : length x / 2 = m) by lia. destruct (Hop (packed x)) as [s' E]; [apply packed_length|].
  exists s'. eexists. rewrite rfft_direct_ok.
  - rewrite E. cbn [bind]. unfold half_spectrum. rewrite Hx, rclosed_R by lia. rewrite Hm. reflexivity.
  - apply rcheck_none. lia.
  - rewrite rtable_length. lia.
  - intros s2 y. rewrite E. intros [= _ <-]. rewrite DFT_length. apply packed_length.
Qed.
(* every kernel, every planner state, every previous contents *)
Theorem C28_rfft_is_dft : forall (c : cfg) (v : rpath) (S : Type) (op : S -> list C -> exec (S * list C * rres)) s rp (x : list R) out scr,
  rreach c rp -> 0 < length x -> Nat.Even (length x) -> length out = length x / 2 + 1 -> length x / 2 <= length scr ->
  does op DFT (length x / 2) s ->
  exists rp' s' scr', rfft_with_scratch c op v rp s x out scr = Done (rp', s', half_spectrum x, scr', ROk).
Proof.
  intros c v S op s rp x out scr Hr Hn He Ho Hs Hop. destruct (rws_ok op v s x out scr (rreach_inv Hr)) as (rp' & _ & _ & E).
  destruct (@rdirect_R c v S op s x out scr Hn He Ho Hs Hop) as (s' & scr' & E'). rewrite E, E'. cbn [bind]. eauto.
Qed.
Print Assumptions C28_rfft_is_dft.
(* the planner's rfft with its own scratch *)
Theorem C28_planner_rfft_is_dft : forall (c : cfg) (v : rpath) (S : Type) (op : S -> list C -> exec (S * list C * rres)) s rp (x : list R) out,
  rreach c rp -> 0 < length x -> Nat.Even (length x) -> length out = length x / 2 + 1 -> does op DFT (length x / 2) s ->
  exists rp' s', prfft c op v rp s x out = Done (rp', s', half_spectrum x, ROk).
Proof.
  intros c v S op s rp x out Hr Hn He Ho Hop. destruct (prfft_ok op v s x out (rreach_inv Hr)) as (rp' & scr & _ & Hl & rest & E).
  destruct (@rdirect_R c v S op s x out scr Hn He Ho ltac:(lia) Hop) as (s' & scr' & E'). rewrite E, E'. cbn [bind]. eauto.
Qed.
Print Assumptions C28_planner_rfft_is_dft.
(* the trait methods on a new scalar object, with uninitialised scratch *)
Theorem C28_scalar_object : forall (c : cfg) (v : rpath) uninit (x : list R) out,
  0 < length x -> Nat.Even (length x) -> length out = length x / 2 + 1 -> c_std c = true \/ is_pow2 (length x / 2) = true ->
  exists p, trfft c (fft c) v uninit new_planner x out = Done (p, half_spectrum x, ROk).
Proof.
  intros c v u x out Hn He Ho Hs. unfold trfft, trfft_with_scratch. destruct He as [m Hm].
  destruct (@C28_rfft_is_dft c v _ (fft c) new_planner (rnew c) x out (tab (length x / 2) u)) as (rp & s & scr & E); try assumption.
  - constructor.
  - exists m. exact Hm.
  - rewrite tab_length. lia.
  - intros z Hz. apply fft_new_R; rewrite Hz; [lia|assumption].
  - rewrite E. cbn [bind]. eauto.
Qed.
Print Assumptions C28_scalar_object.
(* the SIMD objects: the same for four or more samples, a panic for two *)
Definition simd_op (c : cfg) (wide : bool) {T} {F : Float T} (u : unit) (z : list (cx T)) : exec (unit * list (cx T) * rres) :=
  '(y, r) <- simd_fft c wide z ;; Done (u, y, r).
Theorem C28_simd_object : forall (c : cfg) (v : rpath) wide uninit (x : list R) out,
  2 < length x -> Nat.Even (length x) -> length out = length x / 2 + 1 -> c_std c = true \/ is_pow2 (length x / 2) = true ->
  trfft c (simd_op c wide) v uninit tt x out = Done (tt, half_spectrum x, ROk).
Proof.
  intros c v w u x out Hn He Ho Hs. unfold trfft, trfft_with_scratch. destruct He as [m Hm].
  destruct (@C28_rfft_is_dft c v _ (simd_op c w) tt (rnew c) x out (tab (length x / 2) u)) as (rp & [] & scr & E); try assumption.
  - constructor.
  - lia.
  - exists m. exact Hm.
  - rewrite tab_length. lia.
  - intros z Hz. exists tt. unfold simd_op. destruct (@C07_stockham_is_dft c z w) as [_ E]; [lia|].
    rewrite E. unfold dft_outcome, expected. rewrite Hz. destruct (Nat.eqb_spec (length x / 2) 0); [lia|].
    apply supported_cases in Hs. unfold supported in Hs. rewrite Hs. reflexivity.
  - rewrite E. reflexivity.
Qed.
Print Assumptions C28_simd_object.
Theorem C28_simd_object_refuted : forall (T : Type) (F : Float T) (c : cfg) (v : rpath) wide uninit (a b : T) out,
  length out = 2 -> trfft c (simd_op c wide) v uninit tt [a; b] out = Panic.
Proof.
  intros T F c v w u a b out Ho. unfold trfft, trfft_with_scratch.
  destruct (rws_ok (simd_op c w) v tt [a; b] out (tab (length [a; b] / 2) u) (rinv_new c)) as (rp & _ & _ & E). rewrite E.
  rewrite rfft_direct_ok.
  - change (packed [a; b]) with [mkcx a b]. unfold simd_op, simd_fft. destruct w; reflexivity.
  - apply rcheck_none. rewrite Ho. cbn. lia.
  - rewrite rtable_length. lia.
  - change (packed [a; b]) with [mkcx a b]. intros s y. unfold simd_op, simd_fft. destruct w; discriminate.
Qed.
Print Assumptions C28_simd_object_refuted.
(* the two fallback kernels *)
Theorem C28_packed : forall (c : cfg) (S : Type) (op : S -> list C -> exec (S * list C * rres)) s rp (x : list R) out scr,
  rreach c rp -> 0 < length x -> Nat.Even (length x) -> length out = length x / 2 + 1 -> length x / 2 <= length scr ->
  does op DFT (length x / 2) s ->
  exists rp' s' scr', rfft_packed c op rp s x out scr = Done (rp', s', half_spectrum x, scr', ROk).
Proof.
  intros c S op s rp x out scr Hr Hn [m Hm] Ho Hs Hop. assert (Hx : length x / 2 = m) by lia. rewrite Hx in *.
  destruct (Hop (packed x)) as [s' E]; [rewrite packed_length; exact Hx|].
  unfold rfft_packed. replace (rcheck (length x) (length out) (length scr)) with (@None ferr) by (symmetry; apply rcheck_none; lia).
  rewrite Hx, pack_loop by lia. cbn [bind]. rewrite slice_app by (rewrite packed_length; exact Hx). cbn [bind]. rewrite E. cbn [bind].
  rewrite skipn_app_exact by (rewrite packed_length; exact Hx).
  assert (Ly : length (DFT (packed x)) = m) by (rewrite DFT_length, packed_length; exact Hx).
  pose proof (@rclosed_R c PScalar m x ltac:(lia) Hm) as Ec. set (y := DFT (packed x)) in *.
  rewrite get_nth with (d := czero) by (rewrite app_length; lia). cbn [bind].
  rewrite set_ok by lia. cbn [bind]. rewrite set_ok by (rewrite upd_length; lia). cbn [bind].
  destruct (rget_ok m (rreach_inv Hr)) as (r1 & E1 & _). rewrite E1. cbn [bind].
  rewrite bins_ok; [|rewrite app_length; lia|rewrite rtable_length; lia|rewrite !upd_length; lia]. cbn [bind].
  assert (Eh : half_spectrum x = tab (m + 1) (dft (2 * m) (rsig x))) by (unfold half_spectrum; rewrite Hx, Hm; reflexivity).
  do 3 eexists. rewrite Eh, <- Ec. do 4 f_equal. unfold rclosed. rewrite !upd_length, Ho.
  apply tab_ext. intros k Hk.
  assert (Hy : forall k, k < m -> nthc (y ++ skipn m scr) k = nthc y k).
  { intros j Hj. unfold nthc. rewrite app_nth1 by lia. reflexivity. }
  change (nth 0 (y ++ skipn m scr) czero) with (nthc (y ++ skipn m scr) 0). rewrite (Hy 0) by lia.
  destruct (Nat.eqb_spec k m) as [->|Hkm].
  - destruct (Nat.ltb_spec m m); [lia|]. rewrite andb_false_r. unfold nthc at 1.
    rewrite nth_upd by (rewrite upd_length; lia). rewrite Nat.eqb_refl. reflexivity.
  - destruct (Nat.eqb_spec k 0) as [->|Hk0].
    + cbn [Nat.leb andb]. unfold nthc at 1. rewrite nth_upd by (rewrite upd_length; lia).
      destruct (Nat.eqb_spec 0 m); [lia|]. rewrite nth_upd by lia. reflexivity.
    + destruct (Nat.leb_spec 1 k), (Nat.ltb_spec k m); try lia. cbn [andb]. rewrite !Hy by lia. reflexivity.
Qed.
Print Assumptions C28_packed.
Theorem C28_stack : forall (c : cfg) (x : list R) out, is_pow2 (length x) = true -> length out = length x / 2 + 1 ->
  rfft_stack c x out = Done (half_spectrum x, ROk).
Proof.
  intros c x out Hp Ho. assert (Hn : 0 < length x) by (apply is_pow2_iff in Hp; destruct Hp as [L ->]; apply pow2_pos).
  unfold rfft_stack. destruct (Nat.eqb_spec (length x) 0); [lia|]. rewrite Ho, Nat.eqb_refl. cbn [negb].
  assert (Eb : zip_apply (fun _ v => mkcx v fzero) (repeat (mkcx fzero fzero) (length x)) x = map RtoC x).
  { clear. induction x as [|a x IH]; cbn [length repeat zip_apply map]; [reflexivity|]. f_equal. exact IH. }
  rewrite Eb. rewrite fft_inplace_stack_R by (rewrite map_length; exact Hp). cbn [bind].
  unfold slice_to. rewrite DFT_length, map_length, Ho, Nat.leb_refl.
  destruct (Nat.leb_spec (length x / 2 + 1) (length x)); [|lia]. cbn [bind]. rewrite skipn_all2 by lia. rewrite app_nil_r.
  unfold DFT. rewrite map_length, firstn_tab by lia. do 2 f_equal. apply tab_ext. intros k Hk. unfold dft. apply csum_ext. intros j Hj.
  unfold at_. rewrite nth_indep with (d' := RtoC 0) by (rewrite map_length; exact Hj). rewrite map_nth. reflexivity.
Qed.
Print Assumptions C28_stack.
Example C28_example : Nat.Even (length [1; 2; 3; 4; 5; 6]%R) /\ does (fft (cfg_std F64)) DFT 3 (new_planner (T := R)).
Proof.
  split; [exists 3; reflexivity|]. intros z Hz. apply fft_new_R; [lia|left; reflexivity].
Qed.

(* ------------------------------------------------------------------ C29 *)
(* the full spectrum a half spectrum y stands for, n = 2 (length y - 1); the
   imaginary parts of bins 0 and n/2 are ignored *)
Definition extension (y : list C) (k : nat) : C :=
  let m := length y - 1 in
  if k =? 0 then RtoC (re (nth 0 y C0)) else if k =? m then RtoC (re (nth m y C0))
  else if k <? m then nth k y C0 else Cconj (nth (2 * m - k) y C0).
Definition real_inverse (y : list C) : list R :=
  let n := 2 * (length y - 1) in tab n (fun j => re (idft n (extension y) j)).
Lemma irdirect_R (c : cfg) v {S} (op : S -> list C -> exec (S * list C * rres)) s (y : list C) out scr :
  0 < length out -> Nat.Even (length out) -> length y = length out / 2 + 1 -> length out / 2 <= length scr -> does op IDFT (length out / 2) s ->
  exists s' scr', irfft_direct c op v s y out scr (build_twiddle_table c (length out / 2)) = Done (s', real_inverse y, scr', ROk).
Proof.
  intros Hn [m Hm] Ho Hs Hop. assert (Hx : length out / 2 = m) by lia. rewrite Hx in *.
  set (z := iclosed c v m (build_twiddle_table c m) y).
  assert (Lz : length z = m) by apply tab_length.
  destruct (Hop z Lz) as [s' E].
  assert (Ez : IDFT z = packed (real_inverse y)).
  { unfold z. rewrite iclosed_R by lia. unfold real_inverse. replace (length y - 1) with m by lia. f_equal. apply tab_ext. intros j Hj.
    unfold hsig. f_equal. apply idft_ext. intros i Hi. unfold extension. replace (length y - 1) with m by lia. reflexivity. }
  exists s'. eexists. rewrite irfft_direct_ok; rewrite ?Hx; fold z.
  - rewrite E. cbn [bind]. rewrite Ez, (@unpacked_packed m); [reflexivity|]. unfold real_inverse. rewrite tab_length. lia.
  - apply rcheck_none. lia.
  - rewrite rtable_length. lia.
  - intros s2 y'. rewrite E. intros [= _ <-]. rewrite IDFT_length. exact Lz.
Qed.
Theorem C29_irfft_is_idft : forall (c : cfg) (v : rpath) (S : Type) (op : S -> list C -> exec (S * list C * rres)) s rp (y : list C) out scr,
  rreach c rp -> 0 < length out -> Nat.Even (length out) -> length y = length out / 2 + 1 -> length out / 2 <= length scr ->
  does op IDFT (length out / 2) s ->
  exists rp' s' scr', irfft_with_scratch c op v rp s y out scr = Done (rp', s', real_inverse y, scr', ROk).
Proof.
  intros c v S op s rp y out scr Hr Hn He Ho Hs Hop. destruct (irws_ok op v s y out scr (rreach_inv Hr)) as (rp' & _ & _ & E).
  destruct (@irdirect_R c v S op s y out scr Hn He Ho Hs Hop) as (s' & scr' & E'). rewrite E, E'. cbn [bind]. eauto.
Qed.
Print Assumptions C29_irfft_is_idft.
Theorem C29_planner_irfft : forall (c : cfg) (v : rpath) (S : Type) (op : S -> list C -> exec (S * list C * rres)) s rp (y : list C) out,
  rreach c rp -> 0 < length out -> Nat.Even (length out) -> length y = length out / 2 + 1 -> does op IDFT (length out / 2) s ->
  exists rp' s', pirfft c op v rp s y out = Done (rp', s', real_inverse y, ROk).
Proof.
  intros c v S op s rp y out Hr Hn He Ho Hop. destruct (pirfft_ok op v s y out (rreach_inv Hr)) as (rp' & scr & _ & Hl & rest & E).
  destruct (@irdirect_R c v S op s y out scr Hn He Ho ltac:(lia) Hop) as (s' & scr' & E'). rewrite E, E'. cbn [bind]. eauto.
Qed.
Print Assumptions C29_planner_irfft.
Theorem C29_packed : forall (c : cfg) (S : Type) (op : S -> list C -> exec (S * list C * rres)) s rp (y : list C) out scr,
  rreach c rp -> 0 < length out -> Nat.Even (length out) -> length y = length out / 2 + 1 -> length out / 2 <= length scr ->
  does op IDFT (length out / 2) s ->
  exists rp' s' scr', irfft_packed c op rp s y out scr = Done (rp', s', real_inverse y, scr', ROk).
Proof.
  intros c S op s rp y out scr Hr Hn He Ho Hs Hop. destruct (ipacked_eq op s y out scr (rreach_inv Hr)) as (rp' & _ & E).
  destruct (@irdirect_R c PScalar S op s y out scr Hn He Ho Hs Hop) as (s' & scr' & E'). rewrite E, E'. cbn [bind]. eauto.
Qed.
Print Assumptions C29_packed.
(* the inverse of a half spectrum that came from a real signal is the signal *)
Lemma half_spectrum_inverse (x : list R) : 0 < length x -> Nat.Even (length x) -> real_inverse (half_spectrum x) = x.
Proof.
  intros Hn [m Hm]. assert (Lh : length (half_spectrum x) - 1 = m) by (unfold half_spectrum; rewrite tab_length; lia).
  unfold real_inverse. rewrite Lh. symmetry.
  apply list_is_tab with (d := 0%R); [exact Hm|]. intros i Hi.
  rewrite (@idft_ext (2 * m) (extension (half_spectrum x)) (dft (2 * m) (rsig x))).
  - rewrite idft_dft by exact Hi. reflexivity.
  - intros k Hk. unfold extension. unfold half_spectrum. rewrite Hm. replace (2 * m / 2) with m by lia. rewrite tab_length. replace (m + 1 - 1) with m by lia.
    assert (Hr : forall j, j < 2 * m -> im (rsig x j) = 0%R) by (intros; reflexivity).
    assert (Hreal : forall j, j <= 2 * m -> dft (2 * m) (rsig x) (2 * m - j) = dft (2 * m) (rsig x) j -> RtoC (re (dft (2 * m) (rsig x) j)) = dft (2 * m) (rsig x) j).
    { intros j Hj E. rewrite dft_hermitian in E by (auto; lia). apply (f_equal im) in E. cbn [im Cconj] in E. apply C_eq; cbn [re im RtoC]; [reflexivity|lra]. }
    change (fun k => csum (2 * m) (fun j => RtoC (nth j x 0%R) *c W (2 * m) (j * k))) with (dft (2 * m) (rsig x)).
    destruct (Nat.eqb_spec k 0) as [->|Hk0]; [|destruct (Nat.eqb_spec k m) as [->|Hkm]].
    + rewrite nth_tab by lia. apply Hreal; [lia|]. rewrite Nat.sub_0_r. apply (@dft_period (2 * m) (rsig x) 0). lia.
    + rewrite nth_tab by lia. apply Hreal; [lia|]. f_equal. lia.
    + destruct (Nat.ltb_spec k m).
      * rewrite nth_tab by lia. reflexivity.
      * rewrite nth_tab by lia. rewrite dft_hermitian by (auto; lia). apply Cconj_conj.
Qed.
Theorem C29_round_trip : forall (c : cfg) (v : rpath) u u' (x : list R) out out',
  0 < length x -> Nat.Even (length x) -> length out = length x / 2 + 1 -> length out' = length x ->
  c_std c = true \/ is_pow2 (length x / 2) = true ->
  exists p y p', trfft c (fft c) v u new_planner x out = Done (p, y, ROk) /\ tirfft c (ifft c) v u' p y out' = Done (p', x, ROk).
Proof.
  intros c v u u' x out out' Hn He Ho Ho' Hs. assert (Hm : 0 < length x / 2) by (destruct He; lia).
  (* keep track of the object's state after the forward call *)
  unfold trfft, trfft_with_scratch. destruct (rws_ok (fft c) v new_planner x out (tab (length x / 2) u) (rinv_new c)) as (rp & _ & _ & E).
  destruct (@fft_new_R c (packed x)) as [p Ep]; [rewrite packed_length; exact Hm|rewrite packed_length; exact Hs|].
  assert (Hop : does (fft c) DFT (length x / 2) new_planner) by (intros z Hz; apply fft_new_R; rewrite Hz; assumption).
  destruct (@rdirect_R c v _ (fft c) new_planner x out (tab (length x / 2) u) Hn He Ho ltac:(rewrite tab_length; lia) Hop) as (s' & scr' & E').
  assert (Es : s' = p).
  { rewrite rfft_direct_ok in E'.
    - rewrite Ep in E'. cbn [bind] in E'. congruence.
    - apply rcheck_none. rewrite tab_length. destruct He. lia.
    - rewrite rtable_length. lia.
    - intros s2 y. rewrite Ep. intros [= _ <-]. rewrite DFT_length. apply packed_length. }
  subst s'. exists p, (half_spectrum x). rewrite E, E'. cbn [bind].
  destruct (@after_one c p (CFft (packed x)) (length x / 2)) as [HI Hr]; [cbn [run_calls run_call]; unfold forget; rewrite Ep; reflexivity|apply packed_length|].
  unfold tirfft, tirfft_with_scratch.
  destruct (@C29_irfft_is_idft c v _ (ifft c) p (rnew c) (half_spectrum x) out' (tab (length out' / 2) u')) as (rp2 & s2 & scr2 & E2).
  - constructor.
  - lia.
  - rewrite Ho'. exact He.
  - unfold half_spectrum. rewrite tab_length, Ho'. reflexivity.
  - rewrite tab_length. lia.
  - rewrite Ho'. intros z Hz. apply ifft_ready_R; try assumption; rewrite Hz; assumption.
  - exists s2. split; [reflexivity|]. rewrite E2. cbn [bind]. rewrite half_spectrum_inverse by assumption. reflexivity.
Qed.
Print Assumptions C29_round_trip.
Lemma buf_ext m (y : list C) : 0 < m -> length y = m + 1 ->
  for_range 1 m (fun k buf => v <- get y k ;; set buf (2 * m - k) (mkcx (re v) (fneg (im v)))) (y ++ repeat C0 (m - 1))
   = Done (tab (2 * m) (fun k => if k <=? m then at_ y k else Cconj (at_ y (2 * m - k)))).
Proof.
  intros Hm Hl. set (b0 := y ++ repeat C0 (m - 1)). assert (Lb : length b0 = 2 * m) by (unfold b0; rewrite app_length, repeat_length; lia).
  destruct (@for_inv (list C) (fun i l => l = tab (2 * m) (fun k => if k <=? m then at_ y k else if 2 * m - i <? k then Cconj (at_ y (2 * m - k)) else C0))
    (fun k buf => v <- get y k ;; set buf (2 * m - k) (mkcx (re v) (fneg (im v)))) 1 m b0) as (l & E & ->).
  - lia.
  - apply list_is_tab with (d := C0); [exact Lb|]. intros i Hi. unfold b0. destruct (Nat.leb_spec i m).
    + rewrite app_nth1 by lia. reflexivity.
    + destruct (Nat.ltb_spec (2 * m - 1) i); [lia|]. rewrite app_nth2 by lia. apply nth_repeat.
  - intros k l Hk ->. rewrite get_nth with (d := C0) by lia. cbn [bind]. rewrite set_ok by (rewrite tab_length; lia). eexists. split; [reflexivity|].
    apply list_is_tab with (d := C0); [rewrite upd_length, tab_length; reflexivity|]. intros i Hi. rewrite nth_upd by (rewrite tab_length; lia). rewrite nth_tab by exact Hi.
    destruct (Nat.eqb_spec i (2 * m - k)) as [->|].
    + destruct (Nat.leb_spec (2 * m - k) m); [lia|]. destruct (Nat.ltb_spec (2 * m - S k) (2 * m - k)); [|lia]. replace (2 * m - (2 * m - k)) with k by lia. reflexivity.
    + destruct (Nat.leb_spec i m); [reflexivity|]. destruct (Nat.ltb_spec (2 * m - k) i), (Nat.ltb_spec (2 * m - S k) i); try lia; reflexivity.
  - change (@nil R) with (@nil R). fold b0. rewrite E. f_equal. apply tab_ext. intros i Hi. destruct (Nat.leb_spec i m); [reflexivity|].
    destruct (Nat.ltb_spec (2 * m - m) i); [reflexivity|lia].
Qed.
(* the stack version does not ignore the imaginary parts of bins 0 and n/2, but
   they do not reach the real output *)
Lemma idft_re_ext n (f g : nat -> C) j m : n = 2 * m -> 0 < m -> (forall k, k < n -> k <> 0 -> k <> m -> f k = g k) -> re (f 0) = re (g 0) -> re (f m) = re (g m) ->
  j < n -> re (idft n f j) = re (idft n g j).
Proof.
  intros Hn Hm H H0 H1 Hj. unfold idft.
  assert (E : re (csum n (fun k => f k *c Cconj (W n (j * k)))) = re (csum n (fun k => g k *c Cconj (W n (j * k))))).
  { rewrite !re_csum. apply rsum_ext. intros k Hk. destruct (Nat.eq_dec k 0) as [->|]; [|destruct (Nat.eq_dec k m) as [->|]].
    - rewrite Nat.mul_0_r, W_0. cbn. rewrite H0. ring.
    - assert (EW : W n (j * m) = RtoC (cos (PI * INR j))).
      { unfold W, cis, RtoC. subst n. rewrite !mult_INR. cbn [INR]. replace (- (2 * PI * (INR j * INR m) / ((1 + 1) * INR m)))%R with (- (PI * INR j))%R by (field; apply INR_neq0; exact Hm).
        rewrite cos_neg, sin_neg. f_equal. replace (PI * INR j)%R with (INR j * PI)%R by ring.
        pose proof (sin_eq_0_1 (INR j * PI)) as Hs. rewrite Hs; [ring|]. exists (Z.of_nat j). rewrite INR_IZR_INZ. reflexivity. }
      rewrite EW. cbn. rewrite H1. ring.
    - rewrite H by assumption. reflexivity. }
  cbn [re im Cmul RtoC]. rewrite E. rewrite !Rmult_0_l. reflexivity.
Qed.
Theorem C29_stack : forall (c : cfg) (y : list C) out, is_pow2 (length out) = true -> 2 <= length out -> length y = length out / 2 + 1 ->
  irfft_stack c y out = Done (real_inverse y, ROk).
Proof.
  intros c y out Hp Hn Hy.
  assert (He : exists m, length out = 2 * m /\ 0 < m).
  { apply is_pow2_iff in Hp. destruct Hp as [[|L] E]; [cbn in E; lia|]. exists (2 ^ L). rewrite E. split; [reflexivity|apply pow2_pos]. }
  destruct He as (m & Hm & H0). assert (Hx : length out / 2 = m) by lia.
  unfold irfft_stack. destruct (Nat.eqb_spec (length out) 0); [lia|]. rewrite Hy, Hx, Nat.eqb_refl. cbn [negb].
  unfold slice_to. rewrite repeat_length, Hy, Hx, Nat.leb_refl. destruct (Nat.leb_spec (m + 1) (length out)); [|lia]. cbn [bind].
  rewrite firstn_all2 by lia. rewrite Hm.
  replace (skipn (m + 1) (repeat (mkcx fzero fzero) (2 * m))) with (repeat C0 (m - 1)).
  2:{ replace (2 * m) with ((m + 1) + (m - 1)) by lia. rewrite repeat_app, skipn_app_exact by apply repeat_length. reflexivity. }
  rewrite buf_ext by lia. cbn [bind]. rewrite ifft_inplace_stack_R by (rewrite tab_length, <- Hm; exact Hp). cbn [bind].
  do 2 f_equal. unfold real_inverse. replace (length y - 1) with m by lia.
  apply list_is_tab with (d := 0%R); [rewrite zip_apply_length; exact Hm|]. intros j Hj.
  rewrite nth_zip_apply with (db := C0) by lia. rewrite IDFT_length, tab_length. destruct (Nat.ltb_spec j (2 * m)); [|lia].
  unfold IDFT. rewrite tab_length. rewrite nth_tab by exact Hj.
  apply idft_re_ext with (m := m); try lia; unfold extension; replace (length y - 1) with m by lia.
  - intros k Hk Hk0 Hkm. rewrite at_tab by exact Hk. destruct (Nat.eqb_spec k 0), (Nat.eqb_spec k m); try lia.
    destruct (Nat.leb_spec k m), (Nat.ltb_spec k m); try lia; reflexivity.
  - rewrite at_tab by lia. cbn [Nat.leb Nat.eqb]. reflexivity.
  - rewrite at_tab by lia. rewrite Nat.leb_refl, Nat.eqb_refl. destruct (Nat.eqb_spec m 0); [lia|]. reflexivity.
Qed.
Print Assumptions C29_stack.
Example C29_example : does (ifft (cfg_std F32)) IDFT 6 (new_planner (T := R)) /\ extension [C1; Ci; mkcx 2%R 5%R] 2 = mkcx 2%R 0%R /\ extension [C1; Ci; mkcx 2%R 5%R] 3 = Cconj Ci.
Proof. split; [|split; reflexivity]. intros z Hz. apply C02_ifft_is_idft; [lia|left; reflexivity]. Qed.

(* ------------------------------------------------------------------ C30 *)
(* the argument errors for a signal length n, a spectrum buffer length and a
   scratch length *)
Inductive rejects (n spec scratch : nat) : ferr -> Prop :=
| rj_empty : n = 0 -> rejects n spec scratch EmptyInput
| rj_odd : Nat.Odd n -> rejects n spec scratch InvalidValue
| rj_len : 0 < n -> Nat.Even n -> (spec <> n / 2 + 1 \/ scratch < n / 2) -> rejects n spec scratch MismatchedLengths.
Lemma rcheck_rejects n a b e : rejects n a b e -> rcheck n a b = Some e.
Proof.
  unfold rcheck. intros [->|[q ->]|H [q ->] H']; [reflexivity| |].
  - destruct (Nat.eqb_spec (2 * q + 1) 0); [lia|]. destruct (Nat.eqb_spec ((2 * q + 1) mod 2) 0); [lia|]. reflexivity.
  - destruct (Nat.eqb_spec (2 * q) 0); [lia|]. destruct (Nat.eqb_spec ((2 * q) mod 2) 0); [|lia]. cbn [negb].
    destruct (Nat.eqb_spec a (2 * q / 2 + 1)), (Nat.ltb_spec b (2 * q / 2)); cbn [negb orb]; try reflexivity. lia.
Qed.
Lemma rejects_or n a b : (exists e, rejects n a b e) \/ rcheck n a b = None.
Proof.
  destruct (Nat.eq_dec n 0) as [->|H]; [left; eexists; constructor; reflexivity|].
  destruct (Nat.Even_or_Odd n) as [He|Ho]; [|left; eexists; apply rj_odd; exact Ho].
  destruct (Nat.eq_dec a (n / 2 + 1)); [|left; eexists; apply rj_len; auto; lia].
  destruct (Nat.le_gt_cases (n / 2) b); [|left; eexists; apply rj_len; auto; lia].
  right. apply rcheck_none. destruct He. lia.
Qed.
Theorem C30_argument_errors : forall (T : Type) (F : Float T) (c : cfg) (v : rpath) (S : Type) (op : S -> list (cx T) -> exec (S * list (cx T) * rres)) s rp,
  rreach c rp ->
  (forall (x : list T) out scr e, rejects (length x) (length out) (length scr) e ->
     (exists rp', rfft_with_scratch c op v rp s x out scr = Done (rp', s, out, scr, RErr e)) /\
     (exists rp', rfft_packed c op rp s x out scr = Done (rp', s, out, scr, RErr e)) /\
     trfft_with_scratch c op v s x out scr = Done (s, out, scr, RErr e)) /\
  (forall (y : list (cx T)) out scr e, rejects (length out) (length y) (length scr) e ->
     (exists rp', irfft_with_scratch c op v rp s y out scr = Done (rp', s, out, scr, RErr e)) /\
     (exists rp', irfft_packed c op rp s y out scr = Done (rp', s, out, scr, RErr e)) /\
     tirfft_with_scratch c op v s y out scr = Done (s, out, scr, RErr e)).
Proof.
  intros T F c v S op s rp Hr. apply rreach_inv in Hr. split.
  - intros x out scr e H. apply rcheck_rejects in H.
    assert (G : forall rp, rinv c rp -> exists rp', rfft_with_scratch c op v rp s x out scr = Done (rp', s, out, scr, RErr e)).
    { intros rp0 H0. destruct (rws_ok op v s x out scr H0) as (rp' & _ & _ & E). exists rp'. rewrite E. unfold rfft_direct. rewrite H. reflexivity. }
    split; [apply G, Hr|]. split; [exists rp; unfold rfft_packed; rewrite H; reflexivity|].
    unfold trfft_with_scratch. destruct (G (rnew c) (rinv_new c)) as [rp' ->]. reflexivity.
  - intros x out scr e H. apply rcheck_rejects in H.
    assert (G : forall rp, rinv c rp -> exists rp', irfft_with_scratch c op v rp s x out scr = Done (rp', s, out, scr, RErr e)).
    { intros rp0 H0. destruct (irws_ok op v s x out scr H0) as (rp' & _ & _ & E). exists rp'. rewrite E. unfold irfft_direct. rewrite H. reflexivity. }
    split; [apply G, Hr|]. split; [exists rp; unfold irfft_packed; rewrite H; reflexivity|].
    unfold tirfft_with_scratch. destruct (G (rnew c) (rinv_new c)) as [rp' ->]. reflexivity.
Qed.
Print Assumptions C30_argument_errors.
(* a provider that never panics and keeps lengths *)
Definition total_op {T S} (op : S -> list (cx T) -> exec (S * list (cx T) * rres)) : Prop :=
  forall s z, exists s' y r, op s z = Done (s', y, r) /\ length y = length z.
Lemma rdirect_total {T} {F : Float T} (c : cfg) v {S} (op : S -> list (cx T) -> exec (S * list (cx T) * rres)) s x out scr : total_op op ->
  exists s' o scr' r, rfft_direct c op v s x out scr (build_twiddle_table c (length x / 2)) = Done (s', o, scr', r) /\
    length o = length out /\ length scr' = length scr.
Proof.
  intros Ht. destruct (rejects_or (length x) (length out) (length scr)) as [[e H]|Hc].
  - apply rcheck_rejects in H. unfold rfft_direct. rewrite H. do 4 eexists. split; [reflexivity|auto].
  - destruct (Ht s (packed x)) as (s' & y & r & E & Hl). rewrite packed_length in Hl. rewrite rfft_direct_ok; [|exact Hc|rewrite rtable_length; lia|].
    + apply rcheck_none in Hc. rewrite E. cbn [bind]. destruct r; do 4 eexists; (split; [reflexivity|]); split.
      * unfold rclosed. rewrite tab_length. lia.
      * rewrite app_length, skipn_length. lia.
      * rewrite app_length, skipn_length. lia.
      * reflexivity.
    + intros s2 y2. rewrite E. intros [= _ <- _]. exact Hl.
Qed.
Lemma irdirect_total {T} {F : Float T} (c : cfg) v {S} (op : S -> list (cx T) -> exec (S * list (cx T) * rres)) s y out scr : total_op op ->
  exists s' o scr' r, irfft_direct c op v s y out scr (build_twiddle_table c (length out / 2)) = Done (s', o, scr', r) /\
    length o = length out /\ length scr' = length scr.
Proof.
  intros Ht. destruct (rejects_or (length out) (length y) (length scr)) as [[e H]|Hc].
  - apply rcheck_rejects in H. unfold irfft_direct. rewrite H. do 4 eexists. split; [reflexivity|auto].
  - destruct (Ht s (iclosed c v (length out / 2) (build_twiddle_table c (length out / 2)) y)) as (s' & z & r & E & Hl). unfold iclosed in Hl at 1. rewrite tab_length in Hl.
    rewrite irfft_direct_ok; [|exact Hc|rewrite rtable_length; lia|].
    + apply rcheck_none in Hc. rewrite E. cbn [bind]. destruct r; do 4 eexists; (split; [reflexivity|]); split.
      * rewrite unpacked_length. lia.
      * rewrite app_length, skipn_length. lia.
      * reflexivity.
      * rewrite app_length, skipn_length. lia.
    + intros s2 y2. rewrite E. intros [= _ <- _]. exact Hl.
Qed.
(* the stack-only functions: empty, wrong spectrum length, not a power of two; nothing is written *)
Theorem C30_stack_errors : forall (T : Type) (F : Float T) (c : cfg),
  (forall (x : list T) out, (length x = 0 -> rfft_stack c x out = Done (out, RErr EmptyInput)) /\
     (0 < length x -> length out <> length x / 2 + 1 -> rfft_stack c x out = Done (out, RErr MismatchedLengths)) /\
     (0 < length x -> length out = length x / 2 + 1 -> is_pow2 (length x) = false -> rfft_stack c x out = Done (out, RErr NonPowerOfTwoNoStd))) /\
  (forall y (out : list T), (length out = 0 -> irfft_stack c y out = Done (out, RErr EmptyInput)) /\
     (0 < length out -> length y <> length out / 2 + 1 -> irfft_stack c y out = Done (out, RErr MismatchedLengths)) /\
     (0 < length out -> length y = length out / 2 + 1 -> is_pow2 (length out) = false -> irfft_stack c y out = Done (out, RErr NonPowerOfTwoNoStd))).
Proof.
  intros T F c. split.
  - intros x out. unfold rfft_stack. split; [intros ->; reflexivity|]. split.
    + intros H0 Hl. destruct (Nat.eqb_spec (length x) 0); [lia|]. destruct (Nat.eqb_spec (length out) (length x / 2 + 1)); [lia|reflexivity].
    + intros H0 Hl Hp. destruct (Nat.eqb_spec (length x) 0); [lia|]. rewrite Hl, Nat.eqb_refl. cbn [negb]. unfold fft_inplace_stack.
      rewrite zip_apply_length, repeat_length. destruct (Nat.eqb_spec (length x) 0); [lia|]. destruct (Nat.eqb_spec (length x) 1) as [e|]; [rewrite e in Hp; discriminate Hp|].
      rewrite Hp. reflexivity.
  - intros y out. unfold irfft_stack. split; [intros ->; reflexivity|]. split.
    + intros H0 Hl. destruct (Nat.eqb_spec (length out) 0); [lia|]. destruct (Nat.eqb_spec (length y) (length out / 2 + 1)); [lia|reflexivity].
    + intros H0 Hl Hp. destruct (Nat.eqb_spec (length out) 0); [lia|]. rewrite Hl, Nat.eqb_refl. cbn [negb].
      destruct (Nat.eqb_spec (length out) 1) as [e|Hn1]; [rewrite e in Hp; discriminate Hp|]. unfold slice_to. rewrite repeat_length, Hl, Nat.leb_refl.
      destruct (Nat.leb_spec (length out / 2 + 1) (length out)) as [_|]; [|lia]. cbn [bind].
      set (b0 := firstn (length out / 2 + 1) y ++ skipn (length out / 2 + 1) (repeat (mkcx fzero fzero) (length out))).
      assert (L0 : length b0 = length out) by (unfold b0; rewrite app_length, firstn_length, skipn_length, repeat_length; lia).
      destruct (@for_inv (list (cx T)) (fun _ b => length b = length out) (fun k buf => v <- get y k;; set buf (length out - k) (mkcx (re v) (fneg (im v)))) 1 (length out / 2) b0) as (b & E & Lb).
      { lia. } { exact L0. } { intros k b Hk Lb. rewrite (@get_nth _ y k czero) by lia. cbn [bind]. rewrite set_ok by lia. eexists. split; [reflexivity|]. rewrite upd_length. exact Lb. }
      rewrite E. cbn [bind]. unfold ifft_inplace_stack. rewrite Lb. destruct (Nat.eqb_spec (length out) 0); [lia|]. destruct (Nat.eqb_spec (length out) 1); [lia|]. rewrite Hp. reflexivity.
Qed.
Print Assumptions C30_stack_errors.
Example C30_stack_example : rfft_stack (T := R) (cfg_std F32) [1; 2; 3]%R [C0; C0] = Done ([C0; C0], RErr NonPowerOfTwoNoStd) /\
  irfft_stack (T := R) (cfg_std F32) [C0; C0; C0] [1; 2; 3; 4; 5]%R = Done ([1; 2; 3; 4; 5]%R, RErr NonPowerOfTwoNoStd).
Proof.
  split; [apply (proj1 (@C30_stack_errors R RF (cfg_std F32)))|apply (proj2 (@C30_stack_errors R RF (cfg_std F32)))]; cbn; try lia; reflexivity.
Qed.
Theorem C30_never_panics : forall (T : Type) (F : Float T) (c : cfg) (v : rpath) (S : Type) (op : S -> list (cx T) -> exec (S * list (cx T) * rres)) s rp,
  rreach c rp -> total_op op ->
  (forall (x : list T) out scr, exists rp' s' o scr' r, rfft_with_scratch c op v rp s x out scr = Done (rp', s', o, scr', r) /\ length o = length out) /\
  (forall (x : list T) out, exists rp' s' o r, prfft c op v rp s x out = Done (rp', s', o, r) /\ length o = length out) /\
  (forall u (x : list T) out, exists s' o r, trfft c op v u s x out = Done (s', o, r) /\ length o = length out) /\
  (forall (y : list (cx T)) out scr, exists rp' s' o scr' r, irfft_with_scratch c op v rp s y out scr = Done (rp', s', o, scr', r) /\ length o = length out) /\
  (forall (y : list (cx T)) out, exists rp' s' o r, pirfft c op v rp s y out = Done (rp', s', o, r) /\ length o = length out) /\
  (forall u (y : list (cx T)) out, exists s' o r, tirfft c op v u s y out = Done (s', o, r) /\ length o = length out).
Proof.
  intros T F c v S op s rp Hr Ht. apply rreach_inv in Hr.
  assert (G1 : forall rp, rinv c rp -> forall x out scr, exists rp' s' o scr' r, rfft_with_scratch c op v rp s x out scr = Done (rp', s', o, scr', r) /\ length o = length out).
  { intros rp0 H0 x out scr. destruct (rws_ok op v s x out scr H0) as (rp' & _ & _ & E). destruct (@rdirect_total T F c v S op s x out scr Ht) as (s' & o & scr' & r & E' & Hl & _).
    rewrite E, E'. cbn [bind]. do 5 eexists. split; [reflexivity|exact Hl]. }
  assert (G2 : forall rp, rinv c rp -> forall y out scr, exists rp' s' o scr' r, irfft_with_scratch c op v rp s y out scr = Done (rp', s', o, scr', r) /\ length o = length out).
  { intros rp0 H0 x out scr. destruct (irws_ok op v s x out scr H0) as (rp' & _ & _ & E). destruct (@irdirect_total T F c v S op s x out scr Ht) as (s' & o & scr' & r & E' & Hl & _).
    rewrite E, E'. cbn [bind]. do 5 eexists. split; [reflexivity|exact Hl]. }
  split; [exact (G1 rp Hr)|]. split; [|split; [|split; [exact (G2 rp Hr)|split]]].
  - intros x out. destruct (prfft_ok op v s x out Hr) as (rp' & scr & _ & _ & rest & E). destruct (@rdirect_total T F c v S op s x out scr Ht) as (s' & o & scr' & r & E' & Hl & _).
    rewrite E, E'. cbn [bind]. do 4 eexists. split; [reflexivity|exact Hl].
  - intros u x out. unfold trfft, trfft_with_scratch. destruct (G1 (rnew c) (rinv_new c) x out (tab (length x / 2) u)) as (rp' & s' & o & scr' & r & E & Hl).
    rewrite E. cbn [bind]. do 3 eexists. split; [reflexivity|exact Hl].
  - intros x out. destruct (pirfft_ok op v s x out Hr) as (rp' & scr & _ & _ & rest & E). destruct (@irdirect_total T F c v S op s x out scr Ht) as (s' & o & scr' & r & E' & Hl & _).
    rewrite E, E'. cbn [bind]. do 4 eexists. split; [reflexivity|exact Hl].
  - intros u x out. unfold tirfft, tirfft_with_scratch. destruct (G2 (rnew c) (rinv_new c) x out (tab (length out / 2) u)) as (rp' & s' & o & scr' & r & E & Hl).
    rewrite E. cbn [bind]. do 3 eexists. split; [reflexivity|exact Hl].
Qed.
Print Assumptions C30_never_panics.
(* errors of the inner FFT are different: without std the forward transform
   fails after the output has been overwritten *)
Theorem C30_inner_error_overwrites_output : forall (c : cfg) (v : rpath) u, c_std c = false ->
  exists (x : list R) out o p e, trfft c (fft c) v u new_planner x out = Done (p, o, RErr e) /\ o <> out.
Proof.
  intros c v u Hs. exists [1; 1; 1; 1; 1; 1]%R, (zeros 4).
  unfold trfft, trfft_with_scratch. set (x := [1; 1; 1; 1; 1; 1]%R).
  destruct (rws_ok (fft c) v new_planner x (zeros 4) (tab (length x / 2) u) (rinv_new c)) as (rp & _ & _ & E). rewrite E.
  assert (Ef : fft c new_planner (packed x) = Done (new_planner, packed x, RErr NonPowerOfTwoNoStd)) by (apply fft_nostd; [exact Hs|cbn; lia|reflexivity]).
  rewrite rfft_direct_ok.
  - rewrite Ef. cbn [bind]. do 3 eexists. split; [reflexivity|]. intros H. apply (f_equal (fun l => re (nth 0 l C0))) in H. cbn in H. lra.
  - apply rcheck_none. cbn. lia.
  - rewrite rtable_length. lia.
  - rewrite Ef. discriminate.
Qed.
Print Assumptions C30_inner_error_overwrites_output.
Example C30_example : rejects 6 3 3 MismatchedLengths /\ rejects 7 4 3 InvalidValue /\ total_op (S := unit) (T := R) (fun s z => Done (s, z, ROk)).
Proof.
  split; [apply rj_len; [lia|exists 3; reflexivity|left; cbn; lia]|]. split; [apply rj_odd; exists 3; reflexivity|].
  intros s z. do 3 eexists. split; reflexivity.
Qed.

(* ------------------------------------------------------------------ C31 *)
Lemma bins_ext {T} (f g : cx T -> cx T -> cx T -> cx T) m src tw out : (forall a b w, f a b w = g a b w) -> bins f m src tw out = bins g m src tw out.
Proof.
  intros H. unfold bins, for_range. apply for_n_ext. intros i s _. destruct (get src i); cbn [bind]; try reflexivity.
  destruct (get src (m - i)); cbn [bind]; try reflexivity. destruct (get tw i); cbn [bind]; try reflexivity. rewrite H. reflexivity.
Qed.
(* the laws used; every IEEE arithmetic satisfies them *)
Definition sign_laws {T} (F : Float T) : Prop :=
  (forall a b : T, fadd a b = fadd b a) /\ (forall a b : T, fmul a b = fmul b a) /\
  (forall a b : T, fsub a b = fadd a (fneg b)) /\ (forall a : T, fneg (fneg a) = a).
Lemma post_path {T} {F : Float T} c v (a b w : cx T) : sign_laws F -> c_fma c = false ->
  post c v a b w = post c PScalar a b w /\ ipost c v a b w = ipost c PScalar a b w /\ forall x, ihalf v x = ihalf PScalar x.
Proof.
  intros (Ha & Hm & Hs & Hn) Hf.
  assert (E : forall d w : cx T, simd_cmul d w = cmul c w d).
  { intros d w0. unfold cmul. rewrite Hf. unfold simd_cmul, cmul_plain, lane0, vsub, vadd, vmul, splat. cbn [repeat zip_with nth].
    rewrite (Hm (re w0) (re d)), (Hm (im w0) (im d)), (Hm (re w0) (im d)), (Hm (im w0) (re d)). rewrite (Ha (fmul (im d) (re w0))). reflexivity. }
  assert (Hh : forall x, half_avx x = fmul x half /\ half_neon x = fmul x half) by (intros; split; reflexivity).
  destruct v; (split; [|split]); try reflexivity; cbn [post ipost]; unfold post_simd, ipost_simd, post_scalar, ipost_scalar;
    cbn zeta; rewrite !E, ?(proj1 (Hh _)), ?(proj2 (Hh _)); unfold cadd, csub; cbn [re im]; rewrite ?Hs, ?Hn; reflexivity.
Qed.
Theorem C31_kernels_agree : forall (T : Type) (F : Float T) (c : cfg) (v : rpath) (S : Type) (op : S -> list (cx T) -> exec (S * list (cx T) * rres)) rp s,
  sign_laws F -> c_fma c = false ->
  (forall (x : list T) out scr, rfft_with_scratch c op v rp s x out scr = rfft_with_scratch c op PScalar rp s x out scr) /\
  (forall (y : list (cx T)) out scr, irfft_with_scratch c op v rp s y out scr = irfft_with_scratch c op PScalar rp s y out scr).
Proof.
  intros T F c v S op rp s Hl Hf. split; intros x out scr.
  - unfold rfft_with_scratch. destruct (rget_twiddles _ _ _) as [[r1 tw]| |]; cbn [bind]; try reflexivity.
    destruct (rget_pack _ _ _) as [[r2 ?]| |]; cbn [bind]; try reflexivity.
    assert (E : rfft_direct c op v s x out scr tw = rfft_direct c op PScalar s x out scr tw); [|rewrite E; reflexivity].
    unfold rfft_direct. destruct (rcheck _ _ _); [reflexivity|]. destruct (for_range _ _ _ _); cbn [bind]; try reflexivity.
    destruct (slice_to _ _); cbn [bind]; try reflexivity. destruct (op s _) as [[[s1 y] [|e]]| |]; cbn [bind]; try reflexivity.
    destruct (slice_to _ _); cbn [bind]; try reflexivity. destruct (get _ _); cbn [bind]; try reflexivity.
    destruct (set _ 0 _); cbn [bind]; try reflexivity. destruct (set _ _ _); cbn [bind]; try reflexivity.
    rewrite (@bins_ext T (post c v) (post c PScalar)); [reflexivity|]. intros ? ? ?. apply post_path; assumption.
  - unfold irfft_with_scratch. destruct (rget_twiddles _ _ _) as [[r1 tw]| |]; cbn [bind]; try reflexivity.
    destruct (rget_pack _ _ _) as [[r2 ?]| |]; cbn [bind]; try reflexivity.
    assert (E : irfft_direct c op v s x out scr tw = irfft_direct c op PScalar s x out scr tw); [|rewrite E; reflexivity].
    unfold irfft_direct. destruct (rcheck _ _ _); [reflexivity|]. destruct (get x 0) as [i0| |]; cbn [bind]; try reflexivity.
    destruct (get x _) as [im_| |]; cbn [bind]; try reflexivity.
    destruct (@post_path T F c v i0 i0 i0 Hl Hf) as (_ & _ & Hh). rewrite !Hh.
    destruct (set _ 0 _); cbn [bind]; try reflexivity.
    rewrite (@bins_ext T (ipost c v) (ipost c PScalar)); [reflexivity|]. intros ? ? ?. apply post_path; assumption.
Qed.
Print Assumptions C31_kernels_agree.
(* the packed kernel writes the same spectrum as the direct one *)
Theorem C31_packed_agrees : forall (T : Type) (F : Float T) (c : cfg) (S : Type) (op : S -> list (cx T) -> exec (S * list (cx T) * rres)) rp s (x : list T) out scr,
  rreach c rp -> total_op op ->
  exists rp1 rp2 s' o1 o2 sc1 sc2 r, rfft_with_scratch c op PScalar rp s x out scr = Done (rp1, s', o1, sc1, r) /\
    rfft_packed c op rp s x out scr = Done (rp2, s', o2, sc2, r) /\ (r = ROk -> o1 = o2 /\ sc1 = sc2).
Proof.
  intros T F c S op rp s x out scr Hr Ht. apply rreach_inv in Hr. destruct (rws_ok op PScalar s x out scr Hr) as (rp' & _ & _ & E). rewrite E.
  destruct (rejects_or (length x) (length out) (length scr)) as [[e H]|Hc].
  - apply rcheck_rejects in H. unfold rfft_direct, rfft_packed. rewrite H. cbn [bind]. do 8 eexists. split; [reflexivity|]. split; [reflexivity|auto].
  - destruct (Ht s (packed x)) as (s' & y & r & Eo & Hl). rewrite packed_length in Hl.
    rewrite rfft_direct_ok; [|exact Hc|rewrite rtable_length; lia|intros s2 y2; rewrite Eo; intros [= _ <- _]; exact Hl].
    unfold rfft_packed. rewrite Hc. apply rcheck_none in Hc. rewrite Eo. cbn [bind]. set (m := length x / 2) in *.
    rewrite pack_loop by lia. cbn [bind]. rewrite slice_app by apply packed_length. cbn [bind]. rewrite Eo. cbn [bind].
    rewrite skipn_app_exact by apply packed_length.
    destruct r as [|e]; [|do 8 eexists; split; [reflexivity|]; split; [reflexivity|discriminate]].
    rewrite get_nth with (d := czero) by (rewrite app_length; lia). cbn [bind].
    rewrite set_ok by lia. cbn [bind]. rewrite set_ok by (rewrite upd_length; lia). cbn [bind].
    destruct (rget_ok m Hr) as (r1 & E1 & _). rewrite E1. cbn [bind].
    rewrite bins_ok; [|rewrite app_length; lia|rewrite rtable_length; lia|rewrite !upd_length; lia]. cbn [bind].
    do 8 eexists. split; [reflexivity|]. split; [reflexivity|]. intros _. split; [|reflexivity].
    unfold rclosed. rewrite !upd_length. replace (length out) with (m + 1) by lia. apply tab_ext. intros k Hk.
    assert (Hy : forall k, k < m -> nthc (y ++ skipn m scr) k = nthc y k).
    { intros j Hj. unfold nthc. rewrite app_nth1 by lia. reflexivity. }
    change (nth 0 (y ++ skipn m scr) czero) with (nthc (y ++ skipn m scr) 0). rewrite (Hy 0) by lia.
    destruct (Nat.eqb_spec k m) as [->|Hkm].
    + destruct (Nat.ltb_spec m m); [lia|]. rewrite andb_false_r. unfold nthc at 3.
      rewrite nth_upd by (rewrite upd_length; lia). rewrite Nat.eqb_refl. reflexivity.
    + destruct (Nat.eqb_spec k 0) as [->|Hk0].
      * cbn [Nat.leb andb]. unfold nthc at 3. rewrite nth_upd by (rewrite upd_length; lia).
        destruct (Nat.eqb_spec 0 m); [lia|]. rewrite nth_upd by lia. reflexivity.
      * destruct (Nat.leb_spec 1 k), (Nat.ltb_spec k m); try lia. cbn [andb]. rewrite !Hy by lia. reflexivity.
Qed.
Print Assumptions C31_packed_agrees.
(* with fused multiply-add enabled the scalar kernel rounds differently from the
   SIMD kernels: an arithmetic with one significant digit shows it *)
Definition digit (z : Z) : Z := if (Z.abs z <? 10)%Z then z else (z / 10 * 10)%Z.
Definition DigitF : Float Z := {|
  fzero := 0%Z; fone := 1%Z; fadd := fun a b => digit (a + b); fsub := fun a b => digit (a + - b); fmul := fun a b => digit (a * b);
  fdiv := fun a _ => a; fneg := Z.opp; fmul_add := fun a b d => digit (a * b + d);
  fcos := fun a => a; fsin := fun a => a; fsin_cos := fun a => (1%Z, 3%Z); fpi := 3%Z;
  fofnat := Z.of_nat; fas := Z.of_nat; freparse := fun x => x; flit := fun _ => 1%Z; fk707 := 1%Z; fk924 := 1%Z; fk383 := 1%Z |}.
Theorem C31_fma_refuted : exists (T : Type) (F : Float T) (c : cfg) (x : list T) out scr r1 o1 s1 r2 o2 s2, sign_laws F /\ c_fma c = true /\
  rfft_with_scratch c (fun (s : unit) z => Done (s, z, ROk)) PAvx (rnew c) tt x out scr = Done (r1, tt, o1, s1, ROk) /\
  rfft_with_scratch c (fun (s : unit) z => Done (s, z, ROk)) PScalar (rnew c) tt x out scr = Done (r2, tt, o2, s2, ROk) /\
  nth 1 (map im o1) fzero <> nth 1 (map im o2) fzero.
Proof.
  exists Z, DigitF, {| c_std := true; c_parallel := false; c_fma := true; c_precomp := false; c_kind := F32; c_lanes := 4 |}.
  exists [0; 0; 5; 2; 0; 0; 1; 3]%Z, (repeat (mkcx 0 0)%Z 5), (repeat (mkcx 0 0)%Z 4). do 6 eexists. split; [|split; [reflexivity|]].
  - unfold sign_laws. cbn. repeat split; intros; try (f_equal; lia); lia.
  - split; [vm_compute; reflexivity|]. split; [vm_compute; reflexivity|]. vm_compute. discriminate.
Qed.
Print Assumptions C31_fma_refuted.
Example C31_example : sign_laws RF.
Proof. unfold sign_laws. cbn. repeat split; intros; ring. Qed.

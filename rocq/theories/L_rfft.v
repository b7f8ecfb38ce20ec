(* Closed forms of the real FFT kernels (any arithmetic) and their exact
   values. *)
From Coq Require Import ZArith ZifyBool ZifyNat Lra Qreals.
From Verif Require Export M_rfft L_dft L_stack.
Ltac Zify.zify_post_hook ::= Z.div_mod_to_equations.
Set Implicit Arguments.

Section Any.
Context {T : Type} {F : Float T}.
Variable c : cfg.
Local Notation cx := (cx T).

(* ---------- tables and caches ---------- *)
Lemma rtw_loop_length m (w a : cx) : length (rtw_loop c m w a) = m.
Proof. revert a. induction m as [|m IH]; intros a; cbn [rtw_loop length]; auto. Qed.
Lemma rtable_length m : length (build_twiddle_table c m) = m.
Proof. unfold build_twiddle_table. destruct (fsin_cos _). apply rtw_loop_length. Qed.
Definition rcache_ok (l : list (nat * list cx)) : Prop := forall m t, assoc m l = Some t -> t = build_twiddle_table c m.
Lemma rtwiddles_ok l m : rcache_ok l -> exists l', rtwiddles c l m = Done (l', build_twiddle_table c m) /\ rcache_ok l'.
Proof.
  intros H. unfold rtwiddles. destruct (assoc m l) as [t|] eqn:E.
  - rewrite E. exists l. rewrite (H _ _ E). auto.
  - cbn [assoc]. rewrite Nat.eqb_refl. eexists. split; [reflexivity|].
    intros k t. cbn [assoc]. destruct (Nat.eqb_spec k m) as [->|]; [intros [= <-]; reflexivity|apply H].
Qed.
Lemma or_insert_ok l m : rcache_ok l -> rcache_ok (or_insert c l m).
Proof.
  intros H. unfold or_insert. destruct (assoc m l) eqn:E; [exact H|].
  intros k t. cbn [assoc]. destruct (Nat.eqb_spec k m) as [->|]; [intros [= <-]; reflexivity|apply H].
Qed.
Definition rinv (rp : rplanner T) : Prop := rcache_ok (rp_cache rp) /\ rcache_ok (rp_pack rp).
Lemma rinv_new : rinv (rnew c).
Proof.
  assert (H : forall ms l, rcache_ok l -> rcache_ok (fold_left (or_insert c) ms l)).
  { induction ms as [|m ms IH]; intros l Hl; cbn [fold_left]; [exact Hl|]. apply IH, or_insert_ok, Hl. }
  split; cbn [rp_cache rp_pack rnew]; apply H; intros m t; discriminate.
Qed.
Lemma rget_ok rp m : rinv rp -> exists rp', rget_twiddles c rp m = Done (rp', build_twiddle_table c m) /\ rinv rp' /\ rp_scratch rp' = rp_scratch rp.
Proof.
  intros [H1 H2]. unfold rget_twiddles. destruct (rtwiddles_ok m H1) as (l & E & Hl). rewrite E. cbn [bind].
  eexists. split; [reflexivity|]. split; [split|]; cbn; assumption || reflexivity.
Qed.
Lemma rpack_ok rp m : rinv rp -> exists rp', rget_pack c rp m = Done (rp', build_twiddle_table c m) /\ rinv rp' /\ rp_scratch rp' = rp_scratch rp.
Proof.
  intros [H1 H2]. unfold rget_pack. destruct (rtwiddles_ok m H2) as (l & E & Hl). rewrite E. cbn [bind].
  eexists. split; [reflexivity|]. split; [split|]; cbn; assumption || reflexivity.
Qed.

(* ---------- the bin loop ---------- *)
Lemma bins_ok (f : cx -> cx -> cx -> cx) m (src tw out : list cx) : m <= length src -> m <= length tw -> m <= length out ->
  bins f m src tw out = Done (tab (length out) (fun j => if (1 <=? j) && (j <? m) then f (nthc src j) (nthc src (m - j)) (nthc tw j) else nthc out j)).
Proof.
  intros H1 H2 H3. unfold bins. destruct (Nat.le_gt_cases m 1) as [Hm|Hm].
  - rewrite for_range_empty by exact Hm. f_equal. apply list_is_tab with (d := czero); [reflexivity|].
    intros i _. destruct (Nat.leb_spec 1 i), (Nat.ltb_spec i m); cbn [andb]; try reflexivity. lia.
  - destruct (@for_inv (list cx) (fun k l => l = tab (length out) (fun j => if (1 <=? j) && (j <? k) then f (nthc src j) (nthc src (m - j)) (nthc tw j) else nthc out j))
       (fun k out => a <- get src k ;; b <- get src (m - k) ;; w <- get tw k ;; set out k (f a b w)) 1 m out) as (l & E & ->).
    + lia.
    + apply list_is_tab with (d := czero); [reflexivity|]. intros i _. destruct (Nat.leb_spec 1 i), (Nat.ltb_spec i 1); cbn [andb]; try reflexivity. lia.
    + intros k l Hk ->. rewrite !get_nth with (d := czero) by lia. cbn [bind].
      rewrite set_ok by (rewrite tab_length; lia). eexists. split; [reflexivity|].
      apply list_is_tab with (d := czero); [rewrite upd_length, tab_length; reflexivity|]. intros i Hi.
      rewrite nth_upd by (rewrite tab_length; lia). rewrite nth_tab by exact Hi.
      destruct (Nat.eqb_spec i k) as [->|Hne].
      * destruct (Nat.leb_spec 1 k), (Nat.ltb_spec k (S k)); try lia. reflexivity.
      * destruct (Nat.leb_spec 1 i), (Nat.ltb_spec i k), (Nat.ltb_spec i (S k)); try lia; reflexivity.
    + exact E.
Qed.

(* z[i] = x[2i] + i x[2i+1] *)
Definition nthf (l : list T) (i : nat) : T := nth i l fzero.
Definition packed (x : list T) : list cx := tab (length x / 2) (fun i => mkcx (nthf x (2 * i)) (nthf x (2 * i + 1))).
Definition rclosed (f : cx -> cx -> cx -> cx) (m : nat) (tw y : list cx) : list cx :=
  tab (m + 1) (fun k => if k =? m then mkcx (fsub (re (nthc y 0)) (im (nthc y 0))) fzero
     else if k =? 0 then mkcx (fadd (re (nthc y 0)) (im (nthc y 0))) fzero
     else f (nthc y k) (nthc y (m - k)) (nthc tw k)).
Lemma rcheck_none n a b : rcheck n a b = None <-> (0 < n /\ n = 2 * (n / 2) /\ a = n / 2 + 1 /\ n / 2 <= b).
Proof.
  unfold rcheck. destruct (Nat.eqb_spec n 0); [split; [discriminate|lia]|].
  destruct (Nat.eqb_spec (n mod 2) 0); cbn [negb]; [|split; [discriminate|lia]].
  destruct (Nat.eqb_spec a (n / 2 + 1)); cbn [negb orb]; [|split; [discriminate|lia]].
  destruct (Nat.ltb_spec b (n / 2)); split; try discriminate; try reflexivity; lia.
Qed.
Lemma pack_loop (x : list T) (out : list cx) m : length x = 2 * m -> m <= length out ->
  for_range 0 m (fun i out => v <- (a <- get x (2 * i) ;; b <- get x (2 * i + 1) ;; Done (mkcx a b)) ;; set out i v) out
   = Done (packed x ++ skipn m out).
Proof.
  intros Hx Ho. rewrite for_set with (g := fun i => mkcx (nthf x (2 * i)) (nthf x (2 * i + 1))); [|exact Ho|].
  - unfold packed. rewrite Hx. replace (2 * m / 2) with m by lia. reflexivity.
  - intros i Hi. rewrite !get_nth with (d := fzero) by lia. reflexivity.
Qed.
Lemma packed_length x : length (packed x) = length x / 2.
Proof. apply tab_length. Qed.
Lemma slice_app {A} (a b : list A) m : length a = m -> slice_to (a ++ b) m = Done a.
Proof.
  intros <-. unfold slice_to. rewrite app_length. destruct (Nat.leb_spec (length a) (length a + length b)); [|lia].
  rewrite firstn_app, firstn_all, Nat.sub_diag. cbn [firstn]. rewrite app_nil_r. reflexivity.
Qed.
Lemma skipn_app_exact {A} (a b : list A) m : length a = m -> skipn m (a ++ b) = b.
Proof. intros <-. rewrite skipn_app, skipn_all, Nat.sub_diag. reflexivity. Qed.

Section Op.
Context {S : Type}.
Variable op : S -> list cx -> exec (S * list cx * rres).

(* what happens after the argument checks *)
Lemma rfft_direct_ok v s (x : list T) (out scr tw : list cx) : rcheck (length x) (length out) (length scr) = None ->
  length x / 2 <= length tw -> (forall s' y, op s (packed x) = Done (s', y, ROk) -> length y = length x / 2) ->
  rfft_direct c op v s x out scr tw =
   ('(s', y, r) <- op s (packed x) ;;
    match r with
    | ROk => Done (s', rclosed (post c v) (length x / 2) tw y, y ++ skipn (length x / 2) scr, ROk)
    | RErr e => Done (s', y ++ skipn (length x / 2) out, scr, RErr e)
    end).
Proof.
  intros Hc Htw Hop. unfold rfft_direct. rewrite Hc. apply rcheck_none in Hc. destruct Hc as (Hn & Hm & Ho & Hs).
  set (m := length x / 2) in *. rewrite pack_loop with (m := m) by lia. cbn [bind].
  rewrite slice_app by apply packed_length. cbn [bind].
  destruct (op s (packed x)) as [[[s' y] r]| |] eqn:E; cbn [bind]; try reflexivity.
  rewrite skipn_app_exact by apply packed_length.
  destruct r; [|reflexivity]. specialize (Hop _ _ eq_refl).
  rewrite slice_app by exact Hop. cbn [bind].
  rewrite get_nth with (d := czero) by (rewrite app_length, skipn_length; lia). cbn [bind].
  assert (L1 : length (y ++ skipn m out) = m + 1) by (rewrite app_length, skipn_length; lia).
  rewrite set_ok by lia. cbn [bind]. rewrite set_ok by (rewrite upd_length; lia). cbn [bind].
  rewrite bins_ok; [| rewrite app_length, skipn_length; lia | lia | rewrite !upd_length; lia].
  cbn [bind]. do 4 f_equal. rewrite !upd_length, L1. unfold rclosed. apply tab_ext. intros k Hk.
  assert (Hy : forall k, k < m -> nthc (y ++ skipn m scr) k = nthc y k).
  { intros j Hj. unfold nthc. rewrite app_nth1 by lia. reflexivity. }
  destruct (Nat.eqb_spec k m) as [->|Hkm].
  - destruct (Nat.ltb_spec m m); [lia|]. rewrite andb_false_r. unfold nthc at 1.
    rewrite nth_upd by (rewrite upd_length; lia). rewrite Nat.eqb_refl.
    change (nth 0 (y ++ skipn m scr) czero) with (nthc (y ++ skipn m scr) 0). rewrite Hy by lia. reflexivity.
  - destruct (Nat.eqb_spec k 0) as [->|Hk0].
    + cbn [Nat.leb andb]. unfold nthc at 1. rewrite nth_upd by (rewrite upd_length; lia).
      destruct (Nat.eqb_spec 0 m); [lia|]. rewrite nth_upd by lia. cbn [Nat.eqb].
      change (nth 0 (y ++ skipn m scr) czero) with (nthc (y ++ skipn m scr) 0). rewrite Hy by lia. reflexivity.
    + destruct (Nat.leb_spec 1 k), (Nat.ltb_spec k m); try lia. cbn [andb]. rewrite !Hy by lia. reflexivity.
Qed.

(* the spectrum handed to the inverse transform *)
Definition iclosed (v : rpath) (m : nat) (tw y : list cx) : list cx :=
  tab m (fun k => if k =? 0 then mkcx (ihalf v (fadd (re (nthc y 0)) (re (nthc y m)))) (ihalf v (fsub (re (nthc y 0)) (re (nthc y m))))
     else ipost c v (nthc y k) (nthc y (m - k)) (nthc tw k)).
Definition unpacked (z : list cx) : list T := tab (2 * length z) (fun j => if Nat.even j then re (nthc z (j / 2)) else im (nthc z (j / 2))).
Lemma unpack_ok m (scr : list cx) (out : list T) : length out = 2 * m -> m <= length scr ->
  unpack m scr out = Done (unpacked (firstn m scr)).
Proof.
  intros Ho Hs. unfold unpack.
  destruct (@for_inv (list T) (fun k l => l = tab (2 * m) (fun j => if j <? 2 * k then if Nat.even j then re (nthc scr (j / 2)) else im (nthc scr (j / 2)) else nthf out j))
     (fun i out => v <- get scr i ;; out <- set out (2 * i) (re v) ;; set out (2 * i + 1) (im v)) 0 m out) as (l & E & ->).
  - lia.
  - apply list_is_tab with (d := fzero); [exact Ho|]. intros i Hi. destruct (Nat.ltb_spec i (2 * 0)); [lia|]. reflexivity.
  - intros k l Hk ->. rewrite get_nth with (d := czero) by lia. cbn [bind]. rewrite set_ok by (rewrite tab_length; lia). cbn [bind].
    rewrite set_ok by (rewrite upd_length, tab_length; lia). eexists. split; [reflexivity|].
    apply list_is_tab with (d := fzero); [rewrite !upd_length, tab_length; reflexivity|]. intros i Hi.
    rewrite nth_upd by (rewrite upd_length, tab_length; lia). rewrite nth_upd by (rewrite tab_length; lia). rewrite nth_tab by exact Hi.
    destruct (Nat.eqb_spec i (2 * k + 1)) as [->|H1].
    + destruct (Nat.ltb_spec (2 * k + 1) (2 * Datatypes.S k)); [|lia]. rewrite Nat.add_1_r, Nat.even_succ, <- Nat.negb_even, Nat.even_mul. cbn [Nat.even negb orb].
      replace (Datatypes.S (2 * k) / 2) with k by lia. reflexivity.
    + destruct (Nat.eqb_spec i (2 * k)) as [->|H2].
      * destruct (Nat.ltb_spec (2 * k) (2 * Datatypes.S k)); [|lia]. rewrite Nat.even_mul. cbn [Nat.even orb].
        replace (2 * k / 2) with k by lia. reflexivity.
      * destruct (Nat.ltb_spec i (2 * k)), (Nat.ltb_spec i (2 * Datatypes.S k)); try lia; reflexivity.
  - rewrite E. f_equal. unfold unpacked. rewrite firstn_length, Nat.min_l by exact Hs. apply tab_ext. intros i Hi.
    destruct (Nat.ltb_spec i (2 * m)); [|lia]. unfold nthc. rewrite !nth_firstn by lia. reflexivity.
Qed.
Lemma unpacked_length z : length (unpacked z) = 2 * length z.
Proof. apply tab_length. Qed.
Lemma irfft_direct_ok v s (y : list cx) (out : list T) (scr tw : list cx) : rcheck (length out) (length y) (length scr) = None ->
  length out / 2 <= length tw -> let z := iclosed v (length out / 2) tw y in
  (forall s' y', op s z = Done (s', y', ROk) -> length y' = length out / 2) ->
  irfft_direct c op v s y out scr tw =
   ('(s', z', r) <- op s z ;;
    match r with
    | ROk => Done (s', unpacked z', z' ++ skipn (length out / 2) scr, ROk)
    | RErr e => Done (s', out, z' ++ skipn (length out / 2) scr, RErr e)
    end).
Proof.
  intros Hc Htw z Hop. unfold irfft_direct. rewrite Hc. apply rcheck_none in Hc. destruct Hc as (Hn & Hm & Ho & Hs).
  set (m := length out / 2) in *. rewrite !get_nth with (d := czero) by lia. cbn [bind].
  rewrite set_ok by lia. cbn [bind]. rewrite bins_ok; [|lia|lia|rewrite upd_length; lia]. cbn [bind].
  assert (Ez : firstn m (tab (length (upd scr 0 (mkcx (ihalf v (fadd (re (nth 0 y czero)) (re (nth m y czero)))) (ihalf v (fsub (re (nth 0 y czero)) (re (nth m y czero)))))))
     (fun j => if (1 <=? j) && (j <? m) then ipost c v (nthc y j) (nthc y (m - j)) (nthc tw j)
       else nthc (upd scr 0 (mkcx (ihalf v (fadd (re (nth 0 y czero)) (re (nth m y czero)))) (ihalf v (fsub (re (nth 0 y czero)) (re (nth m y czero)))))) j)) = z).
  { rewrite firstn_tab by (rewrite upd_length; lia). unfold z, iclosed. apply tab_ext. intros k Hk.
    destruct (Nat.eqb_spec k 0) as [->|].
    - cbn [Nat.leb andb]. unfold nthc at 1. rewrite nth_upd by lia. cbn [Nat.eqb]. reflexivity.
    - destruct (Nat.leb_spec 1 k), (Nat.ltb_spec k m); try lia. reflexivity. }
  unfold slice_to at 1. rewrite tab_length, upd_length in *. destruct (Nat.leb_spec m (length scr)); [|lia]. rewrite Ez. cbn [bind].
  assert (Lz : length z = m) by apply tab_length.
  destruct (op s z) as [[[s' z'] r]| |] eqn:E; cbn [bind]; try reflexivity.
  assert (Hk : skipn m (tab (length scr) (fun j => if (1 <=? j) && (j <? m) then ipost c v (nthc y j) (nthc y (m - j)) (nthc tw j)
       else nthc (upd scr 0 (mkcx (ihalf v (fadd (re (nth 0 y czero)) (re (nth m y czero)))) (ihalf v (fsub (re (nth 0 y czero)) (re (nth m y czero)))))) j)) = skipn m scr).
  { apply list_ext with (d := czero); [rewrite !skipn_length, tab_length; reflexivity|]. rewrite skipn_length, tab_length. intros i Hi.
    rewrite !nth_skipn, nth_tab by lia. destruct (Nat.leb_spec 1 (m + i)), (Nat.ltb_spec (m + i) m); try lia; cbn [andb].
    unfold nthc. rewrite nth_upd by lia. destruct (Nat.eqb_spec (m + i) 0); [lia|]. reflexivity. }
  rewrite Hk. destruct r; [|reflexivity]. specialize (Hop _ _ eq_refl).
  rewrite unpack_ok by (rewrite ?app_length; lia). cbn [bind]. rewrite firstn_app, Hop, Nat.sub_diag. cbn [firstn]. rewrite app_nil_r, firstn_all2 by lia. reflexivity.
Qed.
End Op.
End Any.

(* ---------- exact values ---------- *)
Section Exact.
Variable c : cfg.
Definition Ci : C := mkcx 0%R 1%R.
(* the i-th sample of a real signal as a complex number *)
Definition rsig (x : list R) (i : nat) : C := RtoC (nth i x 0%R).

Lemma rtw_loop_R m t : forall d i, i < m -> nth i (rtw_loop c m (cis t) (cis d)) czero = cis (d + INR i * t).
Proof.
  induction m as [|m IH]; intros d i Hi; [lia|]. cbn [rtw_loop]. destruct i as [|i]; cbn [nth].
  - f_equal. cbn [INR]. ring.
  - rewrite cmul_R, <- cis_add, IH by lia. f_equal. rewrite S_INR. ring.
Qed.
Lemma rtable_R m k : k < m -> nthc (build_twiddle_table c m) k = W (2 * m) k.
Proof.
  intros Hk. unfold build_twiddle_table, nthc. cbn [fsin_cos fdiv fneg fpi fofnat fone fzero RF RFloat_of].
  change (mkcx (cos (- PI / INR m)) (sin (- PI / INR m))) with (cis (- PI / INR m)).
  change (mkcx 1%R 0%R) with C1. rewrite <- cis_0. rewrite rtw_loop_R by exact Hk. unfold W. f_equal.
  rewrite mult_INR. cbn [INR]. field. apply INR_neq0. lia.
Qed.
Lemma half_R : half (F := RF) = (/ 2)%R.
Proof. unfold half. cbn [flit RF RFloat_of]. unfold Q2R. cbn. lra. Qed.
Lemma post_R v (a b w : C) : post c v a b w = RtoC (/ 2) *c (a +c Cconj b +c Copp Ci *c (w *c (a -c Cconj b))).
Proof.
  destruct v; cbn [post]; unfold post_scalar, post_simd, simd_cmul, half_avx, half_neon, lane0, mul_ss, set_ss, vmul, vadd, vsub, splat; cbn [repeat zip_with nth skipn];
  rewrite ?cmul_R, half_R; unfold Ci; apply C_eq; cbn; ring.
Qed.
Lemma ipost_R v (a b w : C) : ipost c v a b w = RtoC (/ 2) *c (a +c Cconj b +c Ci *c (Cconj w *c (a -c Cconj b))).
Proof.
  destruct v; cbn [ipost]; unfold ipost_scalar, ipost_simd, simd_cmul, half_avx, half_neon, lane0, mul_ss, set_ss, vmul, vadd, vsub, splat; cbn [repeat zip_with nth skipn];
  rewrite ?cmul_R, half_R; unfold Ci; apply C_eq; cbn; ring.
Qed.
Lemma ihalf_R v (x : R) : ihalf v x = (x / 2)%R.
Proof.
  destruct v; cbn [ihalf]; unfold half_avx, half_neon, lane0, mul_ss, set_ss, vmul, splat; cbn [repeat zip_with nth skipn]; rewrite half_R; cbn; lra.
Qed.

(* even and odd samples *)
Definition ev (m : nat) (x : list R) (k : nat) : C := dft m (fun i => rsig x (2 * i)) k.
Definition od (m : nat) (x : list R) (k : nat) : C := dft m (fun i => rsig x (2 * i + 1)) k.
Lemma rdft_lo m x k : 0 < m -> dft (2 * m) (rsig x) k = ev m x k +c W (2 * m) k *c od m x k.
Proof. intros H. apply dft_even_odd. exact H. Qed.
Lemma rdft_hi m x k : 0 < m -> dft (2 * m) (rsig x) (k + m) = ev m x k -c W (2 * m) k *c od m x k.
Proof. intros H. apply dft_hi. exact H. Qed.
Lemma ev_conj m x k : 0 < m -> k <= m -> Cconj (ev m x (m - k)) = ev m x k.
Proof. intros H Hk. unfold ev. rewrite dft_hermitian by (auto; intros; reflexivity). apply Cconj_conj. Qed.
Lemma od_conj m x k : 0 < m -> k <= m -> Cconj (od m x (m - k)) = od m x k.
Proof. intros H Hk. unfold od. rewrite dft_hermitian by (auto; intros; reflexivity). apply Cconj_conj. Qed.
Lemma packed_R m (x : list R) k : length x = 2 * m -> dft m (at_ (packed x)) k = ev m x k +c Ci *c od m x k.
Proof.
  intros Hx. transitivity (dft m (fun i => C1 *c rsig x (2 * i) +c Ci *c rsig x (2 * i + 1)) k).
  - apply dft_ext. intros i Hi. unfold packed. rewrite Hx, at_tab by lia. unfold Ci, rsig. apply C_eq; cbn; unfold nthf; cbn; ring.
  - rewrite dft_linear. unfold ev, od. ring.
Qed.
Lemma W_2m_m m : 0 < m -> W (2 * m) m = Copp C1.
Proof.
  intros H. pose proof (@W_half m 0 H) as E. rewrite W_0 in E. exact E.
Qed.
Lemma Ci2 : Ci *c Ci = Copp C1.
Proof. unfold Ci. apply C_eq; cbn; ring. Qed.
Lemma half2 : RtoC (/ 2) *c (C1 +c C1) = C1.
Proof. apply C_eq; cbn; field. Qed.

(* forward: the closed form is the first half of the DFT *)
Lemma rclosed_R v m (x : list R) : 0 < m -> length x = 2 * m ->
  rclosed (post c v) m (build_twiddle_table c m) (DFT (packed x)) = tab (m + 1) (dft (2 * m) (rsig x)).
Proof.
  intros Hm Hx. unfold rclosed. apply tab_ext. intros k Hk.
  assert (Lp : length (packed x) = m) by (rewrite packed_length, Hx; lia).
  assert (Z : forall k, k < m -> nthc (DFT (packed x)) k = ev m x k +c Ci *c od m x k).
  { intros j Hj. unfold DFT. rewrite Lp. change (nthc (F := RF)) with at_. rewrite at_tab by exact Hj. apply packed_R. exact Hx. }
  assert (E0 : im (ev m x 0) = 0%R /\ im (od m x 0) = 0%R).
  { pose proof (@ev_conj m x 0 Hm ltac:(lia)) as H1. pose proof (@od_conj m x 0 Hm ltac:(lia)) as H2.
    assert (Ev : ev m x (m - 0) = ev m x 0). { rewrite Nat.sub_0_r. apply (@dft_period m (fun i => rsig x (2 * i)) 0 Hm). }
    assert (Eo : od m x (m - 0) = od m x 0). { rewrite Nat.sub_0_r. apply (@dft_period m (fun i => rsig x (2 * i + 1)) 0 Hm). }
    rewrite Ev in H1. rewrite Eo in H2. apply (f_equal im) in H1. apply (f_equal im) in H2. cbn in H1, H2. lra. }
  destruct E0 as [E0 O0].
  destruct (Nat.eqb_spec k m) as [->|Hkm]; [|destruct (Nat.eqb_spec k 0) as [->|Hk0]].
  - rewrite Z by exact Hm. replace (dft (2 * m) (rsig x) m) with (dft (2 * m) (rsig x) (0 + m)) by reflexivity. rewrite rdft_hi, W_0 by exact Hm. unfold Ci. apply C_eq; cbn; rewrite E0, O0; ring.
  - rewrite Z by exact Hm. rewrite rdft_lo, W_0 by exact Hm. unfold Ci. apply C_eq; cbn; rewrite E0, O0; ring.
  - rewrite post_R, !Z, rtable_R by lia. rewrite Cconj_add, Cconj_mul, ev_conj, od_conj by lia.
    assert (Hi : Cconj Ci = Copp Ci) by (unfold Ci; apply C_eq; cbn; ring). rewrite Hi, rdft_lo by exact Hm.
    transitivity (RtoC (/ 2) *c (C1 +c C1) *c ev m x k +c (RtoC (/ 2) *c (C1 +c C1)) *c (Copp (Ci *c Ci)) *c (W (2 * m) k *c od m x k)); [ring|].
    rewrite Ci2, half2. ring.
Qed.

(* inverse: the Hermitian extension of a half spectrum, imaginary parts of the
   first and last bin ignored *)
Definition herm (m : nat) (y : list C) (k : nat) : C :=
  if k =? 0 then RtoC (re (at_ y 0)) else if k =? m then RtoC (re (at_ y m))
  else if k <? m then at_ y k else Cconj (at_ y (2 * m - k)).
Lemma herm_conj m y k : 0 < m -> 0 < k < 2 * m -> herm m y (2 * m - k) = Cconj (herm m y k).
Proof.
  intros Hm Hk. unfold herm. destruct (Nat.eqb_spec k 0), (Nat.eqb_spec (2 * m - k) 0); try lia.
  destruct (Nat.eqb_spec (2 * m - k) m) as [E|E], (Nat.eqb_spec k m) as [E'|E']; try lia.
  - apply C_eq; cbn; ring.
  - destruct (Nat.ltb_spec (2 * m - k) m), (Nat.ltb_spec k m); try lia.
    + rewrite Cconj_conj. reflexivity.
    + replace (2 * m - (2 * m - k)) with k by lia. reflexivity.
Qed.
(* the signal of a half spectrum is real *)
Definition hsig (m : nat) (y : list C) : nat -> C := idft (2 * m) (herm m y).
Lemma hsig_real m y j : 0 < m -> j < 2 * m -> im (hsig m y j) = 0%R.
Proof.
  intros Hm Hj.
  assert (H : Cconj (hsig m y j) = hsig m y j).
  { unfold hsig, idft. rewrite Cconj_mul, csum_conj.
    replace (Cconj (RtoC (/ INR (2 * m)))) with (RtoC (/ INR (2 * m))) by (apply C_eq; cbn; ring). f_equal.
    rewrite <- (@csum_reflect (2 * m) 0) by lia. apply csum_ext. intros i Hi. cbn [plus].
    rewrite (Nat.mod_small i) by exact Hi. rewrite Cconj_mul, Cconj_conj.
    destruct (Nat.eq_dec i 0) as [->|Hi0].
    - rewrite Nat.sub_0_r, Nat.mod_same by lia. rewrite !Nat.mul_0_r, W_0. unfold herm. cbn [Nat.eqb]. apply C_eq; cbn; ring.
    - rewrite Nat.mod_small by lia. rewrite herm_conj, Cconj_conj by lia. f_equal.
      rewrite <- (@W_mod (2 * m) (j * (2 * m - i))) by lia.
      pose proof (@W_conj_l (2 * m) (j * i)) as HW.
      assert (HP : W (2 * m) (j * i) *c W (2 * m) (j * (2 * m - i)) = C1).
      { rewrite <- W_add by lia. replace (j * i + j * (2 * m - i)) with (j * (2 * m)) by (rewrite <- Nat.mul_add_distr_l; f_equal; lia). apply W_n. lia. }
      rewrite W_mod by lia.
      transitivity (W (2 * m) (j * (2 * m - i)) *c (W (2 * m) (j * i) *c Cconj (W (2 * m) (j * i)))); [rewrite HW; ring|].
      transitivity ((W (2 * m) (j * i) *c W (2 * m) (j * (2 * m - i))) *c Cconj (W (2 * m) (j * i))); [ring|]. rewrite HP. ring. }
  apply (f_equal im) in H. change ((- im (hsig m y j))%R = im (hsig m y j)) in H. lra.
Qed.
Lemma iclosed_R v m (y : list C) : 0 < m ->
  IDFT (iclosed c v m (build_twiddle_table c m) y) = packed (tab (2 * m) (fun j => re (hsig m y j))).
Proof.
  intros Hm. set (x := tab (2 * m) (fun j => re (hsig m y j))).
  assert (Lx : length x = 2 * m) by apply tab_length.
  assert (Lp : length (packed x) = m) by (rewrite packed_length, Lx; lia).
  assert (Hs : forall k, k < 2 * m -> dft (2 * m) (rsig x) k = herm m y k).
  { intros k Hk. rewrite <- (@dft_idft (2 * m) (herm m y) k Hk). apply dft_ext. intros i Hi. unfold rsig, x. rewrite nth_tab by exact Hi.
    apply C_eq; cbn [re im RtoC]; [reflexivity|]. symmetry. apply hsig_real; assumption. }
  rewrite <- (IDFT_DFT (packed x)). f_equal. unfold DFT, iclosed. rewrite Lp. apply tab_ext. intros k Hk. rewrite packed_R by exact Lx.
  assert (Ek : RtoC (/ 2) *c (herm m y k +c herm m y (k + m)) = ev m x k).
  { rewrite <- !Hs, rdft_lo, rdft_hi by lia. transitivity (RtoC (/ 2) *c (C1 +c C1) *c ev m x k); [ring|rewrite half2; ring]. }
  assert (Ok_ : RtoC (/ 2) *c (Cconj (W (2 * m) k) *c (herm m y k -c herm m y (k + m))) = od m x k).
  { rewrite <- !Hs, rdft_lo, rdft_hi by lia.
    transitivity (RtoC (/ 2) *c (C1 +c C1) *c (W (2 * m) k *c Cconj (W (2 * m) k)) *c od m x k); [ring|rewrite half2, W_conj_l; ring]. }
  destruct (Nat.eqb_spec k 0) as [->|Hk0].
  - rewrite !ihalf_R. rewrite <- Ek, <- Ok_, W_0. unfold herm. cbn [Nat.eqb plus]. destruct (Nat.eqb_spec m 0); [lia|]. rewrite Nat.eqb_refl.
    unfold Ci. change (nthc (F := RF)) with at_. apply C_eq; cbn; lra.
  - rewrite ipost_R, rtable_R by exact Hk. rewrite <- Ek, <- Ok_. change (nthc (F := RF)) with at_.
    assert (H1 : herm m y k = at_ y k). { unfold herm. destruct (Nat.eqb_spec k 0), (Nat.eqb_spec k m), (Nat.ltb_spec k m); try lia. reflexivity. }
    assert (H2 : herm m y (k + m) = Cconj (at_ y (m - k))).
    { unfold herm. destruct (Nat.eqb_spec (k + m) 0), (Nat.eqb_spec (k + m) m), (Nat.ltb_spec (k + m) m); try lia. do 2 f_equal. lia. }
    rewrite H1, H2. ring.
Qed.
Lemma unpacked_packed m (x : list R) : length x = 2 * m -> unpacked (packed x) = x.
Proof.
  intros Hx. unfold unpacked. rewrite packed_length, Hx. replace (2 * m / 2) with m by lia. symmetry.
  apply list_is_tab with (d := 0%R); [exact Hx|]. intros i Hi. unfold packed, nthc. rewrite Hx, nth_tab by lia.
  destruct (Nat.even i) eqn:Ei; cbn [re im]; unfold nthf; cbn [fzero RF RFloat_of]; f_equal.
  - apply Nat.even_spec in Ei. destruct Ei as [q ->]. lia.
  - assert (Eo : Nat.odd i = true) by (rewrite <- Nat.negb_even, Ei; reflexivity). apply Nat.odd_spec in Eo. destruct Eo as [q ->]. lia.
Qed.
End Exact.

(* Any-arithmetic characterisation of the scalar FFT object: closed forms of
   what each transform computes, the planner invariant, and the exact way old
   buffer contents enter a result. *)
From Coq Require Import ZArith ZifyBool ZifyNat.
From Verif Require Export M_fft L_stk.
Ltac Zify.zify_post_hook ::= Z.div_mod_to_equations.
Set Implicit Arguments.

Lemma skipn_nil_iff {A} n (l : list A) : length l <= n -> skipn n l = [].
Proof. intros H. apply skipn_all2. exact H. Qed.
Lemma list_is_tab {A} n (l : list A) (f : nat -> A) d :
  length l = n -> (forall i, i < n -> nth i l d = f i) -> l = tab n f.
Proof.
  intros Hl H. apply list_ext with (d := d); [rewrite tab_length; exact Hl|].
  intros i Hi. rewrite nth_tab by lia. apply H. lia.
Qed.
Lemma map_as_tab {A B} (f : A -> B) (l : list A) d : map f l = tab (length l) (fun i => f (nth i l d)).
Proof. rewrite (list_tab l d) at 1. apply map_tab. Qed.
Lemma zip_apply_app {A B} (f : A -> B -> A) (a : list A) (b : list B) da db :
  length b <= length a ->
  zip_apply f a b = tab (length b) (fun i => f (nth i a da) (nth i b db)) ++ skipn (length b) a.
Proof.
  intros H. apply list_ext with (d := da).
  - rewrite zip_apply_length, app_length, tab_length, skipn_length. lia.
  - rewrite zip_apply_length. intros i Hi. rewrite nth_zip_apply with (db := db) by exact Hi.
    destruct (Nat.ltb_spec i (length b)).
    + rewrite app_nth1 by (rewrite tab_length; lia). rewrite nth_tab by lia. reflexivity.
    + rewrite app_nth2 by (rewrite tab_length; lia). rewrite tab_length, nth_skipn. f_equal. lia.
Qed.

Section LFft.
Context {T : Type} {F : Float T}.
Variable c : cfg.
Local Notation cx := (cx T).

(* ---------- twiddle tables ---------- *)
Definition twf (n : nat) : list cx :=
  match lookup_pre c n with Some t => t | None => tw_table n end.
Lemma tw_loop_length n (a b d e : T) : length (tw_loop n a b d e) = n.
Proof. revert d e. induction n; intros; cbn [tw_loop length]; auto. Qed.
Lemma tw_table_length n : length (tw_table n) = n / 2.
Proof. unfold tw_table. destruct (fsin_cos _). apply tw_loop_length. Qed.
Lemma twf_length n : length (twf n) = n / 2.
Proof.
  unfold twf, lookup_pre. destruct (_ && _); [apply tab_length|apply tw_table_length].
Qed.
Definition cache_ok (p : planner T) : Prop :=
  forall n t, assoc n (pl_cache p) = Some t -> t = tw_table n.
Definition cache_after (p : planner T) (n : nat) :=
  match lookup_pre c n with
  | Some _ => pl_cache p
  | None => match assoc n (pl_cache p) with Some _ => pl_cache p | None => (n, tw_table n) :: pl_cache p end
  end.
Lemma with_cache_same (p : planner T) : with_cache p (pl_cache p) = p.
Proof. destruct p; reflexivity. Qed.
Lemma get_twiddles_ok p n : cache_ok p ->
  get_twiddles c p n = (with_cache p (cache_after p n), twf n).
Proof.
  intros H. unfold get_twiddles, cache_after, twf.
  destruct (lookup_pre c n); [rewrite with_cache_same; reflexivity|].
  destruct (assoc n (pl_cache p)) eqn:E; [|reflexivity].
  rewrite with_cache_same, (H _ _ E). reflexivity.
Qed.
Lemma cache_after_ok p n : cache_ok p ->
  forall k t, assoc k (cache_after p n) = Some t -> t = tw_table k.
Proof.
  intros H k t. unfold cache_after. destruct (lookup_pre c n); [apply H|].
  destruct (assoc n (pl_cache p)) eqn:E; [apply H|]. cbn [assoc].
  destruct (Nat.eqb_spec k n) as [->|]; [congruence|apply H].
Qed.

(* ---------- closed forms ---------- *)
(* the Stockham recursion on n = 2^L points *)
Definition stkp (mul : cx -> cx -> cx) (x : list cx) : list cx :=
  let n := length x in tab n (stk_fun mul (nthc (twf n)) n (Nat.log2 n) (nthc x)).
Definition mulk : cx -> cx -> cx := match c_kind c with OtherT => cmul c | _ => cmul_plain end.
Definition small_fft (x : list cx) : list cx :=
  match small_kernel c (new_planner (T := T)) x with Done (_, y, _) => y | _ => x end.
Definition pow2fft (x : list cx) : list cx :=
  let n := length x in
  if n <=? 1 then x else if n <=? 16 then small_fft x else stkp mulk x.
(* conjugate chirp, wrapped *)
Definition bl_b (n : nat) : list cx :=
  let m := blue_m n in
  tab m (fun i => if i <? n then expi (blue_angle n i)
                  else if m - n <? i then expi (blue_angle n (m - i)) else czero).
Definition bl_fft_b (n : nat) : list cx := pow2fft (bl_b n).
Definition bl_a (x : list cx) : list cx :=
  let n := length x in
  tab n (fun i => cmul c (nthc x i) (nthc (blue_chirp n) i)).
Definition bl_scale (m : nat) (v : cx) : cx := cscale (fdiv fone (fofnat m)) (cconj v).
Definition bl_out (n : nat) (d : list cx) : list cx :=
  tab n (fun i => cmul c (nthc d i) (nthc (blue_chirp n) i)).
Definition bluefft (x : list cx) : list cx :=
  let n := length x in let m := blue_m n in
  let A := pow2fft (bl_a x ++ repeat czero (m - n)) in
  let B := map cconj (zip_apply (cmul c) A (bl_fft_b n)) in
  bl_out n (map (bl_scale m) (pow2fft B)).
Definition fft_fresh (x : list cx) : list cx :=
  if is_pow2 (length x) then pow2fft x else bluefft x.

Lemma stkp_length mul x : length (stkp mul x) = length x.
Proof. apply tab_length. Qed.

Lemma small_cases n : is_pow2 n = true -> n <= 16 -> n = 1 \/ n = 2 \/ n = 4 \/ n = 8 \/ n = 16.
Proof.
  intros H Hn. apply is_pow2_iff in H. destruct H as [L ->].
  destruct L as [|[|[|[|[|L]]]]]; cbn; auto 6.
  exfalso. rewrite !Nat.pow_succ_r' in Hn. pose proof (pow2_pos L). lia.
Qed.
Lemma small_kernel_ok (p : planner T) x : is_pow2 (length x) = true -> 1 < length x <= 16 ->
  small_kernel c p x = Done (p, small_fft x, ROk) /\ length (small_fft x) = length x.
Proof.
  intros H1 H2. destruct (small_cases H1 ltac:(lia)) as [E|[E|[E|[E|E]]]]; [lia| | | |];
  unfold small_fft, small_kernel; rewrite E; cbn [Nat.eqb].
  - do 2 (destruct x as [|? x]; [discriminate|]). destruct x; [|discriminate]. split; reflexivity.
  - do 4 (destruct x as [|? x]; [discriminate|]). destruct x; [|discriminate]. split; reflexivity.
  - do 8 (destruct x as [|? x]; [discriminate|]). destruct x; [|discriminate]. split; reflexivity.
  - do 16 (destruct x as [|? x]; [discriminate|]). destruct x; [|discriminate]. split; reflexivity.
Qed.
Lemma pow2fft_length x : is_pow2 (length x) = true -> length (pow2fft x) = length x.
Proof.
  intros H. unfold pow2fft. destruct (Nat.leb_spec (length x) 1); [reflexivity|].
  destruct (Nat.leb_spec (length x) 16); [apply (@small_kernel_ok (new_planner (T:=T))); [exact H|lia]|apply stkp_length].
Qed.

(* ---------- split transform ---------- *)
Lemma zipc_length (a b : list T) : length (zipc a b) = Nat.min (length a) (length b).
Proof. apply zip_with_length. Qed.
Lemma nthc_zipc (a b : list T) i : length a = length b -> nthc (zipc a b) i = rd2 (a, b) i.
Proof.
  intros H. unfold nthc, zipc, rd2. cbn [fst snd].
  destruct (Nat.lt_ge_cases i (length a)).
  - apply nth_zip_with; lia.
  - rewrite !nth_overflow; [reflexivity|lia|lia|]. rewrite zip_with_length. lia.
Qed.
Lemma res_zipc (a b : list T) : length a = length b -> map re (zipc a b) = a.
Proof.
  revert b. induction a as [|x a IH]; intros [|y b] H; cbn in *; try lia; [reflexivity|].
  f_equal. apply IH. lia.
Qed.
Lemma ims_zipc (a b : list T) : length a = length b -> map im (zipc a b) = b.
Proof.
  revert b. induction a as [|x a IH]; intros [|y b] H; cbn in *; try lia; [reflexivity|].
  f_equal. apply IH. lia.
Qed.
Lemma zipc_parts (l : list cx) : zipc (map re l) (map im l) = l.
Proof. induction l as [|[a b] l IH]; cbn; [reflexivity|]. f_equal. exact IH. Qed.
Lemma zipc_app (a a' b b' : list T) : length a = length b -> zipc (a ++ a') (b ++ b') = zipc a b ++ zipc a' b'.
Proof.
  revert b. induction a as [|x a IH]; intros [|y b] H; cbn in *; try lia; [reflexivity|].
  f_equal. apply IH. lia.
Qed.
Lemma zipc_skipn n (a b : list T) : skipn n (zipc a b) = zipc (skipn n a) (skipn n b).
Proof.
  revert a b. induction n as [|n IH]; intros [|x a] [|y b]; cbn; try reflexivity; [|apply IH].
  destruct (skipn n a); reflexivity.
Qed.

Lemma stk_fun_ext mul tw n L s f g : n = 2 ^ L -> s <= L -> (forall i, i < n -> f i = g i) ->
  forall p, p < n -> stk_fun mul tw n s f p = stk_fun mul tw n s g p.
Proof.
  intros Hn Hs H. induction s as [|s IH]; intros p Hp; cbn [stk_fun]; [auto|].
  assert (E : n = 2 ^ (S s) * 2 ^ (L - S s)) by (rewrite <- Nat.pow_add_r, Hn; f_equal; lia).
  assert (Hd : n / 2 ^ S s = 2 ^ (L - S s)).
  { rewrite E, Nat.mul_comm, Nat.div_mul by (apply Nat.pow_nonzero; lia). reflexivity. }
  apply stage_fun_ext with (n := n); [rewrite Hd; apply pow2_pos| | |exact Hp].
  - rewrite Hd, E, Nat.pow_succ_r'. reflexivity.
  - intros i Hi. apply IH; [lia|exact Hi].
Qed.

(* state after the split transform *)
Lemma fft_split_simd_ok rec p a b L : cache_ok p ->
  length a = 2 ^ L -> length b = 2 ^ L -> 16 < 2 ^ L ->
  exists r i,
    fft_split_simd_ c rec p a b =
      Done (with_sscratch (with_cache p (cache_after p (2 ^ L))) r i,
            map re (stkp cmul_plain (zipc a b)), map im (stkp cmul_plain (zipc a b)), ROk).
Proof.
  intros Hc Ha Hb H16. unfold fft_split_simd_. rewrite Ha.
  set (n := 2 ^ L) in *.
  destruct (Nat.eqb_spec n 0); [lia|].
  replace (is_pow2 n) with true by (symmetry; apply is_pow2_pow).
  destruct (Nat.leb_spec n 16); [lia|]. cbn [negb orb].
  rewrite (get_twiddles_ok n Hc). cbn [pl_ssre pl_ssim with_cache].
  set (ra := grow (pl_ssre p) n fzero). set (rb := grow (pl_ssim p) n fzero).
  assert (Hra : n <= length ra) by (unfold ra; rewrite grow_length; lia).
  assert (Hrb : n <= length rb) by (unfold rb; rewrite grow_length; lia).
  destruct (@stages_loop T F (list T * list T) rd2 (len2 n n) (len2 (length ra) (length rb))
     cmul_plain (nthc (twf n)) n L eq_refl
     (fun n1 n2 src dst => for_range 0 n1 (split_group (c_lanes c) n1 n2 (twf n) (fst src) (snd src)) dst))
    with (s0 := (a, b)) (d0 := (ra, rb)) as (src & dst & E & HOK & Hv & Ht1 & Ht2).
  - apply split_stage_ok; auto. apply twf_length.
  - apply split_stage_ok; auto. apply twf_length.
  - split; assumption.
  - split; reflexivity.
  - assert (E' : split_stages (c_lanes c) n (twf n) a b ra rb = Done (n, 1, src, dst, Nat.odd L)).
    { unfold split_stages. rewrite <- E. apply while_ext.
      - intros [[[[? ?] [? ?]] [? ?]] ?]. reflexivity.
      - intros [[[[? ?] [? ?]] [? ?]] ?]. reflexivity. }
    rewrite E'. cbn [bind]. destruct src as [s1 s2], dst as [d1 d2].
    assert (Hab : length a = length b) by lia.
    assert (Hlen : length (zipc a b) = n) by (rewrite zipc_length; lia).
    assert (Hst : forall i, i < n -> rd2 (s1, s2) i = stk_fun cmul_plain (nthc (twf n)) n (Nat.log2 n) (nthc (zipc a b)) i).
    { intros i Hi. rewrite Hv by exact Hi.
      replace (Nat.log2 n) with L by (unfold n; rewrite Nat.log2_pow2; lia).
      apply stk_fun_ext with (L := L); [reflexivity|lia| |exact Hi].
      intros q Hq. rewrite nthc_zipc by exact Hab. reflexivity. }
    assert (R1 : forall l, (forall i, i < n -> nth i l fzero = re (rd2 (s1, s2) i)) -> length l = n ->
                 l = map re (stkp cmul_plain (zipc a b))).
    { intros l H1 H2. unfold stkp. rewrite Hlen, map_tab. apply list_is_tab with (d := fzero); [exact H2|].
      intros i Hi. rewrite H1, Hst by exact Hi. reflexivity. }
    assert (R2 : forall l, (forall i, i < n -> nth i l fzero = im (rd2 (s1, s2) i)) -> length l = n ->
                 l = map im (stkp cmul_plain (zipc a b))).
    { intros l H1 H2. unfold stkp. rewrite Hlen, map_tab. apply list_is_tab with (d := fzero); [exact H2|].
      intros i Hi. rewrite H1, Hst by exact Hi. reflexivity. }
    destruct (Nat.odd L).
    + destruct HOK as [[H1 H2] [H3 H4]]. cbn [fst snd] in *.
      unfold slice_to. destruct (Nat.leb_spec n (length s1)); [|lia]. destruct (Nat.leb_spec n (length s2)); [|lia].
      cbn [bind]. exists s1, s2.
      rewrite !skipn_nil_iff, !app_nil_r by lia.
      rewrite (R1 (firstn n s1)), (R2 (firstn n s2)); [reflexivity| | | |].
      * intros i Hi. rewrite nth_firstn by exact Hi. reflexivity.
      * rewrite firstn_length. lia.
      * intros i Hi. rewrite nth_firstn by exact Hi. reflexivity.
      * rewrite firstn_length. lia.
    + destruct HOK as [[H1 H2] [H3 H4]]. cbn [fst snd] in *.
      exists d1, d2. rewrite (R1 s1), (R2 s2); [reflexivity| | | |]; auto.
Qed.

(* ---------- planner invariant ---------- *)
Definition blue_ok (p : planner T) : Prop :=
  forall n pr, assoc n (pl_blue p) = Some pr -> pr = (blue_chirp n, bl_fft_b n).
Definition Inv (p : planner T) : Prop :=
  cache_ok p /\ blue_ok p /\ length (pl_sre p) = length (pl_sim p) /\
  (length (pl_sre p) = 0 \/ (is_pow2 (length (pl_sre p)) = true /\ 16 < length (pl_sre p))) /\
  (length (pl_bscratch p) = 0 \/ is_pow2 (length (pl_bscratch p)) = true).
Lemma Inv_new : Inv (new_planner (T := T)).
Proof. repeat split; try (left; reflexivity); intros n t H; discriminate. Qed.

(* what a transform of power-of-two length returns when the object's split
   buffers hold r, i *)
Definition pow2_out (r i : list T) (x : list cx) : list cx :=
  let n := length x in
  if n <=? 16 then pow2fft x
  else match c_kind c with
       | OtherT => pow2fft x
       | _ => firstn n (stkp cmul_plain (x ++ skipn n (zipc r i)))
       end.
Lemma pow2_max a b : is_pow2 a = true -> is_pow2 b = true -> is_pow2 (Nat.max a b) = true.
Proof. intros Ha Hb. destruct (Nat.max_spec a b) as [[_ ->]|[_ ->]]; assumption. Qed.

Lemma pow2_out_small r i x : length r <= length x -> pow2_out r i x = pow2fft x.
Proof.
  intros H. unfold pow2_out, pow2fft, mulk.
  destruct (Nat.leb_spec (length x) 16); [reflexivity|].
  destruct (Nat.leb_spec (length x) 1); [lia|].
  rewrite skipn_nil_iff, app_nil_r by (rewrite zipc_length; lia).
  destruct (c_kind c); [| |reflexivity]; rewrite firstn_all2; try reflexivity; rewrite stkp_length; lia.
Qed.

Lemma stkp_list mul x l L : length x = 2 ^ L -> length l = 2 ^ L ->
  (forall i, i < 2 ^ L -> nthc l i = stk_fun mul (nthc (twf (2 ^ L))) (2 ^ L) L (nthc x) i) -> l = stkp mul x.
Proof.
  intros Hx Hl H. unfold stkp. rewrite Hx. apply list_is_tab with (d := czero); [exact Hl|].
  intros i Hi. rewrite Nat.log2_pow2 by lia. apply H. exact Hi.
Qed.

(* the split buffers after a transform of length n > 16 *)
Definition split_after (p : planner T) (x : list cx) : list cx :=
  stkp cmul_plain (x ++ skipn (length x) (zipc (pl_sre p) (pl_sim p))).

Lemma stockham_ok rec p x : Inv p -> is_pow2 (length x) = true -> 16 < length x ->
  exists p', stockham_ c rec p x = Done (p', pow2_out (pl_sre p) (pl_sim p) x, ROk) /\ Inv p' /\
    pl_bscratch p' = pl_bscratch p /\ pl_blue p' = pl_blue p /\
    length (pl_sre p') = Nat.max (length x) (length (pl_sre p)) /\
    (c_kind c <> OtherT -> pl_sre p' = map re (split_after p x) /\ pl_sim p' = map im (split_after p x)).
Proof.
  intros HI Hp H16. pose proof HI as (Hc & Hbl & Hsl & Hsp & Hbs).
  unfold stockham_. rewrite Hp. cbn [negb].
  set (n := length x) in *.
  destruct (Nat.eqb_spec n 0); [lia|]. destruct (Nat.leb_spec n 16); [lia|].
  rewrite (get_twiddles_ok n Hc).
  cbn [with_cache pl_scratch pl_sre pl_sim].
  set (sre := grow (pl_sre p) n fzero). set (sim := grow (pl_sim p) n fzero).
  assert (Lsre : length sre = Nat.max n (length (pl_sre p))) by apply grow_length.
  assert (Lsim : length sim = Nat.max n (length (pl_sre p))) by (unfold sim; rewrite grow_length; lia).
  assert (HN : is_pow2 (Nat.max n (length (pl_sre p))) = true).
  { destruct Hsp as [->|[H1 _]]; [rewrite Nat.max_0_r; exact Hp|apply pow2_max; assumption]. }
  assert (HInvS : forall q r i, pl_cache q = cache_after p n \/ (exists q', cache_ok q' /\ pl_cache q = cache_after q' (Nat.max n (length (pl_sre p)))) ->
     pl_blue q = pl_blue p -> pl_bscratch q = pl_bscratch p ->
     pl_sre q = r -> pl_sim q = i -> length r = Nat.max n (length (pl_sre p)) -> length i = Nat.max n (length (pl_sre p)) ->
     Inv q).
  { intros q r i H1 H2 H3 H4 H5 H6 H7. repeat split.
    - destruct H1 as [H1|(q' & Hq' & H1)]; intros k t; rewrite H1; apply cache_after_ok; assumption.
    - intros k pr. rewrite H2. apply Hbl.
    - rewrite H4, H5. lia.
    - right. rewrite H4, H6. split; [exact HN|lia].
    - rewrite H3. exact Hbs. }
  set (scr := grow (pl_scratch p) n czero).
  assert (Hgo : c_kind c <> OtherT ->
    exists p', (let sre := zip_apply (fun _ v => re v) sre x in
      let sim := zip_apply (fun _ v => im v) sim x in
      '(p, sre, sim, r) <- fft_split_simd_ c rec (with_split (with_scratch (with_cache p (cache_after p n)) []) [] []) sre sim ;;
      match r with
      | RErr e => Done (p, x, RErr e)
      | ROk =>
        let x := zip_apply (fun _ v => v) x (zipc sre sim) in
        Done (with_split (with_scratch p scr) sre sim, x, ROk)
      end) = Done (p', firstn n (stkp cmul_plain (x ++ skipn n (zipc (pl_sre p) (pl_sim p)))), ROk) /\ Inv p' /\
    pl_bscratch p' = pl_bscratch p /\ pl_blue p' = pl_blue p /\
    length (pl_sre p') = Nat.max n (length (pl_sre p)) /\
    (c_kind c <> OtherT -> pl_sre p' = map re (split_after p x) /\ pl_sim p' = map im (split_after p x))).
  { intros Hk.
    assert (E1 : zip_apply (fun _ v => re v) sre x = map re x ++ skipn n (pl_sre p)).
    { rewrite zip_apply_app with (da := fzero) (db := czero) by lia. fold n. f_equal.
      - rewrite map_as_tab with (d := czero). reflexivity.
      - unfold sre, grow, resize. destruct (Nat.ltb_spec (length (pl_sre p)) n).
        + rewrite !skipn_nil_iff; [reflexivity|lia|]. rewrite app_length, firstn_length, repeat_length. lia.
        + reflexivity. }
    assert (E2 : zip_apply (fun _ v => im v) sim x = map im x ++ skipn n (pl_sim p)).
    { rewrite zip_apply_app with (da := fzero) (db := czero) by lia. fold n. f_equal.
      - rewrite map_as_tab with (d := czero). reflexivity.
      - unfold sim, grow, resize. destruct (Nat.ltb_spec (length (pl_sim p)) n).
        + rewrite !skipn_nil_iff; [reflexivity|lia|]. rewrite app_length, firstn_length, repeat_length. lia.
        + reflexivity. }
    cbv zeta. rewrite E1, E2. pose proof HN as HN'. apply is_pow2_iff in HN'. destruct HN' as [L HL].
    set (q := with_split (with_scratch (with_cache p (cache_after p n)) []) [] []).
    assert (Hq : cache_ok q).
    { intros k t. unfold q. cbn [pl_cache with_split with_scratch with_cache]. apply cache_after_ok. exact Hc. }
    destruct (@fft_split_simd_ok rec q (map re x ++ skipn n (pl_sre p)) (map im x ++ skipn n (pl_sim p)) L)
      as (r & i & E); [exact Hq| | | |].
    { rewrite app_length, map_length, skipn_length. fold n. lia. }
    { rewrite app_length, map_length, skipn_length. fold n. lia. }
    { lia. }
    rewrite zipc_app, zipc_parts, <- zipc_skipn in E by (rewrite !map_length; reflexivity).
    rewrite E. cbn [bind]. rewrite zipc_parts.
    set (Y := stkp cmul_plain (x ++ skipn n (zipc (pl_sre p) (pl_sim p)))).
    assert (HY : length Y = 2 ^ L).
    { unfold Y. rewrite stkp_length, app_length, skipn_length, zipc_length. fold n. lia. }
    assert (E3 : zip_apply (fun _ v => v) x Y = firstn n Y).
    { apply list_ext with (d := czero).
      - rewrite zip_apply_length, firstn_length. fold n. lia.
      - rewrite zip_apply_length. intros j Hj. rewrite nth_zip_apply with (db := czero) by exact Hj.
        fold n in Hj. rewrite nth_firstn by exact Hj. destruct (Nat.ltb_spec j (length Y)); [reflexivity|lia]. }
    rewrite E3. eexists. split; [reflexivity|]. split.
    { eapply HInvS with (r := map re Y) (i := map im Y); try reflexivity.
      - right. exists q. split; [exact Hq|]. cbn. rewrite HL. reflexivity.
      - rewrite map_length. lia.
      - rewrite map_length. lia. }
    split; [reflexivity|]. split; [reflexivity|]. cbn [pl_sre pl_sim with_split].
    split; [rewrite map_length; lia|]. intros _. split; reflexivity. }
  unfold pow2_out. fold n. destruct (Nat.leb_spec n 16); [lia|].
  destruct (c_kind c) eqn:Ek; [apply Hgo; discriminate|apply Hgo; discriminate|]. clear Hgo.
  assert (Hscr : n <= length scr) by (unfold scr; rewrite grow_length; lia).
  unfold slice_to. destruct (Nat.leb_spec n (length scr)); [|lia]. cbn [bind].
  apply is_pow2_iff in Hp. destruct Hp as [L HL].
  destruct (@stages_loop T F (list cx) nthc (fun l => length l = n) (fun l => length l = n)
     (cmul c) (nthc (twf n)) n L HL
     (fun n1 n2 src dst => for_range 0 n1 (stk_group c n1 n2 (twf n) src) dst))
    with (s0 := x) (d0 := firstn n scr) as (src & dst & E & HOK & Hv & Ht1 & Ht2).
  - apply stk_stage_ok; auto. apply twf_length.
  - apply stk_stage_ok; auto. apply twf_length.
  - reflexivity.
  - rewrite firstn_length. lia.
  - assert (E' : stk_stages c n (twf n) x (firstn n scr) = Done (n, 1, src, dst, Nat.odd L)) by exact E.
    rewrite E'. cbn [bind].
    assert (Hs : length src = n) by (destruct (Nat.odd L); destruct HOK; assumption).
    assert (Hd : length dst = n) by (destruct (Nat.odd L); destruct HOK; assumption).
    assert (Esrc : src = pow2fft x).
    { unfold pow2fft, mulk. fold n. rewrite Ek. destruct (Nat.leb_spec n 1); [lia|].
      destruct (Nat.leb_spec n 16); [lia|]. apply stkp_list with (L := L); [exact HL|lia|].
      rewrite <- HL. exact Hv. }
    assert (E2 : (if Nat.odd L then (firstn n src ++ skipn n dst, src) else (src, dst)) =
                 (src, if Nat.odd L then src else dst)).
    { destruct (Nat.odd L); [|reflexivity]. rewrite firstn_all2 by lia. rewrite skipn_nil_iff, app_nil_r by lia.
      reflexivity. }
    rewrite E2, Esrc. eexists. split; [reflexivity|]. split.
    { eapply HInvS with (r := sre) (i := sim); try reflexivity; try assumption. left. reflexivity. }
    split; [reflexivity|]. split; [reflexivity|]. split; [exact Lsre|]. congruence.
Qed.

(* ---------- fft on power-of-two lengths ---------- *)
Definition fits (p : planner T) (n : nat) : Prop := n <= 16 \/ c_kind c = OtherT \/ length (pl_sre p) <= n.
Lemma pow2_out_fits p x : fits p (length x) -> pow2_out (pl_sre p) (pl_sim p) x = pow2fft x.
Proof.
  intros [H|[H|H]]; [| |apply pow2_out_small; exact H]; unfold pow2_out.
  - destruct (Nat.leb_spec (length x) 16); [reflexivity|lia].
  - rewrite H. destruct (length x <=? 16); reflexivity.
Qed.
Lemma pow2_out_length r i x : length r = length i -> is_pow2 (length x) = true -> length (pow2_out r i x) = length x.
Proof.
  intros Hri H. unfold pow2_out. destruct (Nat.leb_spec (length x) 16); [apply pow2fft_length; exact H|].
  assert (length (firstn (length x) (stkp cmul_plain (x ++ skipn (length x) (zipc r i)))) = length x).
  { rewrite firstn_length, stkp_length, app_length. lia. }
  destruct (c_kind c); [assumption|assumption|apply pow2fft_length; exact H].
Qed.

Lemma fft_pow2_ok rec p x : Inv p -> is_pow2 (length x) = true ->
  exists p', fft_body c rec p x = Done (p', pow2_out (pl_sre p) (pl_sim p) x, ROk) /\ Inv p' /\
    pl_bscratch p' = pl_bscratch p /\ pl_blue p' = pl_blue p /\
    length (pl_sre p') = (if length x <=? 16 then length (pl_sre p) else Nat.max (length x) (length (pl_sre p))) /\
    (c_kind c <> OtherT -> 16 < length x ->
       pl_sre p' = map re (split_after p x) /\ pl_sim p' = map im (split_after p x)).
Proof.
  intros HI Hp. unfold fft_body.
  assert (0 < length x) by (apply is_pow2_iff in Hp; destruct Hp as [L ->]; apply pow2_pos).
  destruct (Nat.eqb_spec (length x) 0); [lia|].
  destruct (Nat.eqb_spec (length x) 1) as [E1|E1].
  - exists p. unfold pow2_out, pow2fft. rewrite E1. cbn [Nat.leb].
    repeat split; try reflexivity; try apply HI; try lia.
  - rewrite Hp. destruct (Nat.leb_spec (length x) 16); cbn [andb].
    + destruct (@small_kernel_ok p x Hp ltac:(lia)) as [E _]. rewrite E. exists p.
      unfold pow2_out, pow2fft. destruct (Nat.leb_spec (length x) 1); [lia|].
      destruct (Nat.leb_spec (length x) 16); [|lia].
      repeat split; try reflexivity; try apply HI; try lia.
    + rewrite land_pred_pow2, Hp by lia.
      destruct (@stockham_ok rec p x HI Hp ltac:(lia)) as (p' & E & H1 & H2 & H3 & H4 & H5).
      exists p'. repeat split; try assumption; try (apply H1); apply H5; assumption.
Qed.

(* ---------- chirp transform ---------- *)
Lemma expi_nth n i : i < n -> nthc (blue_chirp n) i = expi (fneg (blue_angle n i)).
Proof. intros H. unfold nthc, blue_chirp. rewrite nth_tab by exact H. reflexivity. Qed.
Lemma blue_m_ge n : 2 * n - 1 <= blue_m n.
Proof. apply next_pow2_ge. Qed.
Lemma blue_m_pow2 n : is_pow2 (blue_m n) = true.
Proof. apply next_pow2_pow2. Qed.
Lemma blue_b_ok n : 0 < n -> blue_b (T := T) n = Done (bl_b n).
Proof.
  intros Hn. pose proof (blue_m_ge n) as Hm. set (m := blue_m n) in *.
  assert (H0 : forall q, q < m -> nthc (blue_b0 n) q = if q <? n then expi (blue_angle n q) else czero).
  { intros q Hq. unfold nthc, blue_b0, resize. fold m. rewrite tab_length, firstn_all2 by (rewrite tab_length; lia).
    destruct (Nat.ltb_spec q n).
    - rewrite app_nth1 by (rewrite tab_length; lia). rewrite nth_tab by lia. reflexivity.
    - rewrite app_nth2 by (rewrite tab_length; lia). rewrite tab_length.
      rewrite nth_repeat. reflexivity. }
  assert (L0 : length (blue_b0 (T := T) n) = m).
  { unfold blue_b0, resize. fold m. rewrite app_length, firstn_length, repeat_length, tab_length. lia. }
  unfold blue_b. fold m.
  destruct (@for_inv (list cx) (fun i b => length b = m /\ forall q, q < m ->
       nthc b q = if q <? n then expi (blue_angle n q) else if m - i <? q then expi (blue_angle n (m - q)) else czero)
     (fun i b => v <- get b i ;; set b (m - i) v) 1 n (blue_b0 n)) as (b & E & Hl & Hb).
  - lia.
  - split; [exact L0|]. intros q Hq. rewrite H0 by exact Hq.
    destruct (Nat.ltb_spec q n), (Nat.ltb_spec (m - 1) q); try reflexivity; lia.
  - intros i b Hi [Hl Hb]. rewrite get_nth with (d := czero) by lia. cbn [bind].
    rewrite set_ok by lia. eexists; split; [reflexivity|]. split; [rewrite upd_length; exact Hl|].
    intros q Hq. unfold nthc at 1. rewrite nth_upd by lia.
    destruct (Nat.eqb_spec q (m - i)) as [->|Hne].
    + fold (nthc b i). rewrite Hb by lia.
      destruct (Nat.ltb_spec i n); [|lia]. destruct (Nat.ltb_spec (m - i) n); [lia|].
      destruct (Nat.ltb_spec (m - S i) (m - i)); [|lia]. do 2 f_equal. lia.
    + fold (nthc b q). rewrite Hb by exact Hq.
      destruct (Nat.ltb_spec q n), (Nat.ltb_spec (m - i) q), (Nat.ltb_spec (m - S i) q); try reflexivity; lia.
  - rewrite E. f_equal. apply list_is_tab with (d := czero); [exact Hl|exact Hb].
Qed.
Lemma bl_b_length n : length (bl_b n) = blue_m n.
Proof. apply tab_length. Qed.
Lemma bl_fft_b_length n : length (bl_fft_b n) = blue_m n.
Proof. unfold bl_fft_b. rewrite pow2fft_length; rewrite bl_b_length; [reflexivity|apply blue_m_pow2]. Qed.

Lemma get_bluestein_ok rec p n : Inv p -> 0 < n ->
  exists bl, get_bluestein_ (fft_body c rec) p n = Done (with_blue p bl, (blue_chirp n, bl_fft_b n)) /\
    Inv (with_blue p bl).
Proof.
  intros HI Hn. pose proof HI as (Hc & Hbl & Hsl & Hsp & Hbs). unfold get_bluestein_.
  destruct (assoc n (pl_blue p)) as [pr|] eqn:E.
  - exists (pl_blue p). assert (Hw : with_blue p (pl_blue p) = p) by (destruct p; reflexivity).
    rewrite Hw, (Hbl _ _ E). auto.
  - destruct (Nat.eqb_spec n 0); [lia|]. rewrite blue_b_ok by exact Hn. cbn [bind].
    destruct (@fft_pow2_ok rec (new_planner (T := T)) (bl_b n) Inv_new) as (p' & E' & _).
    { rewrite bl_b_length. apply blue_m_pow2. }
    rewrite E'. cbn [bind]. rewrite pow2_out_small by (cbn; lia).
    eexists. split; [reflexivity|].
    split; [exact Hc|]. split; [|split; [exact Hsl|split; [exact Hsp|exact Hbs]]].
    intros k pr. cbn [pl_blue with_blue assoc]. destruct (Nat.eqb_spec k n) as [->|]; [|apply Hbl].
    intros H. injection H as <-. reflexivity.
Qed.

Lemma bl_a_length x : length (bl_a x) = length x.
Proof. apply tab_length. Qed.
Lemma bl_out_length n d : length (bl_out n d) = n.
Proof. apply tab_length. Qed.

Definition fits_blue (p : planner T) (n : nat) : Prop :=
  length (pl_bscratch p) <= blue_m n /\ fits p (blue_m n).
Definition size_after (s M : nat) : nat := if M <=? 16 then s else Nat.max M s.

Lemma fft_blue_ok rec p x : c_std c = true -> Inv p -> 0 < length x -> is_pow2 (length x) = false ->
  exists p' y, fft_body c (fft_body c rec) p x = Done (p', y, ROk) /\ Inv p' /\ length y = length x /\
    length (pl_bscratch p') = Nat.max (blue_m (length x)) (length (pl_bscratch p)) /\
    length (pl_sre p') = size_after (length (pl_sre p)) (length (pl_bscratch p')) /\
    (fits_blue p (length x) -> y = bluefft x).
Proof.
  intros Hstd HI Hn Hp.
  unfold fft_body at 1. set (n := length x) in *.
  destruct (Nat.eqb_spec n 0); [lia|].
  destruct (Nat.eqb_spec n 1) as [E1|E1]; [rewrite E1 in Hp; discriminate|].
  rewrite Hp, andb_false_r, land_pred_pow2, Hp, Hstd by lia. cbn [negb].
  destruct (get_bluestein_ok rec HI Hn) as (bl & Eg & HI0). rewrite Eg. cbn [bind].
  set (p0 := with_blue p bl) in *.
  pose proof (blue_m_ge n) as Hm. pose proof (blue_m_pow2 n) as Hmp.
  rewrite bl_fft_b_length. set (m := blue_m n) in *.
  set (a0 := grow (pl_bscratch p0) m czero).
  set (M := Nat.max m (length (pl_bscratch p))).
  assert (La0 : length a0 = M) by (unfold a0; rewrite grow_length; reflexivity).
  assert (HM : is_pow2 M = true).
  { destruct HI as (_ & _ & _ & _ & [H|H]); unfold M; [rewrite H, Nat.max_0_r; exact Hmp|apply pow2_max; assumption]. }
  rewrite for_set with (g := fun i => cmul c (nthc x i) (nthc (blue_chirp n) i)).
  2:{ lia. }
  2:{ intros i Hi. rewrite !get_nth with (d := czero); [reflexivity| |exact Hi]. unfold blue_chirp. rewrite tab_length. exact Hi. }
  cbn [bind]. fold (bl_a x).
  assert (Hlen1 : length (bl_a x ++ skipn n a0) = M) by (rewrite app_length, bl_a_length, skipn_length; fold n; lia).
  fold (bl_a x) in Hlen1. change (tab n (fun i => cmul c (nthc x i) (nthc (blue_chirp n) i))) with (bl_a x).
  rewrite Hlen1. destruct (Nat.leb_spec n m); [|lia]. destruct (Nat.leb_spec m M); [|lia].
  cbn [andb bind].
  assert (Ea : firstn n (bl_a x ++ skipn n a0) = bl_a x).
  { rewrite firstn_app, bl_a_length. fold n. rewrite Nat.sub_diag. cbn [firstn]. rewrite app_nil_r, firstn_all2; [reflexivity|].
    rewrite bl_a_length. fold n. lia. }
  rewrite Ea. set (stale := skipn m (bl_a x ++ skipn n a0)).
  assert (Ls : length stale = M - m) by (unfold stale; rewrite skipn_length, Hlen1; reflexivity).
  set (a1 := bl_a x ++ repeat czero (m - n) ++ stale).
  assert (La1 : length a1 = M).
  { unfold a1. rewrite !app_length, repeat_length, bl_a_length, Ls. fold n. lia. }
  set (p1 := with_bscratch p0 []).
  assert (HI1 : Inv p1).
  { destruct HI0 as (H1 & H2 & H3 & H4 & H5). split; [exact H1|]. split; [exact H2|]. split; [exact H3|]. split; [exact H4|].
    left. reflexivity. }
  destruct (@fft_pow2_ok rec p1 a1 HI1) as (p2 & E2 & HI2 & Hb2 & _ & Hs2 & _); [rewrite La1; exact HM|].
  rewrite E2. cbn [bind]. rewrite La1 in Hs2.
  set (A := pow2_out _ _ a1).
  assert (LA : length A = M).
  { unfold A. rewrite pow2_out_length; [exact La1| |rewrite La1; exact HM]. apply HI1. }
  set (B := map cconj (zip_apply (cmul c) A (bl_fft_b n))).
  assert (LB : length B = M) by (unfold B; rewrite map_length, zip_apply_length; exact LA).
  destruct (@fft_pow2_ok rec p2 B HI2) as (p3 & E3 & HI3 & Hb3 & _ & Hs3 & _); [rewrite LB; exact HM|].
  rewrite E3. cbn [bind]. rewrite LB in Hs3.
  set (D := pow2_out _ _ B).
  assert (LD : length D = M).
  { unfold D. rewrite pow2_out_length; [exact LB| |rewrite LB; exact HM]. apply HI2. }
  rewrite map_map. change (fun x0 => cscale (fdiv fone (fofnat m)) (cconj x0)) with (bl_scale m).
  set (D2 := map (bl_scale m) D).
  assert (LD2 : length D2 = M) by (unfold D2; rewrite map_length; exact LD).
  rewrite for_set with (g := fun i => cmul c (nthc D2 i) (nthc (blue_chirp n) i)).
  2:{ fold n. lia. }
  2:{ intros i Hi. rewrite !get_nth with (d := czero); [reflexivity| |lia]. unfold blue_chirp. rewrite tab_length. exact Hi. }
  cbn [bind]. rewrite skipn_nil_iff, app_nil_r by (fold n; lia).
  change (tab n (fun i => cmul c (nthc D2 i) (nthc (blue_chirp n) i))) with (bl_out n D2).
  eexists _, _. split; [reflexivity|].
  assert (Hsz : length (pl_sre p3) = size_after (length (pl_sre p)) M).
  { rewrite Hs3, Hs2. unfold size_after. cbn [p1 pl_sre with_bscratch p0 with_blue].
    destruct (M <=? 16); [reflexivity|]. lia. }
  split.
  { destruct HI3 as (H1 & H2 & H3 & H4 & H5). split; [exact H1|]. split; [exact H2|]. split; [exact H3|]. split; [exact H4|].
    right. cbn [pl_bscratch with_bscratch]. rewrite LD2. exact HM. }
  split; [apply bl_out_length|]. split; [exact LD2|].
  split; [cbn [pl_sre pl_bscratch with_bscratch]; rewrite LD2; exact Hsz|].
  intros [Hf1 Hf2].
  fold m in Hf1, Hf2.
  assert (EM : M = m) by (unfold M; lia).
  assert (Est : stale = []) by (apply length_zero_iff_nil; lia).
  assert (EA : A = pow2fft (bl_a x ++ repeat czero (m - n))).
  { unfold A. rewrite pow2_out_fits.
    - unfold a1. rewrite Est, app_nil_r. reflexivity.
    - rewrite La1, EM. exact Hf2. }
  assert (ED : D = pow2fft B).
  { unfold D. rewrite pow2_out_fits; [reflexivity|]. rewrite LB, EM. unfold fits in *. rewrite Hs2, EM.
    destruct Hf2 as [H'|[H'|H']]; [auto|auto|]. right. right.
    cbn [p1 pl_sre with_bscratch p0 with_blue]. destruct (m <=? 16); lia. }
  unfold bluefft. fold n m. cbv zeta. rewrite <- EA. fold B. rewrite <- ED. reflexivity.
Qed.

(* ---------- fft as a whole ---------- *)
Definition ready (p : planner T) (n : nat) : Prop :=
  if is_pow2 n then fits p n else fits_blue p n.
(* the power-of-two size actually transformed for a length n *)
Definition padded (n : nat) : nat := if is_pow2 n then n else blue_m n.

Lemma fft_ok p x : Inv p -> 0 < length x -> (c_std c = true \/ is_pow2 (length x) = true) ->
  exists p' y, fft c p x = Done (p', y, ROk) /\ Inv p' /\ length y = length x /\
    (ready p (length x) -> y = fft_fresh x) /\
    (forall N, length (pl_sre p) <= N -> length (pl_bscratch p) <= N -> padded (length x) <= N ->
       length (pl_sre p') <= N /\ length (pl_bscratch p') <= N).
Proof.
  intros HI Hn Hs. unfold fft, FUEL. change (fft_fuel c 6) with (fft_body c (fft_body c (fft_fuel c 4))).
  unfold ready, fft_fresh, padded. destruct (is_pow2 (length x)) eqn:Hp.
  - destruct (@fft_pow2_ok (fft_body c (fft_fuel c 4)) p x HI Hp) as (p' & E & HI' & Hb & _ & Hsz & _).
    exists p', (pow2_out (pl_sre p) (pl_sim p) x). split; [exact E|]. split; [exact HI'|].
    split; [apply pow2_out_length; [apply HI|exact Hp]|]. split; [apply pow2_out_fits|].
    intros N H1 H2 H3. rewrite Hsz, Hb. destruct (length x <=? 16); lia.
  - destruct Hs as [Hs|Hs]; [|discriminate].
    destruct (@fft_blue_ok (fft_fuel c 4) p x Hs HI Hn Hp) as (p' & y & E & HI' & Hl & Hb & Hsz & Hf).
    exists p', y. split; [exact E|]. split; [exact HI'|]. split; [exact Hl|]. split; [exact Hf|].
    intros N H1 H2 H3. rewrite Hsz, Hb. unfold size_after. destruct (_ <=? 16); lia.
Qed.
Lemma fft_empty p : fft c p [] = Done (p, [], RErr EmptyInput).
Proof. reflexivity. Qed.
Lemma fft_nostd p x : c_std c = false -> 0 < length x -> is_pow2 (length x) = false ->
  fft c p x = Done (p, x, RErr NonPowerOfTwoNoStd).
Proof.
  intros Hs Hn Hp. unfold fft, FUEL. change (fft_fuel c 6) with (fft_body c (fft_fuel c 5)).
  unfold fft_body at 1. destruct (Nat.eqb_spec (length x) 0); [lia|].
  destruct (Nat.eqb_spec (length x) 1) as [E|E]; [rewrite E in Hp; discriminate|].
  rewrite Hp, andb_false_r, land_pred_pow2, Hp, Hs by lia. reflexivity.
Qed.
Lemma ready_new n : ready (new_planner (T := T)) n.
Proof.
  unfold ready, fits_blue, fits. cbn [pl_sre pl_bscratch new_planner length].
  destruct (is_pow2 n); [right; right; lia|]. split; [lia|]. right; right; lia.
Qed.
Lemma fft_fresh_length x : 0 < length x -> (c_std c = true \/ is_pow2 (length x) = true) -> length (fft_fresh x) = length x.
Proof.
  intros Hn Hs. destruct (@fft_ok new_planner x Inv_new Hn Hs) as (p' & y & _ & _ & Hl & Hy & _).
  rewrite <- (Hy (ready_new _)). exact Hl.
Qed.
Lemma fft_fresh_ok x : 0 < length x -> (c_std c = true \/ is_pow2 (length x) = true) ->
  exists p', fft c (new_planner (T := T)) x = Done (p', fft_fresh x, ROk).
Proof.
  intros Hn Hs. destruct (@fft_ok new_planner x Inv_new Hn Hs) as (p' & y & E & _ & _ & Hy & _).
  exists p'. rewrite E, (Hy (ready_new _)). reflexivity.
Qed.
Lemma ready_size p n : length (pl_sre p) <= padded n -> length (pl_bscratch p) <= padded n -> ready p n.
Proof.
  unfold ready, padded, fits_blue, fits. destruct (is_pow2 n); auto.
Qed.
End LFft.

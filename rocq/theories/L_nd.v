(* Lemmas on the multi-dimensional transforms. *)
From Coq Require Import ZArith ZifyBool ZifyNat.
From Verif Require Export M_nd L_prov L_obj2.
Ltac Zify.zify_post_hook ::= Z.div_mod_to_equations.
Set Implicit Arguments.
Open Scope nat_scope.

Lemma for_try_inv {S} (P : nat -> S -> Prop) n body : forall lo s, P lo s ->
  (forall i s, lo <= i < lo + n -> P i s -> exists s', body i s = Done (s', ROk) /\ P (Datatypes.S i) s') ->
  exists s', for_try n lo body s = Done (s', ROk) /\ P (lo + n) s'.
Proof.
  induction n as [|n IH]; intros lo s H0 Hs; cbn [for_try]; [exists s; rewrite Nat.add_0_r; auto|].
  destruct (Hs lo s) as (s' & E & H1); [lia|exact H0|]. rewrite E. cbn [bind]. destruct (IH (Datatypes.S lo) s' H1) as (s2 & E2 & H2).
  { intros i t Hi Ht. apply Hs; [lia|exact Ht]. }
  exists s2. split; [exact E2|]. replace (lo + Datatypes.S n) with (Datatypes.S lo + n) by lia. exact H2.
Qed.
Lemma for_try_nest {S} (P : nat -> S -> Prop) A B (body : nat -> nat -> S -> exec (S * rres)) s : P 0 s ->
  (forall a b s, a < A -> b < B -> P (a * B + b) s -> exists s', body a b s = Done (s', ROk) /\ P (Datatypes.S (a * B + b)) s') ->
  exists s', for_try A 0 (fun a => for_try B 0 (body a)) s = Done (s', ROk) /\ P (A * B) s'.
Proof.
  intros H0 Hs. destruct (@for_try_inv S (fun a => P (a * B)) A (fun a => for_try B 0 (body a)) 0 s) as (s' & E & H); [exact H0| |exists s'; auto].
  intros a t Ha Ht. destruct (@for_try_inv S (fun b => P (a * B + b)) B (body a) 0 t) as (t' & E & H).
  - rewrite Nat.add_0_r. exact Ht.
  - intros b u Hb Hu. rewrite Nat.add_succ_r. apply Hs; [lia|lia|exact Hu].
  - exists t'. split; [exact E|]. replace (Datatypes.S a * B) with (a * B + (0 + B)) by lia. exact H.
Qed.
Lemma for_try_app {S} n m (body : nat -> S -> exec (S * rres)) : forall lo s s', for_try n lo body s = Done (s', ROk) ->
  for_try (n + m) lo body s = for_try m (lo + n) body s'.
Proof.
  induction n as [|n IH]; intros lo s s' H; cbn [for_try Nat.add] in *; [injection H as <-; rewrite Nat.add_0_r; reflexivity|].
  destruct (body lo s) as [[t r]| |]; cbn [bind] in *; try discriminate. destruct r; [|discriminate].
  rewrite (IH _ _ _ H). f_equal. lia.
Qed.
Lemma for_try_one {S} lo (body : nat -> S -> exec (S * rres)) s s' : body lo s = Done (s', ROk) -> for_try 1 lo body s = Done (s', ROk).
Proof. intros H. cbn [for_try]. rewrite H. reflexivity. Qed.

Section LNd.
Context {T : Type} {F : Float T}.
Variable c : cfg.
Local Notation cx := (cx T).

(* an m-point transform is unaffected by earlier n-point ones *)
Definition right_after (n m : nat) : Prop :=
  padded n <= padded m \/ (is_pow2 n = true /\ n <= 16) \/ (is_pow2 m = true /\ (m <= 16 \/ c_kind c = OtherT)).
Definition fit (m : nat) (p : planner T) : Prop :=
  Inv c p /\ ((is_pow2 m = true /\ (m <= 16 \/ c_kind c = OtherT)) \/ (length (pl_sre p) <= padded m /\ length (pl_bscratch p) <= padded m)).
Lemma fit_new m : fit m new_planner.
Proof. split; [apply Inv_new|]. right. cbn. lia. Qed.
Lemma fit_ready m p : fit m p -> ready c p m.
Proof.
  intros [_ H]. unfold ready. destruct H as [[Hp H]|[H1 H2]].
  - rewrite Hp. unfold fits. destruct H; auto.
  - unfold padded in *. destruct (is_pow2 m); unfold fits_blue, fits; auto.
Qed.
Lemma right_after_refl n : right_after n n.
Proof. left. lia. Qed.
Definition keeps_fit (n : nat) (p p' : planner T) : Prop := forall m, right_after n m -> fit m p -> fit m p'.
Lemma fft_fit p (x : list cx) n : fit n p -> length x = n -> 0 < n -> c_std c = true \/ is_pow2 n = true ->
  exists p', fft c p x = Done (p', fft_fresh c x, ROk) /\ keeps_fit n p p'.
Proof.
  intros Hf <- Hn Hs. pose proof (fit_ready Hf) as Hr. destruct Hf as [HI _].
  destruct (@fft_ok T F c p x HI Hn Hs) as (p' & y & E & HI' & _ & Hy & Hsz). rewrite (Hy Hr) in E. exists p'. split; [exact E|].
  intros m Hra [_ Hm]. split; [exact HI'|]. destruct Hm as [Hm|[H1 H2]]; [left; exact Hm|]. destruct Hra as [Hra|[[Hp Hle]|Hra]]; [| |left; exact Hra].
  - right. apply Hsz; assumption.
  - right. destruct (@fft_pow2_ok T F c (fft_fuel c 5) p x HI Hp) as (p2 & E2 & _ & Hb & _ & Hl & _).
    assert (E3 : fft c p x = fft_body c (fft_fuel c 5) p x) by (unfold fft, FUEL; change (fft_fuel c 6) with (fft_body c (fft_fuel c 5)); reflexivity).
    rewrite E, E2 in E3. injection E3 as <- _. rewrite Hl, Hb. destruct (Nat.leb_spec (length x) 16); [auto|lia].
Qed.

Local Notation nthc l i := (nth i l czero).
Definition line (start stride n : nat) (data : list cx) : list cx := tab n (fun i => nthc data (start + i * stride)).
Definition line_done (f : list cx -> list cx) (start stride n : nat) (data data' : list cx) : Prop :=
  length data' = length data /\
  (forall i, i < n -> nthc data' (start + i * stride) = nthc (f (line start stride n data)) i) /\
  (forall q, (forall i, i < n -> q <> start + i * stride) -> nthc data' q = nthc data q).
Lemma fresh_len (x : list cx) : 0 < length x -> c_std c = true \/ is_pow2 (length x) = true -> length (fft_fresh c x) = length x.
Proof. intros. apply fresh_length; assumption. Qed.
Lemma fft_slice_line p data start n : fit n p -> 0 < n -> c_std c = true \/ is_pow2 n = true -> start + n <= length data ->
  exists p' data', fft_slice c start n (p, data) = Done (p', data', ROk) /\ line_done (fft_fresh c) start 1 n data data' /\ keeps_fit n p p'.
Proof.
  intros Hf Hn Hs Hl. unfold fft_slice. destruct (Nat.leb_spec (start + n) (length data)); [|lia].
  assert (El : firstn n (skipn start data) = line start 1 n data).
  { apply list_ext with (d := czero); unfold line; rewrite ?tab_length, ?firstn_length, ?skipn_length; [lia|]. intros i Hi.
    rewrite nth_firstn, nth_tab, nth_skipn by lia. f_equal. lia. }
  assert (Ll : length (line start 1 n data) = n) by apply tab_length.
  rewrite El. destruct (@fft_fit p (line start 1 n data) n Hf Ll Hn Hs) as (p' & E & Hk). rewrite E. cbn [bind].
  exists p'. eexists. split; [reflexivity|]. split; [|exact Hk]. set (y := fft_fresh c (line start 1 n data)).
  assert (Ly : length y = n) by (unfold y; rewrite fresh_len; rewrite Ll; auto).
  split; [rewrite !app_length, firstn_length, skipn_length; lia|]. split.
  - intros i Hi. rewrite app_nth2; rewrite firstn_length; [|lia]. rewrite app_nth1 by lia. f_equal. lia.
  - intros q Hq. destruct (Nat.lt_ge_cases q start) as [H1|H1].
    + rewrite app_nth1 by (rewrite firstn_length; lia). apply nth_firstn. exact H1.
    + assert (start + n <= q) by (destruct (Nat.lt_ge_cases q (start + n)); [exfalso; apply (Hq (q - start)); lia|assumption]).
      rewrite app_nth2; rewrite firstn_length; [|lia]. rewrite app_nth2 by lia. rewrite Ly, nth_skipn. f_equal. lia.
Qed.
Lemma strided_slice_line p data scratch start stride n : fit n p -> 0 < n -> c_std c = true \/ is_pow2 n = true -> length scratch = n -> 0 < stride ->
  start + (n - 1) * stride < length data ->
  exists p' data' scratch', strided_slice c start stride (p, data, scratch) = Done (p', data', scratch', ROk) /\
    line_done (fft_fresh c) start stride n data data' /\ length scratch' = n /\ keeps_fit n p p'.
Proof.
  intros Hf Hn Hs Hsc Hst Hl. unfold strided_slice, slice_from. assert (Hsd : start < length data) by (pose proof (Nat.le_0_l ((n - 1) * stride)); lia). destruct (Nat.leb_spec start (length data)); [|lia]. cbn [bind].
  destruct (@strided_ok T F c (fft c) p (skipn start data) stride scratch) as (p' & y & r & E & Ly & inp & E2 & Hsct).
  { apply op_sim_fft. } { apply Hf. } { exact Hst. } { lia. } { rewrite skipn_length. lia. }
  rewrite Hsc in *. assert (El : gather stride n (skipn start data) = line start stride n data).
  { apply tab_ext. intros i Hi. apply nth_skipn. }
  assert (Ll : length (line start stride n data) = n) by apply tab_length.
  rewrite El in E. destruct (@fft_fit p (line start stride n data) n Hf Ll Hn Hs) as (p2 & E3 & Hk). rewrite E in E3. injection E3 as <- -> ->.
  unfold fft_strided. rewrite E2. cbn [bind]. do 3 eexists. split; [reflexivity|]. split; [|split; [exact Ly|exact Hk]].
  destruct Hsct as (S1 & S2 & S3). rewrite skipn_length in S1. split; [rewrite app_length, firstn_length; lia|]. split.
  - intros i Hi. rewrite app_nth2; rewrite firstn_length; [|lia]. rewrite <- S2 by exact Hi. f_equal. lia.
  - intros q Hq. destruct (Nat.lt_ge_cases q start) as [H1|H1].
    + rewrite app_nth1 by (rewrite firstn_length; lia). apply nth_firstn. exact H1.
    + rewrite app_nth2; rewrite firstn_length; [|lia]. replace (Nat.min start (length data)) with start by lia. rewrite S3.
      * rewrite nth_skipn. f_equal. lia.
      * intros i Hi Hq2. apply (Hq i Hi). lia.
Qed.

(* K lines transformed one after the other *)
Definition lines_done (f : list cx -> list cx) (K : nat) (start : nat -> nat) (stride n : nat) (data data' : list cx) : Prop :=
  length data' = length data /\
  (forall j i, j < K -> i < n -> nthc data' (start j + i * stride) = nthc (f (line (start j) stride n data)) i) /\
  (forall q, (forall j i, j < K -> i < n -> q <> start j + i * stride) -> nthc data' q = nthc data q).
Definition separate (K : nat) (start : nat -> nat) (stride n : nat) : Prop :=
  forall j j' i i', j < K -> j' < K -> i < n -> i' < n -> start j + i * stride = start j' + i' * stride -> j = j'.
Lemma lines_0 f start stride n data : lines_done f 0 start stride n data data.
Proof. split; [reflexivity|]. split; intros; [lia|reflexivity]. Qed.
Lemma lines_S f K j start stride n data d1 d2 : separate K start stride n -> j < K -> lines_done f j start stride n data d1 ->
  line_done f (start j) stride n d1 d2 -> lines_done f (S j) start stride n data d2.
Proof.
  intros Hsep Hj (L1 & A1 & B1) (L2 & A2 & B2).
  assert (El : line (start j) stride n d1 = line (start j) stride n data).
  { apply tab_ext. intros i Hi. apply B1. intros j' i' Hj' Hi' E. assert (j = j') by (apply (Hsep j j' i i'); auto; lia). lia. }
  rewrite El in A2. split; [congruence|]. split.
  - intros j' i Hj' Hi. destruct (Nat.eq_dec j' j) as [->|Hne]; [apply A2; exact Hi|]. rewrite B2; [apply A1; lia|].
    intros i' Hi' E. apply Hne. apply (Hsep j' j i i'); auto; lia.
  - intros q Hq. rewrite B2; [apply B1|]; intros; apply Hq; lia.
Qed.
(* ---------------- two dimensions ---------------- *)
Lemma rows_separate rows cols : separate rows (fun r => r * cols) 1 cols.
Proof. intros j j' i i' _ _ Hi Hi' E. nia. Qed.
Lemma cols_separate cols rows : separate cols (fun k => k) cols rows.
Proof. intros j j' i i' Hj Hj' _ _ E. assert ((j + i * cols) mod cols = (j' + i' * cols) mod cols) by congruence. rewrite !Nat.mod_add, !Nat.mod_small in H by lia. exact H. Qed.
Lemma rows_phase p data rows cols : fit cols p -> 0 < cols -> c_std c = true \/ is_pow2 cols = true -> rows * cols <= length data ->
  exists p' data', for_try rows 0 (fun r => fft_slice c (r * cols) cols) (p, data) = Done (p', data', ROk) /\
    lines_done (fft_fresh c) rows (fun r => r * cols) 1 cols data data' /\ keeps_fit cols p p'.
Proof.
  intros Hf Hc Hs Hl.
  destruct (@for_try_inv _ (fun r '(p', d) => lines_done (fft_fresh c) r (fun r => r * cols) 1 cols data d /\ keeps_fit cols p p') rows
     (fun r => fft_slice c (r * cols) cols) 0 (p, data)) as ([p' d] & E & H1 & H2).
  - split; [apply lines_0|intros m _ H; exact H].
  - intros r [q d] Hr [Hd Hk]. destruct (@fft_slice_line q d (r * cols) cols) as (q' & d' & E & Hd' & Hk'); auto.
    { apply Hk; [apply right_after_refl|exact Hf]. } { destruct Hd as [-> _]. nia. }
    exists (q', d'). split; [exact E|]. split; [|intros m Hm Hm2; apply Hk'; auto].
    eapply lines_S with (K := rows); [apply rows_separate|lia|exact Hd|exact Hd'].
  - exists p', d. auto.
Qed.
Lemma cols_phase p data scratch rows cols : fit rows p -> 0 < rows -> 0 < cols -> c_std c = true \/ is_pow2 rows = true -> length data = rows * cols -> length scratch = rows ->
  exists p' data' scratch', for_try cols 0 (fun k => strided_slice c k cols) (p, data, scratch) = Done (p', data', scratch', ROk) /\
    lines_done (fft_fresh c) cols (fun k => k) cols rows data data' /\ keeps_fit rows p p' /\ length scratch' = rows.
Proof.
  intros Hf Hr Hc Hs Hl Hsc.
  destruct (@for_try_inv _ (fun k '(p', d, s) => lines_done (fft_fresh c) k (fun k => k) cols rows data d /\ keeps_fit rows p p' /\ length s = rows) cols
     (fun k => strided_slice c k cols) 0 (p, data, scratch)) as ([[p' d] s] & E & H1 & H2).
  - split; [apply lines_0|]. split; [intros m _ H; exact H|exact Hsc].
  - intros k [[q d] s] Hk (Hd & Hkp & Hls). destruct (@strided_slice_line q d s k cols rows) as (q' & d' & s' & E & Hd' & Ls' & Hk'); auto.
    { apply Hkp; [apply right_after_refl|exact Hf]. } { destruct Hd as [-> _]. rewrite Hl. nia. }
    exists (q', d', s'). split; [exact E|]. split; [|split; [intros m Hm Hm2; apply Hk'; auto|exact Ls']].
    eapply lines_S with (K := cols); [apply cols_separate|lia|exact Hd|exact Hd'].
  - exists p', d, s. tauto.
Qed.
(* whatever the object holds: succeeds, and touches its line only *)
Lemma strided_slice_any p data scratch start stride n : Inv c p -> 0 < n -> c_std c = true \/ is_pow2 n = true -> length scratch = n -> 0 < stride ->
  start + (n - 1) * stride < length data ->
  exists p' data' scratch' y q, strided_slice c start stride (p, data, scratch) = Done (p', data', scratch', ROk) /\ Inv c p' /\
    fft c p (line start stride n data) = Done (q, y, ROk) /\ line_done (fun _ => y) start stride n data data' /\ length scratch' = n.
Proof.
  intros HI Hn Hs Hsc Hst Hl. unfold strided_slice, slice_from. assert (Hsd : start < length data) by (pose proof (Nat.le_0_l ((n - 1) * stride)); lia).
  destruct (Nat.leb_spec start (length data)); [|lia]. cbn [bind].
  destruct (@strided_ok T F c (fft c) p (skipn start data) stride scratch) as (p' & y & r & E & Ly & inp & E2 & Hsct).
  { apply op_sim_fft. } { exact HI. } { exact Hst. } { lia. } { rewrite skipn_length. lia. }
  rewrite Hsc in *. assert (El : gather stride n (skipn start data) = line start stride n data).
  { apply tab_ext. intros i Hi. apply nth_skipn. }
  assert (Ll : length (line start stride n data) = n) by apply tab_length.
  rewrite El in E. destruct (@fft_ok T F c p (line start stride n data) HI) as (p2 & y2 & E3 & HI2 & _); [lia|rewrite Ll; exact Hs|].
  rewrite E in E3. injection E3 as <- <- ->.
  unfold fft_strided. rewrite E2. cbn [bind]. do 5 eexists. split; [reflexivity|]. split; [exact HI2|]. split; [exact E|]. split; [|exact Ly].
  destruct Hsct as (S1 & S2 & S3). rewrite skipn_length in S1. split; [rewrite app_length, firstn_length; lia|]. split.
  - intros i Hi. rewrite app_nth2; rewrite firstn_length; [|lia]. rewrite <- S2 by exact Hi. f_equal. lia.
  - intros q Hq. destruct (Nat.lt_ge_cases q start) as [H1|H1].
    + rewrite app_nth1 by (rewrite firstn_length; lia). apply nth_firstn. exact H1.
    + rewrite app_nth2; rewrite firstn_length; [|lia]. replace (Nat.min start (length data)) with start by lia. rewrite S3.
      * rewrite nth_skipn. f_equal. lia.
      * intros i Hi Hq2. apply (Hq i Hi). lia.
Qed.

(* ---------------- three dimensions ---------------- *)
Lemma depth_phase p data scratch depth rows cols : fit depth p -> 0 < depth -> 0 < rows -> 0 < cols -> c_std c = true \/ is_pow2 depth = true ->
  length data = depth * rows * cols -> length scratch = depth ->
  exists p' data' scratch', for_try rows 0 (fun r => for_try cols 0 (fun k => strided_slice c (r * cols + k) (rows * cols))) (p, data, scratch) = Done (p', data', scratch', ROk) /\
    lines_done (fft_fresh c) (rows * cols) (fun j => j) (rows * cols) depth data data' /\ keeps_fit depth p p' /\ length scratch' = depth.
Proof.
  intros Hf Hd Hr Hc Hs Hl Hsc.
  destruct (@for_try_nest _ (fun k '(p', d, s) => lines_done (fft_fresh c) k (fun k => k) (rows * cols) depth data d /\ keeps_fit depth p p' /\ length s = depth) rows cols
     (fun r k => strided_slice c (r * cols + k) (rows * cols)) (p, data, scratch)) as ([[p' d] s] & E & H1 & H2).
  - split; [apply lines_0|]. split; [intros m _ H; exact H|exact Hsc].
  - intros a b [[q d] s] Ha Hb (Hdd & Hkp & Hls). assert (Hlt : a * cols + b < rows * cols) by nia.
    destruct (@strided_slice_line q d s (a * cols + b) (rows * cols) depth) as (q' & d' & s' & E & Hd' & Ls' & Hk'); auto; [|nia| |].
    { apply Hkp; [apply right_after_refl|exact Hf]. } { destruct Hdd as [-> _]. rewrite Hl. nia. }
    exists (q', d', s'). split; [exact E|]. split; [|split; [intros m Hm Hm2; apply Hk'; auto|exact Ls']].
    eapply lines_S with (K := rows * cols); [apply cols_separate|exact Hlt|exact Hdd|exact Hd'].
  - exists p', d, s. tauto.
Qed.
Lemma pair_unique n a a' b b' : b < n -> b' < n -> a * n + b = a' * n + b' -> a = a' /\ b = b'.
Proof. intros Hb Hb' E. destruct (Nat.div_mod_unique n a a' b b' Hb Hb'); [lia|]. auto. Qed.
Definition plane_start (rows cols j : nat) : nat := j / cols * rows * cols + j mod cols.
Lemma plane_separate K rows cols : 0 < cols -> separate K (plane_start rows cols) cols rows.
Proof.
  intros Hc j j' i i' _ _ Hi Hi' E. unfold plane_start in E. enough (Eq : j / cols = j' / cols /\ j mod cols = j' mod cols).
  { destruct Eq as [Eq Em]. rewrite (Nat.div_mod_eq j cols), (Nat.div_mod_eq j' cols), Em, Eq. reflexivity. }
  replace (j / cols * rows * cols + j mod cols + i * cols) with (j mod cols + (j / cols * rows + i) * cols) in E by ring.
  replace (j' / cols * rows * cols + j' mod cols + i' * cols) with (j' mod cols + (j' / cols * rows + i') * cols) in E by ring.
  pose proof (Nat.mod_upper_bound j cols ltac:(lia)). pose proof (Nat.mod_upper_bound j' cols ltac:(lia)).
  destruct (@pair_unique cols (j / cols * rows + i) (j' / cols * rows + i') (j mod cols) (j' mod cols)) as [Ed Em]; auto; [lia|].
  destruct (@pair_unique rows (j / cols) (j' / cols) i i') as [Eq _]; auto.
Qed.
Lemma divmod_pair cols a b : b < cols -> (a * cols + b) / cols = a /\ (a * cols + b) mod cols = b.
Proof. intros H. rewrite Nat.add_comm. split; [rewrite Nat.div_add, Nat.div_small by lia; lia|rewrite Nat.mod_add, Nat.mod_small by lia; reflexivity]. Qed.
Lemma plane_phase p data scratch depth rows cols : fit rows p -> 0 < depth -> 0 < rows -> 0 < cols -> c_std c = true \/ is_pow2 rows = true ->
  length data = depth * rows * cols -> length scratch = rows ->
  exists p' data' scratch', for_try depth 0 (fun d => for_try cols 0 (fun k => strided_slice c (d * rows * cols + k) cols)) (p, data, scratch) = Done (p', data', scratch', ROk) /\
    lines_done (fft_fresh c) (depth * cols) (plane_start rows cols) cols rows data data' /\ keeps_fit rows p p' /\ length scratch' = rows.
Proof.
  intros Hf Hd Hr Hc Hs Hl Hsc.
  destruct (@for_try_nest _ (fun k '(p', d, s) => lines_done (fft_fresh c) k (plane_start rows cols) cols rows data d /\ keeps_fit rows p p' /\ length s = rows) depth cols
     (fun d k => strided_slice c (d * rows * cols + k) cols) (p, data, scratch)) as ([[p' d] s] & E & H1 & H2).
  - split; [apply lines_0|]. split; [intros m _ H; exact H|exact Hsc].
  - intros a b [[q d] s] Ha Hb (Hdd & Hkp & Hls). destruct (divmod_pair a Hb) as [E1 E2].
    assert (Est : plane_start rows cols (a * cols + b) = a * rows * cols + b) by (unfold plane_start; rewrite E1, E2; reflexivity).
    destruct (@strided_slice_line q d s (a * rows * cols + b) cols rows) as (q' & d' & s' & E & Hd' & Ls' & Hk'); auto.
    { apply Hkp; [apply right_after_refl|exact Hf]. }
    { destruct Hdd as [-> _]. rewrite Hl. assert ((a + 1) * (rows * cols) <= depth * (rows * cols)) by (apply Nat.mul_le_mono_r; lia). nia. }
    exists (q', d', s'). split; [exact E|]. split; [|split; [intros m Hm Hm2; apply Hk'; auto|exact Ls']].
    eapply lines_S with (K := depth * cols); [apply plane_separate; exact Hc|nia|exact Hdd|rewrite Est; exact Hd'].
  - exists p', d, s. tauto.
Qed.
Lemma rows3_phase p data depth rows cols : fit cols p -> 0 < cols -> c_std c = true \/ is_pow2 cols = true -> length data = depth * rows * cols ->
  exists p' data', for_try depth 0 (fun d => for_try rows 0 (fun r => fft_slice c (d * rows * cols + r * cols) cols)) (p, data) = Done (p', data', ROk) /\
    lines_done (fft_fresh c) (depth * rows) (fun r => r * cols) 1 cols data data' /\ keeps_fit cols p p'.
Proof.
  intros Hf Hc Hs Hl.
  destruct (@for_try_nest _ (fun r '(p', d) => lines_done (fft_fresh c) r (fun r => r * cols) 1 cols data d /\ keeps_fit cols p p') depth rows
     (fun d r => fft_slice c (d * rows * cols + r * cols) cols) (p, data)) as ([p' d] & E & H1 & H2).
  - split; [apply lines_0|intros m _ H; exact H].
  - intros a b [q d] Ha Hb [Hd Hk]. replace (a * rows * cols + b * cols) with ((a * rows + b) * cols) by ring.
    destruct (@fft_slice_line q d ((a * rows + b) * cols) cols) as (q' & d' & E & Hd' & Hk'); auto.
    { apply Hk; [apply right_after_refl|exact Hf]. } { destruct Hd as [-> _]. rewrite Hl. assert (a * rows + b + 1 <= depth * rows) by nia. nia. }
    exists (q', d'). split; [exact E|]. split; [|intros m Hm Hm2; apply Hk'; auto].
    eapply lines_S with (K := depth * rows); [apply rows_separate|nia|exact Hd|exact Hd'].
  - exists p', d. auto.
Qed.
End LNd.

(* Exact arithmetic: the closed forms of L_fft.v are the DFT. *)
From Coq Require Import ZArith ZifyBool ZifyNat Lra Qreals.
From Verif Require Export RC L_fft.
Ltac Zify.zify_post_hook ::= Z.div_mod_to_equations.
Set Implicit Arguments.

Lemma Q2R_2 : Q2R 2 = 2%R.
Proof. unfold Q2R. cbn. lra. Qed.

Ltac cring := ring.

(* ---------- decimation in time ---------- *)
Lemma dft_even_odd n x k : 0 < n ->
  dft (2 * n) x k = dft n (fun i => x (2 * i)) k +c W (2 * n) k *c dft n (fun i => x (2 * i + 1)) k.
Proof.
  intros Hn. unfold dft. rewrite csum_even_odd. f_equal.
  - apply csum_ext. intros i Hi. f_equal. rewrite <- Nat.mul_assoc. apply W_scale; lia.
  - rewrite <- csum_scal. apply csum_ext. intros i Hi.
    replace ((2 * i + 1) * k) with (2 * (i * k) + k) by lia.
    rewrite W_add by lia. rewrite W_scale by lia. ring.
Qed.
Lemma dft_period n x k : 0 < n -> dft n x (k + n) = dft n x k.
Proof.
  intros Hn. apply csum_ext. intros j Hj. f_equal.
  rewrite Nat.mul_add_distr_l, W_add, W_n by lia. ring.
Qed.
Lemma dft_hi n x k : 0 < n ->
  dft (2 * n) x (k + n) = dft n (fun i => x (2 * i)) k -c W (2 * n) k *c dft n (fun i => x (2 * i + 1)) k.
Proof.
  intros Hn. rewrite dft_even_odd, !dft_period, W_half by exact Hn. ring.
Qed.
Lemma dft_1 x : dft 1 x 0 = x 0.
Proof. unfold dft. cbn [csum Nat.mul]. rewrite W_0. ring. Qed.
Lemma dft_2 x : dft 2 x 0 = x 0 +c x 1 /\ dft 2 x 1 = x 0 -c x 1.
Proof.
  pose proof (@dft_even_odd 1 x 0 ltac:(lia)) as H0. pose proof (@dft_hi 1 x 0 ltac:(lia)) as H1.
  cbn [Nat.mul Nat.add] in *. rewrite H0, H1, !dft_1, W_0. cbn [Nat.add]. split; ring.
Qed.

Lemma W_8_1 : W 8 1 = mkcx (cos (PI / 4)) (- cos (PI / 4))%R.
Proof.
  unfold W, cis. cbn [INR]. apply C_eq; cbn [re im].
  - rewrite cos_neg. f_equal. field.
  - rewrite sin_neg. replace (2 * PI * 1 / (1 + 1 + 1 + 1 + 1 + 1 + 1 + 1))%R with (PI / 4)%R by field.
    rewrite sin_cos_PI4. reflexivity.
Qed.
Lemma W_4_1 : W 4 1 = mkcx 0%R (- (1))%R.
Proof.
  unfold W, cis. cbn [INR]. replace (2 * PI * 1 / (1 + 1 + 1 + 1))%R with (PI / 2)%R by field.
  apply C_eq; cbn [re im]; rewrite ?cos_neg, ?sin_neg, ?cos_PI2, ?sin_PI2; reflexivity.
Qed.
Lemma W_8_2 : W 8 2 = mkcx 0%R (- (1))%R.
Proof. rewrite <- W_4_1. exact (@W_scale 4 2 1 ltac:(lia) ltac:(lia)). Qed.
Lemma cos_PI4_sq : (2 * (cos (PI / 4) * cos (PI / 4)) = 1)%R.
Proof.
  pose proof (sin2_cos2 (PI / 4)) as H. rewrite sin_cos_PI4 in H. unfold Rsqr in H. lra.
Qed.
Lemma W_8_3 : W 8 3 = mkcx (- cos (PI / 4))%R (- cos (PI / 4))%R.
Proof.
  change (W 8 3) with (W 8 (1 + 2)). rewrite W_add, W_8_1, W_8_2 by lia. creal; ring.
Qed.
Lemma W_16_1 : W 16 1 = mkcx (cos (PI / 8)) (- sin (PI / 8))%R.
Proof.
  unfold W, cis. rewrite INR_IZR_INZ. cbn [INR Z.of_nat Pos.of_succ_nat Pos.succ].
  apply C_eq; cbn [re im].
  - rewrite cos_neg. f_equal. field.
  - rewrite sin_neg. do 2 f_equal. field.
Qed.
Lemma W_16_3 : W 16 3 = mkcx (sin (PI / 8)) (- cos (PI / 8))%R.
Proof.
  unfold W, cis. rewrite (INR_IZR_INZ 16). cbn [INR Z.of_nat Pos.of_succ_nat Pos.succ].
  replace (2 * PI * (1 + 1 + 1) / 16)%R with (PI / 2 - PI / 8)%R by field.
  apply C_eq; cbn [re im].
  - rewrite cos_neg. rewrite cos_minus, cos_PI2, sin_PI2. ring.
  - rewrite sin_neg, sin_minus, cos_PI2, sin_PI2. ring.
Qed.
Lemma W_16_even k : W 16 (2 * k) = W 8 k.
Proof. exact (@W_scale 8 2 k ltac:(lia) ltac:(lia)). Qed.
Lemma W_16_2 : W 16 2 = mkcx (cos (PI / 4)) (- cos (PI / 4))%R.
Proof. rewrite <- W_8_1. apply (W_16_even 1). Qed.
Lemma W_16_4 : W 16 4 = mkcx 0%R (- (1))%R.
Proof. rewrite <- W_8_2. apply (W_16_even 2). Qed.
Lemma W_16_6 : W 16 6 = mkcx (- cos (PI / 4))%R (- cos (PI / 4))%R.
Proof. rewrite <- W_8_3. apply (W_16_even 3). Qed.
Lemma W_16_5 : W 16 5 = mkcx (- sin (PI / 8))%R (- cos (PI / 8))%R.
Proof. change (W 16 5) with (W 16 (1 + 4)). rewrite W_add, W_16_1, W_16_4 by lia. creal; ring. Qed.
Lemma W_16_7 : W 16 7 = mkcx (- cos (PI / 8))%R (- sin (PI / 8))%R.
Proof. change (W 16 7) with (W 16 (3 + 4)). rewrite W_add, W_16_3, W_16_4 by lia. creal; ring. Qed.

Lemma dft_4 x :
  dft 4 x 0 = x 0 +c x 2 +c (x 1 +c x 3) /\
  dft 4 x 1 = x 0 -c x 2 +c (x 1 -c x 3) *c mkcx 0%R (- (1))%R /\
  dft 4 x 2 = x 0 +c x 2 -c (x 1 +c x 3) /\
  dft 4 x 3 = x 0 -c x 2 -c (x 1 -c x 3) *c mkcx 0%R (- (1))%R.
Proof.
  pose proof (@dft_even_odd 2 x 0 ltac:(lia)) as H0. pose proof (@dft_even_odd 2 x 1 ltac:(lia)) as H1.
  pose proof (@dft_hi 2 x 0 ltac:(lia)) as H2. pose proof (@dft_hi 2 x 1 ltac:(lia)) as H3.
  cbn [Nat.mul Nat.add] in *.
  destruct (dft_2 (fun i => x (i + (i + 0)))) as [E0 E1].
  destruct (dft_2 (fun i => x (i + (i + 0) + 1))) as [F0 F1].
  rewrite H0, H1, H2, H3, E0, E1, F0, F1, W_0, W_4_1. cbn [Nat.add].
  repeat split; ring.
Qed.
Lemma dft_8 x k : k < 4 -> dft 8 x k = dft 4 (fun i => x (2 * i)) k +c W 8 k *c dft 4 (fun i => x (2 * i + 1)) k
  /\ dft 8 x (k + 4) = dft 4 (fun i => x (2 * i)) k -c W 8 k *c dft 4 (fun i => x (2 * i + 1)) k.
Proof. intros _. split; [apply (@dft_even_odd 4)|apply (@dft_hi 4)]; lia. Qed.

Section KernelsR.
Variable c : cfg.
Ltac kclean := cbn [fneg fone fzero fk707 fk924 fk383 RF RFloat_of]; rewrite ?cmul_R; change (@cadd R RF) with Cadd; change (@csub R RF) with Csub.
Lemma fft2_R x : length x = 2 -> fft2 x = Done (DFT x).
Proof.
  intros H. do 2 (destruct x as [|? x]; [discriminate|]). destruct x; [|discriminate].
  cbn [fft2]. unfold DFT. cbn [length tab seq map].
  destruct (dft_2 (at_ [c0; c1])) as [-> ->]. reflexivity.
Qed.
Lemma fft4_R x : length x = 4 -> fft4 c x = Done (DFT x).
Proof.
  intros H. do 4 (destruct x as [|? x]; [discriminate|]). destruct x; [|discriminate].
  cbn [fft4]. unfold DFT. cbn [length tab seq map].
  destruct (dft_4 (at_ [c0; c1; c2; c3])) as (-> & -> & -> & ->).
  cbv zeta. kclean. reflexivity.
Qed.
Lemma fft8_R x : length x = 8 -> fft8 c x = Done (DFT x).
Proof.
  intros H. do 8 (destruct x as [|? x]; [discriminate|]). destruct x; [|discriminate].
  cbn [fft8]. unfold DFT. cbn [length tab seq map].
  set (f := at_ _).
  destruct (@dft_8 f 0 ltac:(lia)) as [-> A0]. destruct (@dft_8 f 1 ltac:(lia)) as [-> A1].
  destruct (@dft_8 f 2 ltac:(lia)) as [-> A2]. destruct (@dft_8 f 3 ltac:(lia)) as [-> A3].
  cbn [Nat.add] in A0, A1, A2, A3. rewrite A0, A1, A2, A3. clear A0 A1 A2 A3.
  destruct (dft_4 (fun i => f (2 * i))) as (-> & -> & -> & ->).
  destruct (dft_4 (fun i => f (2 * i + 1))) as (-> & -> & -> & ->).
  rewrite W_0, W_8_1, W_8_2, W_8_3. cbn [Nat.mul Nat.add]. subst f. unfold at_; cbn [nth].
  cbv zeta. kclean. apply f_equal.
  repeat (apply (f_equal2 cons); [cring|]). reflexivity.
Qed.
Lemma dft_16 x k : dft 16 x k = dft 8 (fun i => x (2 * i)) k +c W 16 k *c dft 8 (fun i => x (2 * i + 1)) k
  /\ dft 16 x (k + 8) = dft 8 (fun i => x (2 * i)) k -c W 16 k *c dft 8 (fun i => x (2 * i + 1)) k.
Proof. split; [apply (@dft_even_odd 8)|apply (@dft_hi 8)]; lia. Qed.
Lemma dft_8_all f :
  [dft 8 f 0; dft 8 f 1; dft 8 f 2; dft 8 f 3; dft 8 f 4; dft 8 f 5; dft 8 f 6; dft 8 f 7] =
  let w1 := mkcx 0%R (- (1))%R in let s := cos (PI / 4) in
  let e0 := f 0 +c f 4 +c (f 2 +c f 6) in let e1 := f 0 -c f 4 +c (f 2 -c f 6) *c w1 in
  let e2 := f 0 +c f 4 -c (f 2 +c f 6) in let e3 := f 0 -c f 4 -c (f 2 -c f 6) *c w1 in
  let o0 := f 1 +c f 5 +c (f 3 +c f 7) in let o1 := (f 1 -c f 5 +c (f 3 -c f 7) *c w1) *c mkcx s (- s)%R in
  let o2 := (f 1 +c f 5 -c (f 3 +c f 7)) *c w1 in let o3 := (f 1 -c f 5 -c (f 3 -c f 7) *c w1) *c mkcx (- s)%R (- s)%R in
  [e0 +c o0; e1 +c o1; e2 +c o2; e3 +c o3; e0 -c o0; e1 -c o1; e2 -c o2; e3 -c o3].
Proof.
  destruct (@dft_8 f 0 ltac:(lia)) as [-> A0]. destruct (@dft_8 f 1 ltac:(lia)) as [-> A1].
  destruct (@dft_8 f 2 ltac:(lia)) as [-> A2]. destruct (@dft_8 f 3 ltac:(lia)) as [-> A3].
  cbn [Nat.add] in A0, A1, A2, A3. rewrite A0, A1, A2, A3. clear A0 A1 A2 A3.
  destruct (dft_4 (fun i => f (2 * i))) as (-> & -> & -> & ->).
  destruct (dft_4 (fun i => f (2 * i + 1))) as (-> & -> & -> & ->).
  rewrite W_0, W_8_1, W_8_2, W_8_3. cbn [Nat.mul Nat.add]. cbv zeta.
  repeat (apply (f_equal2 cons); [cring|]). reflexivity.
Qed.
Lemma list8_inv {A} (a b d e f g h i a' b' d' e' f' g' h' i' : A) :
  [a; b; d; e; f; g; h; i] = [a'; b'; d'; e'; f'; g'; h'; i'] ->
  a = a' /\ b = b' /\ d = d' /\ e = e' /\ f = f' /\ g = g' /\ h = h' /\ i = i'.
Proof. intros H. injection H. auto 10. Qed.
Lemma fft16_R x : length x = 16 -> fft16 c x = Done (DFT x).
Proof.
  intros H. do 16 (destruct x as [|? x]; [discriminate|]). destruct x; [|discriminate].
  cbn [fft16]. unfold DFT. cbn [length tab seq map].
  set (f := at_ _).
  do 8 match goal with |- context [dft 16 f ?k] => let E := fresh in
    destruct (dft_16 f k) as [-> E]; cbn [Nat.add] in E; rewrite E; clear E end.
  pose proof (dft_8_all (fun i => f (2 * i))) as E. cbv zeta in E.
  destruct (list8_inv E) as (-> & -> & -> & -> & -> & -> & -> & ->). clear E.
  pose proof (dft_8_all (fun i => f (2 * i + 1))) as E. cbv zeta in E.
  destruct (list8_inv E) as (-> & -> & -> & -> & -> & -> & -> & ->). clear E.
  rewrite W_0, W_16_1, W_16_2, W_16_3, W_16_4, W_16_5, W_16_6, W_16_7.
  cbn [Nat.mul Nat.add]. subst f. unfold at_; cbn [nth].
  cbv zeta. kclean. apply f_equal.
  repeat (apply (f_equal2 cons); [cring|]). reflexivity.
Qed.
Lemma small_fft_R x : is_pow2 (length x) = true -> 1 < length x <= 16 -> small_fft c x = DFT x.
Proof.
  intros H1 H2. unfold small_fft, small_kernel.
  destruct (small_cases H1 ltac:(lia)) as [E|[E|[E|[E|E]]]]; [lia| | | |]; rewrite E; cbn [Nat.eqb].
  - rewrite fft2_R by exact E. reflexivity.
  - rewrite fft4_R by exact E. reflexivity.
  - rewrite fft8_R by exact E. reflexivity.
  - rewrite fft16_R by exact E. reflexivity.
Qed.

(* ---------- twiddle tables ---------- *)
Lemma tw_loop_R n t : forall d i, i < n ->
  nth i (tw_loop n (cos t) (sin t) (cos d) (sin d)) czero = cis (d + INR i * t).
Proof.
  induction n as [|n IH]; intros d i Hi; [lia|]. cbn [tw_loop].
  destruct i as [|i]; cbn [nth].
  - cbn [INR]. rewrite Rmult_0_l, Rplus_0_r. reflexivity.
  - cbn [fmul_add fneg fmul RF RFloat_of].
    replace (cos d * cos t + - (sin d * sin t))%R with (cos (d + t)) by (rewrite cos_plus; ring).
    replace (sin d * cos t + cos d * sin t)%R with (sin (d + t)) by (rewrite sin_plus; ring).
    rewrite IH by lia. f_equal. rewrite S_INR. ring.
Qed.
Lemma tw_table_R n k : k < n / 2 -> nthc (tw_table n) k = W n k.
Proof.
  intros Hk. unfold nthc, tw_table. cbn [fsin_cos fdiv fmul fneg flit fpi fofnat fone fzero RF RFloat_of].
  rewrite Q2R_2. set (t := (- (2) * PI / INR n)%R).
  pose proof (@tw_loop_R (n / 2) t 0%R k Hk) as E. rewrite cos_0, sin_0 in E. rewrite E. unfold W. f_equal. unfold t.
  assert (0 < n) by lia. field. apply INR_neq0. assumption.
Qed.
Lemma pre_table_R n k : k < n / 2 -> nthc (pre_table n) k = W n k.
Proof.
  intros Hk. unfold nthc, pre_table. rewrite nth_tab by exact Hk.
  cbn [fcos fsin freparse fdiv fmul fneg flit fpi fofnat RF RFloat_of]. rewrite Q2R_2.
  unfold W, cis. assert (0 < n) by lia. pose proof (INR_neq0 H).
  f_equal; f_equal; field; assumption.
Qed.
Lemma twf_R n k : k < n / 2 -> nthc (twf c n) k = W n k.
Proof.
  intros Hk. unfold twf, lookup_pre. destruct (_ && _); [apply pre_table_R|apply tw_table_R]; exact Hk.
Qed.

(* ---------- Stockham ---------- *)
Lemma stage_fun_R (tw : nat -> C) mul n1 n2 (src : nat -> C) k j :
  (forall a b, mul a b = a *c b) -> j < n2 -> k < n1 ->
  stage_fun mul tw n1 n2 src (k * n2 + j) = src (k * (2 * n2) + j) +c src (k * (2 * n2) + (j + n2)) *c tw (k * n2) /\
  stage_fun mul tw n1 n2 src ((k + n1) * n2 + j) = src (k * (2 * n2) + j) -c src (k * (2 * n2) + (j + n2)) *c tw (k * n2).
Proof.
  intros Hm Hj Hk. unfold stage_fun.
  assert (D1 : (k * n2 + j) / n2 = k) by (apply div_iff; lia).
  assert (D2 : ((k + n1) * n2 + j) / n2 = k + n1) by (apply div_iff; lia).
  rewrite D1, D2, (@mod_of_div _ k), (@mod_of_div _ (k + n1)) by lia.
  destruct (Nat.ltb_spec k n1); [|lia]. destruct (Nat.ltb_spec (k + n1) n1); [lia|].
  replace (k + n1 - n1) with k by lia.
  replace (2 * k * n2 + (k * n2 + j - k * n2)) with (k * (2 * n2) + j) by lia.
  replace (2 * k * n2 + n2 + (k * n2 + j - k * n2)) with (k * (2 * n2) + (j + n2)) by lia.
  replace (2 * k * n2 + ((k + n1) * n2 + j - (k + n1) * n2)) with (k * (2 * n2) + j) by lia.
  replace (2 * k * n2 + n2 + ((k + n1) * n2 + j - (k + n1) * n2)) with (k * (2 * n2) + (j + n2)) by lia.
  rewrite !Hm. split; reflexivity.
Qed.

Lemma stk_fun_R mul (tw : nat -> C) L x s : (forall a b, mul a b = a *c b) ->
  (forall k, k < 2 ^ L / 2 -> tw k = W (2 ^ L) k) -> s <= L ->
  forall k j, k < 2 ^ s -> j < 2 ^ (L - s) ->
   stk_fun mul tw (2 ^ L) s x (k * 2 ^ (L - s) + j) = dft (2 ^ s) (fun m => x (j + m * 2 ^ (L - s))) k.
Proof.
  intros Hm Htw. induction s as [|s IH]; intros Hs k j Hk Hj.
  - cbn [stk_fun Nat.pow]. assert (k = 0) by (cbn in Hk; lia). subst k. rewrite dft_1. f_equal. lia.
  - cbn [stk_fun].
    assert (EN : 2 ^ L = 2 ^ (S s) * 2 ^ (L - S s)) by (rewrite <- Nat.pow_add_r; f_equal; lia).
    assert (Hd : 2 ^ L / 2 ^ S s = 2 ^ (L - S s)).
    { rewrite EN, Nat.mul_comm, Nat.div_mul by (apply Nat.pow_nonzero; lia). reflexivity. }
    rewrite Hd. set (n2 := 2 ^ (L - S s)) in *.
    assert (E2 : 2 ^ (L - s) = 2 * n2).
    { unfold n2. rewrite <- Nat.pow_succ_r'. f_equal. lia. }
    rewrite Nat.pow_succ_r' in *. set (n1 := 2 ^ s) in *.
    assert (Hn1 : 0 < n1) by apply pow2_pos. assert (Hn2 : 0 < n2) by apply pow2_pos.
    specialize (IH ltac:(lia)). rewrite E2 in IH.
    assert (Htk : forall k, k < n1 -> tw (k * n2) = W (2 * n1) k).
    { intros k' Hk'. rewrite Htw.
      - rewrite EN. rewrite (Nat.mul_comm k'), (Nat.mul_comm (2 * n1)). apply W_scale; lia.
      - rewrite EN. apply Nat.div_le_lower_bound; nia. }
    destruct (Nat.lt_ge_cases k n1) as [Hk1|Hk1].
    + destruct (@stage_fun_R tw mul n1 n2 (stk_fun mul tw (2 ^ L) s x) k j Hm Hj Hk1) as [-> _].
      rewrite !IH by lia. rewrite Htk by exact Hk1. rewrite dft_even_odd by exact Hn1.
      rewrite (@dft_ext n1 (fun m => x (j + m * (2 * n2))) (fun i => x (j + 2 * i * n2))) by (intros; f_equal; lia).
      rewrite (@dft_ext n1 (fun m => x (j + n2 + m * (2 * n2))) (fun i => x (j + (2 * i + 1) * n2)))
        by (intros; f_equal; lia).
      cring.
    + replace k with ((k - n1) + n1) by lia.
      destruct (@stage_fun_R tw mul n1 n2 (stk_fun mul tw (2 ^ L) s x) (k - n1) j Hm Hj ltac:(lia)) as [_ ->].
      rewrite !IH by lia. rewrite Htk by lia. rewrite dft_hi by exact Hn1.
      rewrite (@dft_ext n1 (fun m => x (j + m * (2 * n2))) (fun i => x (j + 2 * i * n2))) by (intros; f_equal; lia).
      rewrite (@dft_ext n1 (fun m => x (j + n2 + m * (2 * n2))) (fun i => x (j + (2 * i + 1) * n2)))
        by (intros; f_equal; lia).
      cring.
Qed.
Lemma stkp_R mul x : (forall a b, mul a b = a *c b) -> is_pow2 (length x) = true -> stkp c mul x = DFT x.
Proof.
  intros Hm Hp. apply is_pow2_iff in Hp. destruct Hp as [L HL].
  unfold stkp, DFT. rewrite HL, Nat.log2_pow2 by lia. apply tab_ext. intros k Hk.
  replace k with (k * 2 ^ (L - L) + 0) at 1 by (rewrite Nat.sub_diag; cbn; lia).
  rewrite stk_fun_R; try assumption; try lia.
  - apply dft_ext. intros i Hi. rewrite Nat.sub_diag. cbn [Nat.pow]. unfold nthc, at_. f_equal. lia.
  - intros i Hi. apply twf_R. exact Hi.
Qed.
Lemma mulk_R a b : mulk c a b = a *c b.
Proof. unfold mulk. destruct (c_kind c); [apply cmul_plain_R|apply cmul_plain_R|apply cmul_R]. Qed.
Lemma pow2fft_R x : is_pow2 (length x) = true -> pow2fft c x = DFT x.
Proof.
  intros Hp. unfold pow2fft. destruct (Nat.leb_spec (length x) 1).
  - assert (length x = 1). { apply is_pow2_iff in Hp. destruct Hp as [L E]. pose proof (pow2_pos L). lia. }
    destruct x as [|a [|]]; try discriminate. unfold DFT. cbn [length tab seq map]. rewrite dft_1. reflexivity.
  - destruct (Nat.leb_spec (length x) 16); [apply small_fft_R; [exact Hp|lia]|].
    apply stkp_R; [apply mulk_R|exact Hp].
Qed.

(* ---------- circular convolution ---------- *)
Definition cconv (m : nat) (a b : nat -> C) (k : nat) : C :=
  csum m (fun j => a j *c b ((k + (m - j)) mod m)).
Lemma W_cong n a b : 0 < n -> a mod n = b mod n -> W n a = W n b.
Proof. intros Hn H. rewrite <- (W_mod a Hn), <- (W_mod b Hn), H. reflexivity. Qed.
Lemma dft_cconv m a b k : 0 < m -> dft m (cconv m a b) k = dft m a k *c dft m b k.
Proof.
  intros Hm. unfold dft at 1, cconv.
  rewrite (@csum_ext m _ (fun t => csum m (fun j => a j *c b ((t + (m - j)) mod m) *c W m (t * k))))
    by (intros; rewrite csum_scal_r; reflexivity).
  rewrite csum_swap. unfold dft. rewrite <- csum_scal_r. apply csum_ext. intros j Hj.
  rewrite (@csum_ext m _ (fun t => a j *c W m (j * k) *c
     (fun u => b u *c W m (u * k)) ((t + (m - j)) mod m))).
  - rewrite csum_scal. rewrite (@csum_cyclic_mod m (m - j) (fun u => b u *c W m (u * k))) by exact Hm. reflexivity.
  - intros t Ht. cbv beta.
    assert (E : W m (t * k) = W m (j * k) *c W m ((t + (m - j)) mod m * k)).
    { rewrite <- W_add by exact Hm. apply W_cong; [exact Hm|].
      rewrite <- Nat.mul_add_distr_r. rewrite <- Nat.mul_mod_idemp_l by lia.
      rewrite <- (Nat.mul_mod_idemp_l (j + _)) by lia. f_equal. f_equal.
      rewrite Nat.add_mod_idemp_r by lia. replace (j + (t + (m - j))) with (t + 1 * m) by lia.
      rewrite Nat.mod_add by lia. reflexivity. }
    rewrite E. ring.
Qed.
Lemma idft_conv m a b k : k < m -> idft m (fun i => dft m a i *c dft m b i) k = cconv m a b k.
Proof.
  intros Hk. rewrite (@idft_ext m _ (dft m (cconv m a b))); [apply idft_dft; exact Hk|].
  intros i Hi. symmetry. apply dft_cconv. lia.
Qed.

(* ---------- Bluestein ---------- *)
Lemma expi_R t : expi (F := RF) t = cis t.
Proof. reflexivity. Qed.
Lemma blue_angle_R n i : blue_angle (F := RF) n i = (PI * (INR i * INR i) / INR n)%R.
Proof. unfold blue_angle. cbn [fdiv fmul fpi fofnat RF RFloat_of]. rewrite mult_INR. reflexivity. Qed.
Definition chz (n : nat) (t : R) : C := cis (PI * (t * t) / INR n).
Lemma chz_W n j k : 0 < n ->
  cis (- (PI * (INR j * INR j) / INR n)) *c chz n (INR k - INR j) *c cis (- (PI * (INR k * INR k) / INR n)) = W n (j * k).
Proof.
  intros Hn. unfold chz, W. rewrite <- !cis_add. f_equal. rewrite mult_INR. field. apply INR_neq0, Hn.
Qed.
Lemma bluefft_R x : 0 < length x -> bluefft c x = DFT x.
Proof.
  intros Hn. unfold bluefft. set (n := length x) in *. pose proof (blue_m_ge n) as Hm.
  pose proof (blue_m_pow2 n) as Hmp. set (m := blue_m n) in *. cbv zeta.
  set (a := bl_a c x ++ repeat czero (m - n)).
  assert (La : length a = m) by (unfold a; rewrite app_length, bl_a_length, repeat_length; fold n; lia).
  rewrite (@pow2fft_R a) by (rewrite La; exact Hmp).
  unfold bl_fft_b. rewrite (@pow2fft_R (bl_b n)) by (rewrite bl_b_length; exact Hmp).
  set (b := bl_b n). assert (Lb : length b = m) by apply bl_b_length.
  set (B := map cconj _).
  assert (LB : length B = m) by (unfold B; rewrite map_length, zip_apply_length, DFT_length; exact La).
  rewrite pow2fft_R by (rewrite LB; exact Hmp).
  assert (EB : forall i, i < m -> at_ B i = Cconj (dft m (at_ a) i *c dft m (at_ b) i)).
  { intros i Hi. unfold at_, B. rewrite map_as_tab with (d := C0), zip_apply_length, DFT_length, La.
    rewrite nth_tab by exact Hi. change (@cconj R RF) with Cconj. f_equal.
    rewrite nth_zip_apply with (db := C0) by (rewrite DFT_length; lia). rewrite DFT_length, Lb.
    destruct (Nat.ltb_spec i m); [|lia]. rewrite cmul_R. unfold DFT. rewrite La, Lb, !nth_tab by exact Hi. reflexivity. }
  unfold bl_out, DFT at 2. fold n. apply tab_ext. intros k Hk.
  rewrite expi_nth by exact Hk. rewrite cmul_R, expi_R, blue_angle_R.
  assert (EC : nthc (map (bl_scale m) (DFT B)) k = cconv m (at_ a) (at_ b) k).
  { unfold nthc. rewrite map_as_tab with (d := C0), DFT_length, LB, nth_tab by lia.
    rewrite <- idft_conv by lia. rewrite <- idft_conj. unfold bl_scale.
    unfold DFT. rewrite LB, nth_tab by lia.
    rewrite (@dft_ext m (at_ B) (fun i => Cconj (dft m (at_ a) i *c dft m (at_ b) i))) by exact EB.
    set (z := dft m _ k). unfold cscale, cconj. cbn [re im fdiv fone fofnat fmul fneg RF RFloat_of].
    creal; unfold Rdiv; ring. }
  rewrite EC. unfold cconv. cbn [fneg RF RFloat_of].
  rewrite <- csum_scal_r. rewrite csum_trunc with (n := n); [|lia|].
  - unfold dft. apply csum_ext. intros j Hj.
    assert (Ea : at_ a j = at_ x j *c cis (- (PI * (INR j * INR j) / INR n))).
    { unfold at_, a. rewrite app_nth1 by (rewrite bl_a_length; exact Hj). unfold bl_a. fold n. rewrite nth_tab by exact Hj.
      rewrite cmul_R, expi_nth by exact Hj. rewrite expi_R, blue_angle_R. reflexivity. }
    assert (Eb : at_ b ((k + (m - j)) mod m) = chz n (INR k - INR j)).
    { unfold at_, b, bl_b. fold m. rewrite nth_tab by (apply Nat.mod_upper_bound; lia).
      destruct (Nat.le_gt_cases j k).
      - assert (Em : (k + (m - j)) mod m = k - j).
        { replace (k + (m - j)) with ((k - j) + 1 * m) by lia. rewrite Nat.mod_add by lia. apply Nat.mod_small. lia. }
        rewrite Em. destruct (Nat.ltb_spec (k - j) n); [|lia]. rewrite expi_R, blue_angle_R, minus_INR by lia. reflexivity.
      - rewrite Nat.mod_small by lia. destruct (Nat.ltb_spec (k + (m - j)) n); [lia|].
        destruct (Nat.ltb_spec (m - n) (k + (m - j))); [|lia]. rewrite expi_R, blue_angle_R.
        replace (m - (k + (m - j))) with (j - k) by lia. rewrite minus_INR by lia. unfold chz. f_equal. f_equal. f_equal. ring. }
    rewrite Ea, Eb, <- chz_W by exact Hn. ring.
  - intros i Hi. assert (Ea : at_ a i = C0).
    { unfold at_, a. rewrite app_nth2 by (rewrite bl_a_length; fold n; lia). apply nth_repeat. }
    rewrite Ea. ring.
Qed.
Lemma fft_fresh_R x : 0 < length x -> fft_fresh c x = DFT x.
Proof.
  intros H. unfold fft_fresh. destruct (is_pow2 (length x)) eqn:E; [apply pow2fft_R; exact E|apply bluefft_R; exact H].
Qed.
End KernelsR.

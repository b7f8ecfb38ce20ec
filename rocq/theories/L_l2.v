(* Mean-square rounding errors of the Stockham passes (for C103): the errors of one pass are bounded as a
   whole, so that the norm of the signal enters and not the sum of its moduli. *)
From Coq Require Import Reals Lra Lia.
From Verif Require Import L_err.
Set Implicit Arguments.
Open Scope R_scope.

Definition l2 (n : nat) (a : nat -> C) : R := sqrt (rsum n (fun i => Cnorm2 (a i))).
Lemma l2_sum_pos n (a : nat -> C) : 0 <= rsum n (fun i => Cnorm2 (a i)).
Proof. apply rsum_pos. intros. apply Cnorm2_nonneg. Qed.
Lemma l2_pos n a : 0 <= l2 n a. Proof. apply sqrt_pos. Qed.
Lemma l2_sq n a : l2 n a * l2 n a = rsum n (fun i => Cnorm2 (a i)).
Proof. apply sqrt_sqrt, l2_sum_pos. Qed.
Lemma hyp_eq x y : Cabs (mkcx x y) = sqrt (x * x + y * y). Proof. reflexivity. Qed.
Lemma sqrt_in r a : 0 <= r -> r * sqrt a = sqrt (r * r * a).
Proof. intros H. rewrite sqrt_mult_alt by nra. rewrite sqrt_square by exact H. reflexivity. Qed.
Lemma l2_S n a : l2 (S n) a = Cabs (mkcx (l2 n a) (Cabs (a n))).
Proof. rewrite hyp_eq, l2_sq, Cabs_sq. reflexivity. Qed.
Lemma l2_ext n a b : (forall i, (i < n)%nat -> a i = b i) -> l2 n a = l2 n b.
Proof. intros H. unfold l2. f_equal. apply rsum_ext. intros i Hi. rewrite H by exact Hi. reflexivity. Qed.
Lemma hyp_mono x y x' y' : 0 <= x <= x' -> 0 <= y <= y' -> Cabs (mkcx x y) <= Cabs (mkcx x' y').
Proof. intros H1 H2. rewrite !hyp_eq. apply sqrt_le_1_alt. nra. Qed.
Lemma hyp_tri x y x' y' : Cabs (mkcx (x + x') (y + y')) <= Cabs (mkcx x y) + Cabs (mkcx x' y').
Proof. exact (Cabs_tri (mkcx x y) (mkcx x' y')). Qed.
Lemma l2_tri n a b : l2 n (fun i => a i +c b i) <= l2 n a + l2 n b.
Proof.
  induction n as [|n IH]; [unfold l2; cbn [rsum]; rewrite sqrt_0; lra|]. rewrite !l2_S. eapply Rle_trans; [|apply hyp_tri].
  apply hyp_mono; split; auto using l2_pos, Cabs_nonneg. apply Cabs_tri.
Qed.

(* two sequences side by side *)
Definition p2 (n : nat) (a b : nat -> C) : R := sqrt (rsum n (fun i => Cnorm2 (a i) + Cnorm2 (b i))).
Lemma p2_pos n a b : 0 <= p2 n a b. Proof. apply sqrt_pos. Qed.
Lemma p2_hyp n a b : p2 n a b = Cabs (mkcx (l2 n a) (l2 n b)).
Proof. rewrite hyp_eq, !l2_sq, <- rsum_add. reflexivity. Qed.
Lemma p2_tri n a b a' b' : p2 n (fun i => a i +c a' i) (fun i => b i +c b' i) <= p2 n a b + p2 n a' b'.
Proof.
  rewrite !p2_hyp. eapply Rle_trans; [|apply hyp_tri]. apply hyp_mono; split; auto using l2_pos, l2_tri.
Qed.
Lemma p2_le n a b a' b' r : 0 <= r -> (forall i, (i < n)%nat -> Cnorm2 (a i) + Cnorm2 (b i) <= r * r * (Cnorm2 (a' i) + Cnorm2 (b' i))) -> p2 n a b <= r * p2 n a' b'.
Proof.
  intros Hr H. unfold p2. rewrite <- (sqrt_square r) at 1 by exact Hr. rewrite <- sqrt_mult_alt by nra. apply sqrt_le_1_alt. rewrite <- rsum_scal. apply rsum_le'. exact H.
Qed.
Lemma p2_ext n a b a' b' : (forall i, (i < n)%nat -> a i = a' i /\ b i = b' i) -> p2 n a b = p2 n a' b'.
Proof. intros H. unfold p2. f_equal. apply rsum_ext. intros i Hi. destruct (H i Hi) as [-> ->]. reflexivity. Qed.
Lemma para a b : Cnorm2 (a +c b) + Cnorm2 (a -c b) = 2 * (Cnorm2 a + Cnorm2 b).
Proof. destruct a, b. unfold Cnorm2. cbn. ring. Qed.
Lemma Cnorm2_mul a b : Cnorm2 (a *c b) = Cnorm2 a * Cnorm2 b.
Proof. destruct a, b. unfold Cnorm2. cbn. ring. Qed.
Lemma Cnorm2_W n k : Cnorm2 (W n k) = 1.
Proof. rewrite <- Cabs_sq, Cabs_W. ring. Qed.
Lemma sq_le z r s : 0 <= r -> Cabs z <= r * Cabs s -> Cnorm2 z <= r * r * Cnorm2 s.
Proof. intros Hr H. rewrite <- !Cabs_sq. pose proof (Cabs_nonneg z). pose proof (Cabs_nonneg s). replace (r * r * (Cabs s * Cabs s)) with ((r * Cabs s) * (r * Cabs s)) by ring. apply Rmult_le_compat; lra. Qed.

Section L2.
Variable G : Float R.
Variable u : R.
Hypothesis HG : rounded G u.
Variable c : cfg.
Variable d : R.
Hypothesis Hd : 0 <= d.
Local Notation Q := (QQ u d).
Definition eta2 : R := (1 + d) * (1 + gam u) - 1.
Lemma eta2_pos : 0 <= eta2.
Proof. unfold eta2. pose proof (gam_pos HG). nra. Qed.
Lemma QQ_eta : Q = (1 + u) * (1 + eta2).
Proof. unfold QQ, eta2. ring. Qed.
Lemma mul_eta mul b w wh : mul_ok u mul -> Cabs w = 1 -> Cabs (wh -c w) <= d -> Cabs (mul b wh -c b *c w) <= eta2 * Cabs b.
Proof.
  intros Hm Hw H. destruct (@near_mul G u HG mul 1 (1 + d) (Cabs b) 1 b w b wh Hm (near_refl _ (Rle_refl _)) (@near_w d Hd w wh Hw H)) as (_ & _ & P). unfold eta2. lra.
Qed.
Lemma mul_size mul b w wh : mul_ok u mul -> Cabs w = 1 -> Cabs (wh -c w) <= d -> Cabs (mul b wh) <= (1 + eta2) * Cabs b.
Proof.
  intros Hm Hw H. pose proof (@mul_eta mul b w wh Hm Hw H) as P. replace (mul b wh) with (b *c w +c (mul b wh -c b *c w)) by ring. eapply Rle_trans; [apply Cabs_tri|]. rewrite Cabs_mul, Hw. lra.
Qed.
(* one pass of butterflies *)
Lemma pass_l2 mul n (a b ah bh w wh : nat -> C) : mul_ok u mul -> (forall k, (k < n)%nat -> Cabs (w k) = 1 /\ Cabs (wh k -c w k) <= d) ->
  p2 n (fun k => cadd (F := G) (ah k) (mul (bh k) (wh k)) -c (a k +c b k *c w k)) (fun k => csub (F := G) (ah k) (mul (bh k) (wh k)) -c (a k -c b k *c w k)) <=
  sqrt 2 * ((Q - 1) * p2 n a b + Q * p2 n (fun k => ah k -c a k) (fun k => bh k -c b k)).
Proof.
  intros Hm Hw. pose proof (u_pos HG) as U. pose proof eta2_pos as E0. set (t := fun k => mul (bh k) (wh k)).
  assert (S2 : 0 <= sqrt 2) by apply sqrt_pos. assert (S22 : sqrt 2 * sqrt 2 = 2) by (apply sqrt_sqrt; lra).
  assert (T1 : p2 n (fun k => cadd (F := G) (ah k) (t k) -c (ah k +c t k)) (fun k => csub (F := G) (ah k) (t k) -c (ah k -c t k)) <= sqrt 2 * (u * (1 + eta2)) * p2 n ah bh).
  { apply p2_le; [apply Rmult_le_pos; nra|]. intros k Hk. destruct (Hw k Hk) as [W1 W2].
    pose proof (@sq_le _ u _ U (cadd_err HG (ah k) (t k))) as A1. pose proof (@sq_le _ u _ U (csub_err HG (ah k) (t k))) as A2. pose proof (para (ah k) (t k)) as A3.
    assert (A4 : Cnorm2 (t k) <= (1 + eta2) * (1 + eta2) * Cnorm2 (bh k)) by (apply sq_le; [lra|apply mul_size with (w := w k); assumption]).
    pose proof (Cnorm2_nonneg (ah k)). pose proof (Cnorm2_nonneg (bh k)).
    assert (A5 : Cnorm2 (ah k) + Cnorm2 (t k) <= (1 + eta2) * (1 + eta2) * (Cnorm2 (ah k) + Cnorm2 (bh k))) by nra.
    replace (sqrt 2 * (u * (1 + eta2)) * (sqrt 2 * (u * (1 + eta2)))) with (sqrt 2 * sqrt 2 * (u * u) * ((1 + eta2) * (1 + eta2))) by ring. rewrite S22.
    apply Rle_trans with (u * u * (2 * (Cnorm2 (ah k) + Cnorm2 (t k)))); [rewrite <- A3; lra|].
    replace (2 * (u * u) * ((1 + eta2) * (1 + eta2)) * (Cnorm2 (ah k) + Cnorm2 (bh k))) with (u * u * (2 * ((1 + eta2) * (1 + eta2) * (Cnorm2 (ah k) + Cnorm2 (bh k))))) by ring.
    apply Rmult_le_compat_l; [nra|]. lra. }
  assert (T2 : p2 n (fun k => t k -c bh k *c w k) (fun k => Copp (t k -c bh k *c w k)) <= sqrt 2 * eta2 * p2 n ah bh).
  { apply p2_le; [apply Rmult_le_pos; lra|]. intros k Hk. destruct (Hw k Hk) as [W1 W2].
    assert (A4 : Cnorm2 (t k -c bh k *c w k) <= eta2 * eta2 * Cnorm2 (bh k)) by (apply sq_le; [lra|apply mul_eta; assumption]).
    assert (A5 : Cnorm2 (Copp (t k -c bh k *c w k)) = Cnorm2 (t k -c bh k *c w k)) by (rewrite <- !Cabs_sq, Cabs_opp; reflexivity). rewrite A5.
    pose proof (Cnorm2_nonneg (ah k)). replace (sqrt 2 * eta2 * (sqrt 2 * eta2)) with (sqrt 2 * sqrt 2 * (eta2 * eta2)) by ring. rewrite S22. nra. }
  assert (T3 : p2 n (fun k => (ah k -c a k) +c (bh k -c b k) *c w k) (fun k => (ah k -c a k) -c (bh k -c b k) *c w k) <= sqrt 2 * p2 n (fun k => ah k -c a k) (fun k => bh k -c b k)).
  { apply p2_le; [exact S2|]. intros k Hk. destruct (Hw k Hk) as [W1 _]. rewrite para, Cnorm2_mul, S22. replace (Cnorm2 (w k)) with 1 by (rewrite <- Cabs_sq, W1; ring). lra. }
  assert (T4 : p2 n ah bh <= p2 n a b + p2 n (fun k => ah k -c a k) (fun k => bh k -c b k)).
  { eapply Rle_trans; [|apply p2_tri]. right. apply p2_ext. intros k _. split; ring. }
  rewrite (@p2_ext n _ _ (fun k => (cadd (F := G) (ah k) (t k) -c (ah k +c t k)) +c ((t k -c bh k *c w k) +c ((ah k -c a k) +c (bh k -c b k) *c w k)))
    (fun k => (csub (F := G) (ah k) (t k) -c (ah k -c t k)) +c (Copp (t k -c bh k *c w k) +c ((ah k -c a k) -c (bh k -c b k) *c w k)))) by (intros k _; unfold t; split; ring).
  eapply Rle_trans; [apply p2_tri|]. eapply Rle_trans; [apply Rplus_le_compat_l, p2_tri|].
  set (P0 := p2 n a b) in *. set (Pe := p2 n (fun k => ah k -c a k) (fun k => bh k -c b k)) in *. set (Ph := p2 n ah bh) in *. rewrite QQ_eta.
  assert (T5 : (u * (1 + eta2) + eta2) * Ph <= (u * (1 + eta2) + eta2) * (P0 + Pe)) by (apply Rmult_le_compat_l; [nra|exact T4]).
  apply Rle_trans with (sqrt 2 * ((u * (1 + eta2) + eta2) * Ph + Pe)); [lra|].
  apply Rmult_le_compat_l; [exact S2|]. lra.
Qed.
(* all passes *)
Lemma stk_l2 mul (tw : nat -> C) L (x : nat -> C) s : mul_ok u mul -> (forall k, (k < 2 ^ L / 2)%nat -> Cabs (tw k -c W (2 ^ L) k) <= d) -> (s <= L)%nat ->
  forall j, (j < 2 ^ (L - s))%nat ->
  l2 (2 ^ s) (fun k => stk_fun (F := G) mul tw (2 ^ L) s x (k * 2 ^ (L - s) + j) -c dft (2 ^ s) (fun m => x (j + m * 2 ^ (L - s))%nat) k) <=
    (Q ^ s - 1) * l2 (2 ^ s) (fun k => dft (2 ^ s) (fun m => x (j + m * 2 ^ (L - s))%nat) k).
Proof.
  intros Hm Htw. induction s as [|s IH]; intros Hs j Hj.
  - cbn [stk_fun Nat.pow pow]. rewrite (@l2_ext 1 _ (fun _ => C0)).
    + unfold l2. cbn [rsum]. replace (0 + Cnorm2 C0) with 0 by (unfold Cnorm2; cbn; ring). rewrite sqrt_0. lra.
    + intros k Hk. assert (k = 0)%nat by lia. subst k. rewrite dft_1. cbn [Nat.mul Nat.add]. rewrite Nat.add_0_r. ring.
  - cbn [stk_fun].
    assert (EN : (2 ^ L = 2 ^ (Datatypes.S s) * 2 ^ (L - Datatypes.S s))%nat) by (rewrite <- Nat.pow_add_r; f_equal; lia).
    assert (Hdv : (2 ^ L / 2 ^ Datatypes.S s = 2 ^ (L - Datatypes.S s))%nat).
    { rewrite EN, Nat.mul_comm, Nat.div_mul by (apply Nat.pow_nonzero; lia). reflexivity. }
    rewrite Hdv. set (n2 := (2 ^ (L - Datatypes.S s))%nat) in *.
    assert (E2 : (2 ^ (L - s) = 2 * n2)%nat).
    { unfold n2. rewrite <- Nat.pow_succ_r'. f_equal. lia. }
    rewrite Nat.pow_succ_r' in *. set (n1 := (2 ^ s)%nat) in *.
    assert (Hn1 : (0 < n1)%nat) by apply pow2_pos. assert (Hn2 : (0 < n2)%nat) by apply pow2_pos.
    specialize (IH ltac:(lia)). rewrite E2 in IH.
    assert (Htk : forall k, (k < n1)%nat -> Cabs (W (2 * n1) k) = 1 /\ Cabs (tw (k * n2)%nat -c W (2 * n1) k) <= d).
    { intros k' Hk'. split; [apply Cabs_W|]. replace (W (2 * n1) k') with (W (2 ^ L) (k' * n2)).
      - apply Htw. rewrite EN. apply Nat.div_le_lower_bound; nia.
      - rewrite EN. rewrite (Nat.mul_comm k'), (Nat.mul_comm (2 * n1)). apply W_scale; lia. }
    set (st := stk_fun (F := G) mul tw (2 ^ L) s x) in *.
    set (ah := fun k => st (k * (2 * n2) + j)%nat). set (bh := fun k => st (k * (2 * n2) + (j + n2))%nat).
    set (a := dft n1 (fun m => x (j + m * (2 * n2))%nat)). set (b := dft n1 (fun m => x (j + n2 + m * (2 * n2))%nat)).
    assert (SF : forall k, (k < n1)%nat ->
      stage_fun (F := G) mul tw n1 n2 st (k * n2 + j) = cadd (F := G) (ah k) (mul (bh k) (tw (k * n2)%nat)) /\
      stage_fun (F := G) mul tw n1 n2 st ((n1 + k) * n2 + j) = csub (F := G) (ah k) (mul (bh k) (tw (k * n2)%nat))).
    { intros k Hk. unfold stage_fun, ah, bh.
      assert (D1 : ((k * n2 + j) / n2 = k)%nat) by (apply div_iff; lia).
      assert (D2 : (((n1 + k) * n2 + j) / n2 = n1 + k)%nat) by (apply div_iff; lia).
      rewrite D1, D2, (@mod_of_div _ k), (@mod_of_div _ (n1 + k)) by lia.
      destruct (Nat.ltb_spec k n1); [|lia]. destruct (Nat.ltb_spec (n1 + k) n1); [lia|].
      replace (n1 + k - n1)%nat with k by lia.
      replace (2 * k * n2 + (k * n2 + j - k * n2))%nat with (k * (2 * n2) + j)%nat by lia.
      replace (2 * k * n2 + n2 + (k * n2 + j - k * n2))%nat with (k * (2 * n2) + (j + n2))%nat by lia.
      replace (2 * k * n2 + ((n1 + k) * n2 + j - (n1 + k) * n2))%nat with (k * (2 * n2) + j)%nat by lia.
      replace (2 * k * n2 + n2 + ((n1 + k) * n2 + j - (n1 + k) * n2))%nat with (k * (2 * n2) + (j + n2))%nat by lia.
      split; reflexivity. }
    assert (DE : forall k, dft n1 (fun i => x (j + 2 * i * n2)%nat) k = a k) by (intros; apply dft_ext; intros; f_equal; lia).
    assert (DO : forall k, dft n1 (fun i => x (j + (2 * i + 1) * n2)%nat) k = b k) by (intros; apply dft_ext; intros; f_equal; lia).
    assert (DL : forall k, dft (2 * n1) (fun m => x (j + m * n2)%nat) k = a k +c b k *c W (2 * n1) k).
    { intros k. rewrite dft_even_odd, DE, DO by exact Hn1. ring. }
    assert (DH : forall k, dft (2 * n1) (fun m => x (j + m * n2)%nat) (n1 + k) = a k -c b k *c W (2 * n1) k).
    { intros k. rewrite Nat.add_comm, dft_hi, DE, DO by exact Hn1. ring. }
    assert (SP : forall f : nat -> C, l2 (2 * n1) f = p2 n1 f (fun k => f (n1 + k)%nat)).
    { intros f. unfold l2, p2. f_equal. replace (2 * n1)%nat with (n1 + n1)%nat by lia. rewrite rsum_split', <- rsum_add. reflexivity. }
    rewrite !SP. rewrite (@p2_ext n1 _ _ (fun k => cadd (F := G) (ah k) (mul (bh k) (tw (k * n2)%nat)) -c (a k +c b k *c W (2 * n1) k))
      (fun k => csub (F := G) (ah k) (mul (bh k) (tw (k * n2)%nat)) -c (a k -c b k *c W (2 * n1) k))).
    2: { intros k Hk. destruct (SF k Hk) as [-> ->]. rewrite DL, DH. split; reflexivity. }
    rewrite (@p2_ext n1 (fun k => dft (2 * n1) _ k) _ (fun k => a k +c b k *c W (2 * n1) k) (fun k => a k -c b k *c W (2 * n1) k)) by (intros k _; rewrite DL, DH; split; reflexivity).
    eapply Rle_trans; [apply pass_l2; [exact Hm|exact Htk]|].
    assert (EP : p2 n1 (fun k => a k +c b k *c W (2 * n1) k) (fun k => a k -c b k *c W (2 * n1) k) = sqrt 2 * p2 n1 a b).
    { unfold p2. rewrite <- sqrt_mult_alt by lra. f_equal. rewrite <- rsum_scal. apply rsum_ext. intros k _. rewrite para, Cnorm2_mul, Cnorm2_W. ring. }
    rewrite EP. pose proof (sqrt_pos 2) as S2. pose proof (QQ_ge1 HG Hd) as Q1. pose proof (pow_R1_Rle Q s Q1) as Qs.
    assert (PE : p2 n1 (fun k => ah k -c a k) (fun k => bh k -c b k) <= (Q ^ s - 1) * p2 n1 a b).
    { assert (I1 : l2 n1 (fun k => ah k -c a k) <= (Q ^ s - 1) * l2 n1 a) by exact (IH j ltac:(lia)).
      assert (I2 : l2 n1 (fun k => bh k -c b k) <= (Q ^ s - 1) * l2 n1 b) by exact (IH (j + n2)%nat ltac:(lia)). rewrite !p2_hyp. eapply Rle_trans; [apply hyp_mono; split; [apply l2_pos|exact I1|apply l2_pos|exact I2]|].
      rewrite !hyp_eq, (@sqrt_in (Q ^ s - 1) (l2 n1 a * l2 n1 a + l2 n1 b * l2 n1 b)) by lra. right. f_equal. ring. }
    cbn [pow]. apply Rle_trans with (sqrt 2 * ((Q - 1) * p2 n1 a b + Q * ((Q ^ s - 1) * p2 n1 a b))); [|right; ring].
    apply Rmult_le_compat_l; [exact S2|]. apply Rplus_le_compat_l. apply Rmult_le_compat_l; [lra|exact PE].
Qed.
Lemma stkp_l2 mul x : mul_ok u mul -> is_pow2 (length x) = true -> tw_ok G c d (length x) ->
  l2 (length x) (fun k => at_ (stkp (F := G) c mul x) k -c at_ (DFT x) k) <= (Q ^ Nat.log2 (length x) - 1) * l2 (length x) (at_ (DFT x)).
Proof.
  intros Hm Hp Ht. apply is_pow2_iff in Hp. destruct Hp as [L HL].
  pose proof (@stk_l2 mul (nthc (F := G) (twf (F := G) c (2 ^ L))) L (nthc (F := G) x) L Hm) as P. rewrite Nat.sub_diag in P. cbn [Nat.pow] in P. rewrite <- HL in P.
  specialize (P ltac:(intros i Hi; rewrite nthc_at by (rewrite twf_length; exact Hi); apply Ht; exact Hi) (le_n _) 0%nat ltac:(lia)). cbv beta in P.
  assert (LL : Nat.log2 (length x) = L) by (rewrite HL; apply Nat.log2_pow2; lia). rewrite LL.
  assert (ED : forall k, (k < length x)%nat -> dft (length x) (fun m => nthc (F := G) x (0 + m * 1)) k = at_ (DFT x) k).
  { intros k Hk. rewrite DFT_at by exact Hk. apply dft_ext. intros i Hi. replace (0 + i * 1)%nat with i by lia. apply nthc_at. exact Hi. }
  rewrite (@l2_ext _ (fun k => dft _ _ k) (at_ (DFT x)) ED) in P. erewrite l2_ext; [exact P|]. intros k Hk. cbv beta. rewrite ED by exact Hk. f_equal.
  unfold stkp, at_ at 1. rewrite nth_tab by exact Hk. rewrite LL. f_equal. lia.
Qed.
End L2.

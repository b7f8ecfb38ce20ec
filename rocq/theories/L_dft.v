(* Textbook facts about the DFT sum (specification side only). *)
From Coq Require Import ZArith ZifyBool ZifyNat Lra.
From Verif Require Export L_fftR.
Ltac Zify.zify_post_hook ::= Z.div_mod_to_equations.
Set Implicit Arguments.

Fixpoint rsum (n : nat) (f : nat -> R) : R := match n with 0 => 0%R | S m => (rsum m f + f m)%R end.
Lemma rsum_ext n f g : (forall i, i < n -> f i = g i) -> rsum n f = rsum n g.
Proof. induction n; intros H; cbn; [reflexivity|]. rewrite IHn by (intros; apply H; lia). rewrite H by lia. reflexivity. Qed.
Lemma re_csum n f : re (csum n f) = rsum n (fun i => re (f i)).
Proof. induction n; cbn; [reflexivity|]. rewrite IHn. reflexivity. Qed.
Lemma im_csum n f : im (csum n f) = rsum n (fun i => im (f i)).
Proof. induction n; cbn; [reflexivity|]. rewrite IHn. reflexivity. Qed.
Lemma rsum_scal n a f : rsum n (fun i => (a * f i)%R) = (a * rsum n f)%R.
Proof. induction n; cbn; [ring|]. rewrite IHn. ring. Qed.
Lemma rsum_add n f g : rsum n (fun i => (f i + g i)%R) = (rsum n f + rsum n g)%R.
Proof. induction n; cbn; [ring|]. rewrite IHn. ring. Qed.
Lemma rsum_0 n f : (forall i, i < n -> f i = 0%R) -> rsum n f = 0%R.
Proof. induction n; intros H; cbn; [reflexivity|]. rewrite IHn, H by (intros; try apply H; lia). ring. Qed.

Lemma dft_linear n a b x y k :
  dft n (fun i => a *c x i +c b *c y i) k = a *c dft n x k +c b *c dft n y k.
Proof.
  unfold dft. rewrite <- !csum_scal, <- csum_add. apply csum_ext. intros; ring.
Qed.
Lemma parseval n x : 0 < n ->
  rsum n (fun k => Cnorm2 (dft n x k)) = (INR n * rsum n (fun j => Cnorm2 (x j)))%R.
Proof.
  intros Hn.
  assert (E : csum n (fun k => dft n x k *c Cconj (dft n x k)) = RtoC (INR n) *c csum n (fun j => x j *c Cconj (x j))).
  { rewrite <- csum_scal.
    rewrite (@csum_ext n _ (fun k => csum n (fun j => Cconj (x j) *c (dft n x k *c Cconj (W n (j * k)))))).
    - rewrite csum_swap. apply csum_ext. intros j Hj. rewrite csum_scal.
      pose proof (@idft_dft n x j Hj) as H. unfold idft in H.
      set (S := csum n _) in *.
      assert (HS : S = RtoC (INR n) *c x j).
      { rewrite <- H. transitivity (RtoC (INR n) *c RtoC (/ INR n) *c S); [|ring].
        rewrite RtoC_inv by (apply INR_neq0; exact Hn). ring. }
      rewrite HS. ring.
    - intros k Hk. unfold dft at 2. rewrite csum_conj, <- csum_scal. apply csum_ext. intros j Hj.
      rewrite Cconj_mul. ring. }
  apply (f_equal re) in E. rewrite re_csum in E. cbn [Cmul RtoC re im] in E. rewrite re_csum, im_csum in E.
  rewrite (@rsum_ext n _ (fun k => re (dft n x k *c Cconj (dft n x k)))).
  - change (rsum n (fun k => re (dft n x k *c Cconj (dft n x k))) = (INR n * rsum n (fun j => Cnorm2 (x j)))%R).
    etransitivity; [exact E|]. rewrite Rmult_0_l, Rminus_0_r. f_equal. apply rsum_ext. intros i _. unfold Cnorm2. cbn. ring.
  - intros i _. unfold Cnorm2. cbn. ring.
Qed.
Lemma dft_shift n s x k : 0 < n -> s <= n ->
  dft n (fun j => x ((j + (n - s)) mod n)) k = W n (k * s) *c dft n x k.
Proof.
  intros Hn Hs. unfold dft. rewrite <- csum_scal.
  rewrite <- (@csum_cyclic_mod n (n - s) (fun i => W n (k * s) *c (x i *c W n (i * k)))) by exact Hn.
  apply csum_ext. intros j Hj.
  assert (E : W n (j * k) = W n (k * s) *c W n ((j + (n - s)) mod n * k)).
  { rewrite <- W_add by exact Hn. apply W_cong; [exact Hn|].
    rewrite (Nat.mul_comm k s), <- Nat.mul_add_distr_r.
    rewrite <- Nat.mul_mod_idemp_l by lia. rewrite <- (Nat.mul_mod_idemp_l (s + _)) by lia. f_equal. f_equal.
    rewrite Nat.add_mod_idemp_r by lia. replace (s + (j + (n - s))) with (j + 1 * n) by lia.
    rewrite Nat.mod_add by lia. reflexivity. }
  rewrite E. ring.
Qed.
Lemma dft_hermitian n x k : 0 < n -> k <= n -> (forall j, j < n -> im (x j) = 0%R) ->
  dft n x (n - k) = Cconj (dft n x k).
Proof.
  intros Hn Hk Hr. unfold dft. rewrite csum_conj. apply csum_ext. intros j Hj. rewrite Cconj_mul. f_equal.
  - apply C_eq; cbn; [reflexivity|]. rewrite Hr by exact Hj. ring.
  - assert (E : W n (j * (n - k)) *c W n (j * k) = C1).
    { rewrite <- W_add by exact Hn. replace (j * (n - k) + j * k) with (j * n) by nia. apply W_n, Hn. }
    transitivity (W n (j * (n - k)) *c (W n (j * k) *c Cconj (W n (j * k)))).
    + rewrite W_conj_l. ring.
    + transitivity ((W n (j * (n - k)) *c W n (j * k)) *c Cconj (W n (j * k))); [ring|]. rewrite E. ring.
Qed.

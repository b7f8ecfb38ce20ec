(* Properties C53-C55: analytic signal, cepstrum, mel filter bank. *)
From Coq Require Import Reals Lra ZArith Lia.
From Verif Require Import M_cep L_trig L_prov P_trig P_det.
Set Implicit Arguments.
Open Scope nat_scope.

Lemma on_range_length {T} {F : Float T} (f : cx T -> cx T) lo hi : forall l i, length (on_range f lo hi i l) = length l.
Proof. induction l as [|z l IH]; intros i; cbn [on_range length]; [reflexivity|]. rewrite IH. reflexivity. Qed.
Lemma nth_on_range {T} {F : Float T} (f : cx T -> cx T) lo hi d : forall l i k, k < length l ->
  nth k (on_range f lo hi i l) d = if (lo <=? i + k) && (i + k <? hi) then f (nth k l d) else nth k l d.
Proof.
  induction l as [|z l IH]; intros i k H; cbn [length] in H; [lia|]. destruct k as [|k]; cbn [on_range nth].
  - rewrite Nat.add_0_r. reflexivity.
  - rewrite IH by lia. replace (Datatypes.S i + k) with (i + Datatypes.S k) by lia. reflexivity.
Qed.
Lemma mask_length {T} {F : Float T} n (l : list (cx T)) : length (hilbert_mask n l) = length l.
Proof. unfold hilbert_mask. destruct (Nat.even n); rewrite !on_range_length; reflexivity. Qed.

Section Any.
Context {T : Type} {F : Float T}.
Variable c : cfg.
Lemma pow2_check_none n : pow2_check n = None <-> 0 < n /\ is_pow2 n = true.
Proof. unfold pow2_check. destruct (Nat.eqb_spec n 0), (is_pow2 n); cbn [negb]; split; intros H; try discriminate; try (destruct H; lia || congruence); split; auto; lia. Qed.
Lemma via_fresh f (x : list T) : 0 < length x -> is_pow2 (length x) = true -> (forall l, length (f l) = length l) ->
  via_spectrum c f x = Done (Ok (ifft_fresh c (f (fft_fresh c (widen x))))).
Proof.
  intros Hn Hp Hf. unfold via_spectrum. rewrite (proj2 (pow2_check_none (length x)) (conj Hn Hp)).
  assert (Lw : length (widen x) = length x) by apply map_length.
  destruct (@scalar_steady2 T F c (length x) new_planner Hn (or_intror Hp) (@upto_new T F c (length x))) as (P & H0 & HP).
  destruct (HP _ (widen x) H0 Lw) as [(p1 & E1 & H1) _]. rewrite E1. cbn [bind].
  assert (L1 : length (fft_fresh c (widen x)) = length x).
  { rewrite <- Lw. apply fresh_length; rewrite Lw; [exact Hn|right; exact Hp]. }
  destruct (HP _ (f (fft_fresh c (widen x))) H1) as [_ (p2 & E2 & H2)]; [rewrite Hf; exact L1|]. rewrite E2. reflexivity.
Qed.
Lemma via_reject f (x : list T) :
  (x = [] -> via_spectrum c f x = Done (Err EmptyInput)) /\
  (x <> [] -> is_pow2 (length x) = false -> via_spectrum c f x = Done (Err NonPowerOfTwoNoStd)).
Proof.
  split.
  - intros ->. reflexivity.
  - intros Hx Hp. unfold via_spectrum, pow2_check. destruct (Nat.eqb_spec (length x) 0) as [E|E]; [destruct x; [congruence|discriminate E]|].
    rewrite Hp. reflexivity.
Qed.
End Any.
Lemma widen_R (x : list R) : widen x = map RtoC x.
Proof. reflexivity. Qed.
Lemma via_R (c : cfg) f (x : list R) : 0 < length x -> is_pow2 (length x) = true -> (forall l, length (f l) = length l) ->
  via_spectrum c f x = Done (Ok (IDFT (f (DFT (map RtoC x))))).
Proof.
  intros Hn Hp Hf. unfold via_spectrum. rewrite (proj2 (pow2_check_none (length x)) (conj Hn Hp)).
  assert (Lw : length (widen x) = length x) by apply map_length.
  destruct (@scalar_exact c (length x) new_planner Hn (or_intror Hp) (@upto_new R RF c (length x))) as (P & H0 & HP).
  destruct (HP _ (widen x) H0 Lw) as [(p1 & E1 & H1) _]. rewrite E1. cbn [bind].
  destruct (HP _ (f (DFT (widen x))) H1) as [_ (p2 & E2 & H2)]; [rewrite Hf, DFT_length; exact Lw|]. rewrite E2. reflexivity.
Qed.

Open Scope R_scope.
(* ------------------------------------------------------------------ C53 *)
(* the spectrum of a real signal at bin k *)
Definition spec_of (x : list R) (k : nat) : C := dft (length x) (fun j => RtoC (nth j x 0)) k.
Lemma at_map_RtoC (x : list R) j : at_ (map RtoC x) j = RtoC (nth j x 0).
Proof. unfold at_. change C0 with (RtoC 0). apply map_nth. Qed.
Lemma at_DFT_real (x : list R) k : (k < length x)%nat -> at_ (DFT (map RtoC x)) k = spec_of x k.
Proof. intros H. unfold DFT. rewrite map_length, at_tab by exact H. unfold spec_of. apply dft_ext. intros j _. apply at_map_RtoC. Qed.
Lemma spec_hermitian x k : (0 < length x)%nat -> (k < length x)%nat -> spec_of x ((length x - k) mod length x) = Cconj (spec_of x k).
Proof.
  intros Hn Hk. unfold spec_of at 2. rewrite <- dft_hermitian by (try lia; reflexivity). fold (spec_of x (length x - k)).
  destruct (Nat.eq_dec k 0) as [->|Hk0].
  - rewrite Nat.sub_0_r, Nat.mod_same by lia. unfold spec_of, dft. apply csum_ext. intros j _. rewrite Nat.mul_0_r, W_0, W_n by lia. reflexivity.
  - rewrite Nat.mod_small by lia. reflexivity.
Qed.
(* pairing k with n-k: the real part of an inverse DFT only sees the Hermitian part *)
Lemma re_idft_pair n (Z : nat -> C) j : (0 < n)%nat ->
  re (idft n Z j) = re (idft n (fun k => RtoC (/ 2) *c (Z k +c Cconj (Z ((n - k) mod n)%nat))) j).
Proof.
  intros Hn. unfold idft. cbn [re Cmul RtoC]. rewrite !Rmult_0_l, !Rminus_0_r. f_equal.
  assert (E : csum n (fun k => Z k *c Cconj (W n (j * k))) = csum n (fun k => Z ((n - k) mod n)%nat *c W n (j * k))).
  { rewrite <- (@csum_reflect n 0 (fun k => Z k *c Cconj (W n (j * k))) Hn). apply csum_ext. intros k Hk. cbn [Nat.add].
    rewrite (Nat.mod_small k n) by exact Hk. f_equal.
    rewrite <- (@W_mod n (j * ((n - k) mod n))), Nat.mul_mod_idemp_r, W_mod by lia.
    destruct (Nat.eq_dec k 0) as [->|Hk0]; [rewrite Nat.sub_0_r, W_n, Nat.mul_0_r, W_0 by lia; creal; ring|].
    assert (M : W n (j * (n - k)) *c W n (j * k) = C1) by (rewrite <- W_add by lia; replace (j * (n - k) + j * k)%nat with (j * n)%nat by nia; apply W_n; lia).
    pose proof (W_conj_l n (j * (n - k))) as Q.
    transitivity (Cconj (W n (j * (n - k))) *c (W n (j * (n - k)) *c W n (j * k))); [rewrite M; ring|].
    transitivity (W n (j * (n - k)) *c Cconj (W n (j * (n - k))) *c W n (j * k)); [ring|]. rewrite Q. ring. }
  symmetry. rewrite re_csum. rewrite (@rsum_ext n _ (fun k => / 2 * re (Z k *c Cconj (W n (j * k))) + / 2 * re (Z ((n - k) mod n)%nat *c W n (j * k)))).
  - rewrite rsum_add, !rsum_scal, <- !re_csum, <- E. field.
  - intros k _. cbn [re im Cmul Cadd Cconj RtoC]. ring.
Qed.
(* every power-of-two length: the real part is x, the spectrum is the one-sided one *)
Theorem C53_analytic : forall (c : cfg) (x : list R) m, length x = (2 ^ m)%nat ->
  exists y, hilbert c x = Done (Ok y) /\ length y = length x /\
    (forall j, (j < length x)%nat -> re (nth j y C0) = nth j x 0) /\
    (forall k, (k < length x)%nat -> dft (length x) (fun j => nth j y C0) k =
       let X := dft (length x) (fun j => RtoC (nth j x 0)) k in
       if (k =? 0)%nat then X else if (2 * k <? length x)%nat then RtoC 2 *c X else if (2 * k =? length x)%nat then X else C0).
Proof.
  intros c x m Hm.
  assert (Hn : (0 < length x)%nat) by (rewrite Hm; pose proof (Nat.pow_nonzero 2 m); lia).
  assert (Hp : is_pow2 (length x) = true) by (unfold is_pow2; rewrite Hm, Nat.log2_pow2, Nat.eqb_refl by lia; reflexivity).
  set (n := length x) in *.
  exists (IDFT (hilbert_mask n (DFT (map RtoC x)))).
  assert (Ld : length (DFT (map RtoC x)) = n) by (rewrite DFT_length, map_length; reflexivity).
  assert (Lz : length (hilbert_mask n (DFT (map RtoC x))) = n) by (rewrite mask_length; exact Ld).
  assert (MZ : forall k, (k < n)%nat -> at_ (hilbert_mask n (DFT (map RtoC x))) k =
     if (k =? 0)%nat then spec_of x k else if (2 * k <? n)%nat then RtoC 2 *c spec_of x k else if (2 * k =? n)%nat then spec_of x k else C0).
  { intros k Hk. unfold hilbert_mask, at_.
    assert (D : forall z : C, dbl z = RtoC 2 *c z) by (intros z; unfold dbl; fr; creal; ring).
    destruct (Nat.even n) eqn:Ev.
    - apply Nat.even_spec in Ev. destruct Ev as [q Ev]. rewrite Ev. rewrite (Nat.mul_comm 2 q), Nat.div_mul by lia.
      rewrite !nth_on_range by (rewrite ?on_range_length, ?Ld; lia). fold (at_ (DFT (map RtoC x)) k). rewrite at_DFT_real by exact Hk. cbn [Nat.add].
      rewrite D. change czero with C0.
      destruct (Nat.leb_spec (q + 1) k), (Nat.ltb_spec k (q * 2)), (Nat.leb_spec 1 k), (Nat.ltb_spec k q), (Nat.eqb_spec k 0), (Nat.ltb_spec (2 * k) (q * 2)), (Nat.eqb_spec (2 * k) (q * 2));
        cbn [andb]; try lia; try reflexivity; subst k; reflexivity.
    - destruct m as [|m']; [|exfalso; rewrite Hm, Nat.even_pow in Ev by lia; discriminate].
      cbn in Hm. assert (k = 0)%nat by lia. subst k. rewrite Hm. cbn [Nat.add Nat.sub Nat.div Nat.divmod fst snd Nat.mul].
      rewrite !nth_on_range by (rewrite ?on_range_length, ?Ld; lia). cbn. fold (at_ (DFT (map RtoC x)) 0). rewrite at_DFT_real by exact Hk. reflexivity. }
  split; [unfold hilbert; rewrite via_R; [reflexivity|exact Hn|exact Hp|intros; apply mask_length]|].
  split; [rewrite IDFT_length; exact Lz|]. split.
  - intros j Hj. unfold IDFT. rewrite Lz. rewrite nth_tab by exact Hj. rewrite re_idft_pair by exact Hn.
    rewrite (@idft_ext n _ (spec_of x)); [unfold spec_of; fold n; rewrite idft_dft by exact Hj; reflexivity|].
    intros k Hk. assert (Hk' : ((n - k) mod n < n)%nat) by (apply Nat.mod_upper_bound; lia). rewrite !MZ by assumption.
    pose proof (@spec_hermitian x k Hn Hk) as HH. fold n in HH. rewrite HH.
    destruct (Nat.eq_dec k 0) as [->|Hk0].
    + assert (Em : ((n - 0) mod n = 0)%nat) by (rewrite Nat.sub_0_r; apply Nat.mod_same; lia). rewrite Em in *. cbn [Nat.eqb].
      pose proof (f_equal im HH) as Hi. cbn [im Cconj] in Hi. creal; lra.
    + assert (Em : ((n - k) mod n = n - k)%nat) by (apply Nat.mod_small; lia). rewrite Em in *.
      destruct (Nat.eqb_spec k 0); [lia|]. destruct (Nat.eqb_spec (n - k) 0); [lia|].
      destruct (Nat.ltb_spec (2 * k) n), (Nat.ltb_spec (2 * (n - k)) n), (Nat.eqb_spec (2 * k) n), (Nat.eqb_spec (2 * (n - k)) n); try lia; creal; try lra.
  - intros k Hk. unfold IDFT. rewrite Lz.
    rewrite (@dft_ext n _ (idft n (at_ (hilbert_mask n (DFT (map RtoC x)))))) by (intros j Hj; apply nth_tab; exact Hj).
    rewrite dft_idft by exact Hk. rewrite MZ by exact Hk. reflexivity.
Qed.
Print Assumptions C53_analytic.
Theorem C53_errors : forall (T : Type) (F : Float T) (c : cfg) (x : list T),
  hilbert c (@nil T) = Done (Err EmptyInput) /\
  (x <> [] -> (forall m, length x <> (2 ^ m)%nat) -> hilbert c x = Done (Err NonPowerOfTwoNoStd)).
Proof.
  intros T F c x. split; [reflexivity|]. intros Hx H. unfold hilbert. apply via_reject; [exact Hx|].
  unfold is_pow2. apply Nat.eqb_neq. intros E. apply (H (Nat.log2 (length x))). symmetry. exact E.
Qed.
Print Assumptions C53_errors.
(* any float type: a result of the input's length, no panic *)
Theorem C53_total : forall (T : Type) (F : Float T) (c : cfg) (x : list T) m, length x = (2 ^ m)%nat ->
  exists y, hilbert c x = Done (Ok y) /\ length y = length x.
Proof.
  intros T F c x m Hm. assert (Hn : (0 < length x)%nat) by (rewrite Hm; pose proof (Nat.pow_nonzero 2 m); lia).
  assert (Hp : is_pow2 (length x) = true) by (unfold is_pow2; rewrite Hm, Nat.log2_pow2, Nat.eqb_refl by lia; reflexivity).
  eexists. split; [unfold hilbert; apply via_fresh; [exact Hn|exact Hp|intros; apply mask_length]|].
  assert (Lw : length (widen x) = length x) by apply map_length.
  assert (L1 : length (hilbert_mask (length x) (fft_fresh c (widen x))) = length x).
  { rewrite mask_length. rewrite <- Lw. apply fresh_length; rewrite Lw; [exact Hn|right; exact Hp]. }
  rewrite <- L1 at 2. apply fresh_length; rewrite L1; [exact Hn|right; exact Hp].
Qed.
Print Assumptions C53_total.
Example C53_example : length [1; 0; -1; 0] = (2 ^ 2)%nat /\ forall m, length [1; 2; 3] <> (2 ^ m)%nat.
Proof.
  split; [reflexivity|]. intros [|[|m]] H; cbn in H; [lia|lia|]. pose proof (Nat.pow_nonzero 2 m). lia.
Qed.

(* ------------------------------------------------------------------ C54 *)
Lemma INR_tiny : @tiny R RF = 1 / 10 ^ 12.
Proof. unfold tiny. cbn [flit RF RFloat_of Q2R]. unfold Q2R. cbn [Qnum Qden]. lra. Qed.
(* log-magnitude spectrum of a real signal *)
Definition log_mag (x : list R) (k : nat) : R :=
  let X := dft (length x) (fun j => RtoC (nth j x 0)) k in ln (sqrt (re X * re X + im X * im X) + 1 / 10 ^ 12).
Lemma logmag_R z : logmag z = RtoC (ln (sqrt (re z * re z + im z * im z) + 1 / 10 ^ 12)).
Proof. unfold logmag. rewrite INR_tiny. reflexivity. Qed.
Theorem C54_cepstrum : forall (c : cfg) (x : list R) m, length x = (2 ^ m)%nat ->
  exists y, real_cepstrum c x = Done (Ok y) /\ length y = length x /\
    (forall j, (j < length x)%nat -> RtoC (nth j y 0) = idft (length x) (fun k => RtoC (log_mag x k)) j) /\
    (forall j, (0 < j < length x)%nat -> nth (length x - j) y 0 = nth j y 0).
Proof.
  intros c x m Hm. assert (Hn : (0 < length x)%nat) by (rewrite Hm; pose proof (Nat.pow_nonzero 2 m); lia).
  assert (Hp : is_pow2 (length x) = true) by (unfold is_pow2; rewrite Hm, Nat.log2_pow2, Nat.eqb_refl by lia; reflexivity).
  set (n := length x) in *.
  assert (Lz : length (map logmag (DFT (map RtoC x))) = n) by (rewrite map_length, DFT_length, map_length; reflexivity).
  assert (LS : forall k, (k < n)%nat -> at_ (map logmag (DFT (map RtoC x))) k = RtoC (log_mag x k)).
  { intros k Hk. unfold at_. rewrite nth_indep with (d' := logmag C0) by (rewrite Lz; exact Hk). rewrite map_nth.
    fold (at_ (DFT (map RtoC x)) k). rewrite at_DFT_real by exact Hk. apply logmag_R. }
  assert (Ev : forall k, (k < n)%nat -> log_mag x ((n - k) mod n) = log_mag x k).
  { intros k Hk. unfold log_mag. cbv zeta. fold (spec_of x ((n - k) mod n)) (spec_of x k).
    rewrite (@spec_hermitian x k Hn Hk : spec_of x ((n - k) mod n) = _). cbn [re im Cconj]. do 3 f_equal. ring. }
  (* the inverse transform is even *)
  assert (Es : forall j, (0 < j < n)%nat -> idft n (fun k => RtoC (log_mag x k)) (n - j) = Cconj (idft n (fun k => RtoC (log_mag x k)) j)).
  { intros j Hj. unfold idft. rewrite Cconj_mul, csum_conj. f_equal; [creal; ring|]. apply csum_ext. intros k _. rewrite Cconj_mul. f_equal; [creal; ring|].
    f_equal. assert (M : W n ((n - j) * k) *c W n (j * k) = C1) by (rewrite <- W_add by lia; replace ((n - j) * k + j * k)%nat with (k * n)%nat by nia; apply W_n; lia).
    transitivity (W n ((n - j) * k) *c (W n (j * k) *c Cconj (W n (j * k)))); [rewrite W_conj_l; ring|].
    transitivity (W n ((n - j) * k) *c W n (j * k) *c Cconj (W n (j * k))); [ring|]. rewrite M. ring. }
  assert (Im : forall j, (j < n)%nat -> im (idft n (fun k => RtoC (log_mag x k)) j) = 0).
  { intros j Hj. pose proof (@re_idft_pair n (fun k => Cmul (mkcx 0 (-1)) (RtoC (log_mag x k))) j Hn) as H.
    assert (E1 : forall Z : nat -> C, idft n (fun k => mkcx 0 (-1) *c Z k) j = mkcx 0 (-1) *c idft n Z j).
    { intros Z. unfold idft. rewrite (@csum_ext n _ (fun k => mkcx 0 (-1) *c (Z k *c Cconj (W n (j * k))))) by (intros; ring).
      rewrite csum_scal. ring. }
    rewrite E1 in H. cbn [re im Cmul] in H.
    match type of H with _ = re ?u => assert (E2 : u = C0) end.
    { rewrite (@idft_ext n _ (fun _ => C0)).
      - unfold idft. rewrite csum_0 by (intros; ring). ring.
      - intros k Hk. cbv beta. rewrite Ev by exact Hk. creal; ring. }
    rewrite E2 in H. change (re C0) with 0 in H. revert H. generalize (re (idft n (fun k => RtoC (log_mag x k)) j)) (im (idft n (fun k => RtoC (log_mag x k)) j)). intros; lra. }
  exists (tab n (fun j => re (idft n (fun k => RtoC (log_mag x k)) j))).
  split; [|split; [apply tab_length|split]].
  - unfold real_cepstrum. rewrite via_R by (try assumption; intros; apply map_length). cbn [bind]. do 2 f_equal.
    unfold IDFT. rewrite Lz, map_tab. apply tab_ext. intros j Hj. f_equal. apply idft_ext. exact LS.
  - intros j Hj. rewrite nth_tab by exact Hj. creal; [reflexivity|]. symmetry. apply Im. exact Hj.
  - intros j Hj. rewrite !nth_tab by lia. rewrite Es by exact Hj. reflexivity.
Qed.
Print Assumptions C54_cepstrum.
Theorem C54_errors : forall (T : Type) (F : Float T) (X : FloatX T) (c : cfg) (x : list T),
  real_cepstrum c (@nil T) = Done (Err EmptyInput) /\
  (x <> [] -> (forall m, length x <> (2 ^ m)%nat) -> real_cepstrum c x = Done (Err NonPowerOfTwoNoStd)).
Proof.
  intros T F X c x. split; [reflexivity|]. intros Hx H. unfold real_cepstrum.
  rewrite (proj2 (via_reject c (map logmag) x)); [reflexivity|exact Hx|].
  unfold is_pow2. apply Nat.eqb_neq. intros E. apply (H (Nat.log2 (length x))). symmetry. exact E.
Qed.
Print Assumptions C54_errors.
Theorem C54_total : forall (T : Type) (F : Float T) (X : FloatX T) (c : cfg) (x : list T) m, length x = (2 ^ m)%nat ->
  exists y, real_cepstrum c x = Done (Ok y) /\ length y = length x.
Proof.
  intros T F X c x m Hm. assert (Hn : (0 < length x)%nat) by (rewrite Hm; pose proof (Nat.pow_nonzero 2 m); lia).
  assert (Hp : is_pow2 (length x) = true) by (unfold is_pow2; rewrite Hm, Nat.log2_pow2, Nat.eqb_refl by lia; reflexivity).
  assert (Lw : length (widen x) = length x) by apply map_length.
  assert (L1 : length (map logmag (fft_fresh c (widen x))) = length x).
  { rewrite map_length. rewrite <- Lw. apply fresh_length; rewrite Lw; [exact Hn|right; exact Hp]. }
  eexists. split.
  - unfold real_cepstrum. rewrite via_fresh by (try assumption; intros; apply map_length). reflexivity.
  - rewrite map_length. transitivity (length (map logmag (fft_fresh c (widen x)))); [|exact L1]. apply fresh_length; rewrite L1; [exact Hn|right; exact Hp].
Qed.
Print Assumptions C54_total.
Example C54_example : length [1; 0; 0; 0] = (2 ^ 2)%nat.
Proof. reflexivity. Qed.

(* ------------------------------------------------------------------ C55 *)
Open Scope nat_scope.
Section Mel.
Context {T : Type} {F : Float T} {X : FloatX T}.
(* one triangular filter, with the accumulator of the source *)
Definition mel_one (mags : list T) (b0 b1 b2 : nat) : exec T :=
  if (b1 =? b0) || (b2 =? b1) then Done fzero else e <- tri_up mags b0 b1 fzero ;; tri_down mags b1 b2 e.
Lemma usub_ok a b : b <= a -> usub a b = Done (a - b).
Proof. intros H. unfold usub. destruct (Nat.leb_spec b a); [reflexivity|lia]. Qed.
Lemma for_total {S} lo hi (body : nat -> S -> exec S) s : (forall i s, lo <= i < hi -> exists s', body i s = Done s') ->
  exists s', for_range lo hi body s = Done s'.
Proof.
  intros H. destruct (le_lt_dec hi lo) as [Hl|Hl]; [exists s; apply for_range_empty; exact Hl|].
  destruct (@for_inv S (fun _ _ => True) body lo hi s) as (v & E & _); [lia|exact I| |exists v; exact E].
  intros i s0 Hi _. destruct (H i s0 Hi) as [s' E]. exists s'. auto.
Qed.
Lemma tri_up_total mags b0 b1 e : exists v, tri_up mags b0 b1 e = Done v.
Proof.
  apply for_total. intros i s Hi. destruct (nth_error mags i); [|eauto]. rewrite !usub_ok by lia. cbn [bind]. eauto.
Qed.
Lemma tri_down_total mags b0 b1 e : exists v, tri_down mags b0 b1 e = Done v.
Proof.
  apply for_total. intros i s Hi. destruct (nth_error mags i); [|eauto]. rewrite !usub_ok by lia. cbn [bind]. eauto.
Qed.
Lemma mel_one_total mags b0 b1 b2 : exists v, mel_one mags b0 b1 b2 = Done v.
Proof.
  unfold mel_one. destruct (_ || _); [eauto|]. destruct (tri_up_total mags b0 b1 fzero) as [v ->]. cbn [bind]. apply tri_down_total.
Qed.
Lemma mel_tab mags rate nf (g : nat -> T) :
  (forall i, i < nf -> mel_one mags (nth i (mel_bins (length mags) rate nf) 0) (nth (i + 1) (mel_bins (length mags) rate nf) 0) (nth (i + 2) (mel_bins (length mags) rate nf) 0) = Done (g i)) ->
  mel_filterbank mags rate nf = Done (tab nf g).
Proof.
  intros H. unfold mel_filterbank. cbv zeta. set (bins := mel_bins (length mags) rate nf) in *.
  assert (Lb : length bins = nf + 2) by apply tab_length.
  match goal with |- for_range _ _ ?body ?s = _ =>
    destruct (@for_inv (list T) (fun i es => es = tab i g ++ repeat fzero (nf - i)) body 0 nf s) as (v & E & Hv);
      [| | |rewrite E, Hv, Nat.sub_diag, app_nil_r; reflexivity] end.
  - lia.
  - cbn. rewrite Nat.sub_0_r. reflexivity.
  - intros i es Hi ->. rewrite !(@get_nth _ _ _ 0) by lia. cbn [bind]. replace (i + 1 - 1) with i by lia.
    specialize (H i (proj2 Hi)). unfold mel_one in H.
    assert (G : nth i (tab i g ++ repeat fzero (nf - i)) fzero = fzero).
    { rewrite app_nth2 by (rewrite tab_length; lia). rewrite tab_length, Nat.sub_diag. replace (nf - i) with (Datatypes.S (nf - i - 1)) by lia. reflexivity. }
    assert (Ln : length (tab i g ++ repeat fzero (nf - i)) = nf) by (rewrite app_length, tab_length, repeat_length; lia).
    assert (Up : upd (tab i g ++ repeat fzero (nf - i)) i (g i) = tab (Datatypes.S i) g ++ repeat fzero (nf - Datatypes.S i)).
    { apply list_ext with (d := fzero); [rewrite upd_length, Ln, app_length, tab_length, repeat_length; lia|].
      intros k Hk. rewrite upd_length, Ln in Hk. rewrite nth_upd by lia.
      destruct (Nat.eqb_spec k i) as [->|Hki].
      - rewrite app_nth1 by (rewrite tab_length; lia). rewrite nth_tab by lia. reflexivity.
      - destruct (le_lt_dec k i).
        + rewrite !app_nth1 by (rewrite tab_length; lia). rewrite !nth_tab by lia. reflexivity.
        + rewrite !app_nth2 by (rewrite tab_length; lia). rewrite !nth_repeat. reflexivity. }
    assert (Sm : upd (tab i g ++ repeat fzero (nf - i)) i fzero = tab i g ++ repeat fzero (nf - i)).
    { pose proof (upd_same (tab i g ++ repeat fzero (nf - i)) i fzero) as Q. rewrite G in Q. exact Q. }
    destruct (nth (i + 1) bins 0 =? nth i bins 0); cbn [orb] in H.
    + injection H as H. eexists. split; [reflexivity|]. rewrite <- Up, <- H. symmetry. exact Sm.
    + replace (i + 1 + 1) with (i + 2) by lia. cbn [bind].
      destruct (nth (i + 2) bins 0 =? nth (i + 1) bins 0).
      * injection H as H. eexists. split; [reflexivity|]. rewrite <- Up, <- H. symmetry. exact Sm.
      * rewrite (@get_nth _ _ i fzero) by lia. rewrite G. cbn [bind].
        destruct (tri_up mags _ _ fzero) as [e| |]; try discriminate. cbn [bind] in H |- *. rewrite H. cbn [bind]. rewrite set_ok by lia.
        eexists. split; [reflexivity|exact Up].
Qed.
Lemma mel_total mags rate nf : exists es, mel_filterbank mags rate nf = Done es /\ length es = nf.
Proof.
  set (bins := mel_bins (length mags) rate nf).
  set (o := fun i => mel_one mags (nth i bins 0) (nth (i + 1) bins 0) (nth (i + 2) bins 0)).
  exists (tab nf (fun i => match o i with Done v => v | _ => fzero end)). split; [|apply tab_length].
  apply mel_tab. intros i Hi. fold bins. change (o i = Done match o i with Done v => v | _ => fzero end).
  destruct (mel_one_total mags (nth i bins 0) (nth (i + 1) bins 0) (nth (i + 2) bins 0)) as [v E].
  unfold o. rewrite E. reflexivity.
Qed.
Lemma dct2_total (x : list T) : exists y, dct2 x = Done y /\ length y = length x.
Proof. unfold dct2. apply fill_total. intros k _. unfold dct2_sum. eauto. Qed.
End Mel.
(* never panics: any float type, any rate, any number of filters *)
Theorem C55_total : forall (T : Type) (F : Float T) (X : FloatX T) (mags : list T) (rate : T) (nf : nat),
  exists es, mel_filterbank mags rate nf = Done es /\ length es = nf.
Proof. intros. apply mel_total. Qed.
Print Assumptions C55_total.
(* mfcc: InvalidValue exactly when too many coefficients are asked for; otherwise the first ncoef
   entries of the DCT-II of the log energies *)
Theorem C55_mfcc : forall (T : Type) (F : Float T) (X : FloatX T) (mags : list T) (rate : T) (nmel ncoef : nat),
  exists es d, mel_filterbank mags rate nmel = Done es /\
    dct2 (map (fun v => fln (fadd v (flit (1 # 1000000000000)))) es) = Done d /\ length d = nmel /\
    mfcc mags rate nmel ncoef = Done (if nmel <? ncoef then Err InvalidValue else Ok (firstn ncoef d)).
Proof.
  intros. destruct (@mel_total T F X mags rate nmel) as (es & E & L).
  destruct (@dct2_total T F (map (fun v => fln (fadd v (flit (1 # 1000000000000)))) es)) as (d & Ed & Ld). rewrite map_length in Ld.
  exists es, d. split; [exact E|]. split; [exact Ed|]. split; [lia|].
  unfold mfcc. rewrite E. cbn [bind]. rewrite L. destruct (Nat.ltb_spec nmel ncoef); [reflexivity|].
  unfold tiny. rewrite Ed. cbn [bind]. unfold slice_to. destruct (Nat.leb_spec ncoef (length d)); [reflexivity|lia].
Qed.
Print Assumptions C55_mfcc.
Theorem C55_batch : forall (T : Type) (F : Float T) (X : FloatX T) (batch : list (list T)) (rate : T) (nmel ncoef : nat),
  (Forall (fun f => exists v, mfcc f rate nmel ncoef = Done (Ok v)) batch ->
     exists vs, mfcc_batch batch rate nmel ncoef = Done (Ok vs) /\
       Forall2 (fun f v => mfcc f rate nmel ncoef = Done (Ok v)) batch vs) /\
  (Exists (fun f => mfcc f rate nmel ncoef = Done (Err InvalidValue)) batch ->
     mfcc_batch batch rate nmel ncoef = Done (Err InvalidValue)).
Proof.
  intros T F X batch rate nmel ncoef. split.
  - induction batch as [|f b IH]; intros H; [exists nil; split; [reflexivity|constructor]|].
    inversion H as [|? ? [v Hv] Hb]; subst. destruct (IH Hb) as (vs & E & R2).
    exists (v :: vs). cbn [mfcc_batch]. rewrite Hv. cbn [bind]. rewrite E. split; [reflexivity|constructor; assumption].
  - induction batch as [|f b IH]; intros H; inversion H as [? ? Hf|? ? Hb]; subst; cbn [mfcc_batch].
    + rewrite Hf. reflexivity.
    + destruct (C55_mfcc F X f rate nmel ncoef) as (es & d & _ & _ & _ & E). rewrite E. cbn [bind].
      destruct (_ <? _); [reflexivity|]. rewrite (IH Hb). reflexivity.
Qed.
Print Assumptions C55_batch.

Open Scope R_scope.
(* the frequency of the i-th of nf+2 points equally spaced on the mel scale between 0 and rate/2 *)
Definition edge (rate : R) (nf i : nat) : R := 700 * (Rpower (1 + rate / 2 / 700) (INR i / INR (nf + 1)) - 1).
(* its spectrum bin *)
Definition edge_bin (n : nat) (rate : R) (nf i : nat) : nat := Rfloor_nat (edge rate nf i * (INR n + 1) / rate).
(* weight of bin k in the triangle b0 < b1 < b2 *)
Definition tri (b0 b1 b2 k : nat) : R :=
  if (b1 =? b0)%nat || (b2 =? b1)%nat then 0 else
  if (b0 <=? k)%nat && (k <? b1)%nat then (INR k - INR b0) / (INR b1 - INR b0) else
  if (b1 <=? k)%nat && (k <? b2)%nat then (INR b2 - INR k) / (INR b2 - INR b1) else 0.
Lemma ln10_pos : 0 < ln 10.
Proof. rewrite <- ln_1. apply ln_increasing; lra. Qed.
Lemma mel_point_R rate nf i : 0 < rate -> mel_point rate nf i = edge rate nf i.
Proof.
  intros Hr. unfold mel_point, mel_of, edge. fr. cbn [flog10 fpowf RX]. unfold Q2R. cbn [Qnum Qden].
  replace (2595 * / 1) with 2595 by lra. replace (700 * / 1) with 700 by lra. replace (10 * / 1) with 10 by lra. replace (2 * / 1) with 2 by lra.
  do 2 f_equal. replace (1 + 0 / 700) with 1 by lra. rewrite ln_1.
  assert (HN : INR (nf + 1) <> 0) by (apply not_0_INR; lia). pose proof ln10_pos.
  unfold Rpower. f_equal. field. split; [exact HN|lra].
Qed.
Lemma mel_bins_R n rate nf i : 0 < rate -> (i < nf + 2)%nat -> nth i (mel_bins n rate nf) 0%nat = edge_bin n rate nf i.
Proof.
  intros Hr Hi. unfold mel_bins. rewrite nth_tab by exact Hi. rewrite mel_point_R by exact Hr. reflexivity.
Qed.
Lemma rsum_range lo hi n f : (forall k, (n <= k)%nat -> f k = 0) ->
  rsum (hi - lo) (fun d => f (lo + d)%nat) = rsum n (fun k => if (lo <=? k)%nat && (k <? hi)%nat then f k else 0).
Proof.
  intros Hz. set (g := fun k => if (lo <=? k)%nat && (k <? hi)%nat then f k else 0).
  assert (T : forall a b h, (a <= b)%nat -> (forall k, (a <= k < b)%nat -> h k = 0) -> rsum b h = rsum a h).
  { intros a b h Hab. induction b as [|b IH]; intros H; [replace a with 0%nat by lia; reflexivity|].
    destruct (Nat.eq_dec a (S b)) as [->|]; [reflexivity|]. cbn [rsum]. rewrite IH by (try lia; intros; apply H; lia). rewrite H by lia. ring. }
  transitivity (rsum hi g).
  - destruct (le_lt_dec hi lo) as [H|H].
    + replace (hi - lo)%nat with 0%nat by lia. cbn. symmetry. apply rsum_0. intros k Hk. unfold g.
      destruct (Nat.leb_spec lo k); [lia|reflexivity].
    + assert (Q : forall m, rsum (lo + m) (fun k => if (lo <=? k)%nat then f k else 0) = rsum m (fun d => f (lo + d)%nat)).
      { induction m as [|m IH]; [rewrite Nat.add_0_r; apply rsum_0; intros k Hk; destruct (Nat.leb_spec lo k); [lia|reflexivity]|].
        rewrite Nat.add_succ_r. cbn [rsum]. rewrite IH. destruct (Nat.leb_spec lo (lo + m)); [reflexivity|lia]. }
      rewrite <- Q. replace (lo + (hi - lo))%nat with hi by lia. apply rsum_ext. intros k Hk. unfold g.
      destruct (Nat.ltb_spec k hi); [|lia]. rewrite Bool.andb_true_r. reflexivity.
  - destruct (le_lt_dec hi n) as [H|H].
    + symmetry. apply T; [exact H|]. intros k Hk. unfold g. destruct (Nat.ltb_spec k hi); [lia|]. rewrite Bool.andb_false_r. reflexivity.
    + apply T; [lia|]. intros k Hk. unfold g. rewrite Hz by lia. destruct (_ && _); reflexivity.
Qed.
Lemma for_rsum lo hi (body : nat -> R -> exec R) (f : nat -> R) e : (forall k e, (lo <= k < hi)%nat -> body k e = Done (e + f k)) ->
  for_range lo hi body e = Done (e + rsum (hi - lo) (fun d => f (lo + d)%nat)).
Proof.
  intros H. destruct (le_lt_dec hi lo) as [Hl|Hl].
  - rewrite for_range_empty by exact Hl. replace (hi - lo)%nat with 0%nat by lia. cbn. rewrite Rplus_0_r. reflexivity.
  - destruct (@for_inv R (fun k s => s = e + rsum (k - lo) (fun d => f (lo + d)%nat)) body lo hi e) as (s & E & ->); [lia|rewrite Nat.sub_diag; cbn; lra| |exact E].
    intros k s Hk ->. rewrite H by exact Hk. eexists. split; [reflexivity|].
    replace (S k - lo)%nat with (S (k - lo)) by lia. cbn [rsum]. replace (lo + (k - lo))%nat with k by lia. ring.
Qed.
Lemma mel_one_R mags b0 b1 b2 : mel_one mags b0 b1 b2 = Done (rsum (length mags) (fun k => tri b0 b1 b2 k * nth k mags 0)).
Proof.
  unfold mel_one. unfold tri. destruct (_ || _) eqn:Hd; [f_equal; symmetry; apply rsum_0; intros; ring|].
  apply Bool.orb_false_elim in Hd. destruct Hd as [D1 D2]. apply Nat.eqb_neq in D1, D2.
  set (wu := fun k => (INR k - INR b0) / (INR b1 - INR b0) * nth k mags 0).
  set (wd := fun k => (INR b2 - INR k) / (INR b2 - INR b1) * nth k mags 0).
  assert (Up : forall e, tri_up mags b0 b1 e = Done (e + rsum (b1 - b0) (fun d => wu (b0 + d)%nat))).
  { intros e. apply for_rsum. intros k e' Hk. destruct (nth_error mags k) as [v|] eqn:Ek.
    - rewrite !usub_ok by lia. cbn [bind]. fr. rewrite !minus_INR by lia. unfold wu. rewrite (nth_error_nth _ _ 0 Ek). reflexivity.
    - apply nth_error_None in Ek. unfold wu. rewrite nth_overflow by exact Ek. f_equal. ring. }
  assert (Dn : forall e, tri_down mags b1 b2 e = Done (e + rsum (b2 - b1) (fun d => wd (b1 + d)%nat))).
  { intros e. apply for_rsum. intros k e' Hk. destruct (nth_error mags k) as [v|] eqn:Ek.
    - rewrite !usub_ok by lia. cbn [bind]. fr. rewrite !minus_INR by lia. unfold wd. rewrite (nth_error_nth _ _ 0 Ek). reflexivity.
    - apply nth_error_None in Ek. unfold wd. rewrite nth_overflow by exact Ek. f_equal. ring. }
  rewrite Up. cbn [bind]. rewrite Dn. f_equal.
  rewrite (@rsum_range b0 b1 (length mags) wu), (@rsum_range b1 b2 (length mags) wd)
    by (intros k Hk; unfold wu, wd; rewrite nth_overflow by exact Hk; ring).
  fr. rewrite Rplus_0_l, <- rsum_add. apply rsum_ext. intros k _. unfold wu, wd.
  destruct (Nat.leb_spec b0 k), (Nat.ltb_spec k b1), (Nat.leb_spec b1 k), (Nat.ltb_spec k b2); cbn [andb]; try lia; ring.
Qed.
(* each energy is the triangular average of the magnitudes over equally mel-spaced edges *)
Theorem C55_triangles : forall (mags : list R) (rate : R) (nf : nat), 0 < rate ->
  mel_filterbank mags rate nf = Done (tab nf (fun i =>
    let b := edge_bin (length mags) rate nf in
    rsum (length mags) (fun k => tri (b i) (b (i + 1)%nat) (b (i + 2)%nat) k * nth k mags 0))).
Proof.
  intros mags rate nf Hr. apply mel_tab. intros i Hi. rewrite !mel_bins_R by (try exact Hr; lia). apply mel_one_R.
Qed.
Print Assumptions C55_triangles.
Lemma tri_nonneg b0 b1 b2 k : 0 <= tri b0 b1 b2 k.
Proof.
  unfold tri. destruct (_ || _); [lra|].
  destruct (Nat.leb_spec b0 k), (Nat.ltb_spec k b1); cbn [andb];
    try (pose proof (le_INR b0 k H); pose proof (lt_INR k b1 H0); apply Rmult_le_pos; [lra|left; apply Rinv_0_lt_compat; lra]);
    destruct (Nat.leb_spec b1 k), (Nat.ltb_spec k b2); cbn [andb]; try lra;
    match goal with A : (b1 <= k)%nat, B : (k < b2)%nat |- _ => pose proof (le_INR b1 k A); pose proof (lt_INR k b2 B) end;
    (apply Rmult_le_pos; [lra|left; apply Rinv_0_lt_compat; lra]).
Qed.
(* non-negative energies, at every rate (zero and negative rates included) *)
Theorem C55_nonneg : forall (mags : list R) (rate : R) (nf : nat), Forall (Rle 0) mags ->
  exists es, mel_filterbank mags rate nf = Done es /\ Forall (Rle 0) es.
Proof.
  intros mags rate nf Hm. set (bins := mel_bins (length mags) rate nf).
  eexists. split; [apply mel_tab; intros i _; apply mel_one_R|].
  apply Forall_forall. intros v Hv. apply in_map_iff in Hv.
  destruct Hv as (i & <- & Hi).
  rewrite <- (@rsum_0 (length mags) (fun _ => 0)) by reflexivity. apply rsum_le. intros k Hk.
  apply Rmult_le_pos; [apply tri_nonneg|]. rewrite Forall_forall in Hm. apply Hm. apply nth_In. exact Hk.
Qed.
Print Assumptions C55_nonneg.
(* the edges run from bin 0 to bin floor((n+1)/2) without decreasing *)
Theorem C55_edges : forall (n : nat) (rate : R) (nf : nat), 0 < rate ->
  edge_bin n rate nf 0 = 0%nat /\ edge_bin n rate nf (nf + 1) = ((n + 1) / 2)%nat /\
  forall i j, (i <= j)%nat -> (edge_bin n rate nf i <= edge_bin n rate nf j)%nat.
Proof.
  intros n rate nf Hr. assert (HN : 0 < INR (nf + 1)) by (apply lt_0_INR; lia).
  assert (Hb : 1 < 1 + rate / 2 / 700) by lra.
  split; [|split].
  - unfold edge_bin, edge. change (INR 0) with 0. replace (0 / INR (nf + 1)) with 0 by (field; lra). rewrite Rpower_O by lra.
    unfold Rfloor_nat. rewrite (@Int_part_spec _ 0); [reflexivity|]. replace (700 * (1 - 1) * (INR n + 1) / rate) with 0 by (field; lra). lra.
  - unfold edge_bin, edge. replace (INR (nf + 1) / INR (nf + 1)) with 1 by (field; lra). rewrite Rpower_1 by lra.
    replace (700 * (1 + rate / 2 / 700 - 1) * (INR n + 1) / rate) with (INR (n + 1) / 2) by (rewrite plus_INR; cbn [INR]; field; lra).
    unfold Rfloor_nat. rewrite (@Int_part_spec _ (Z.of_nat ((n + 1) / 2))); [apply Nat2Z.id|].
    rewrite <- INR_IZR_INZ. pose proof (Nat.div_mod (n + 1) 2 ltac:(lia)) as D. pose proof (Nat.mod_upper_bound (n + 1) 2 ltac:(lia)) as M.
    assert (INR (n + 1) = 2 * INR ((n + 1) / 2) + INR ((n + 1) mod 2)) by (rewrite D at 1; rewrite plus_INR, mult_INR; reflexivity).
    assert (0 <= INR ((n + 1) mod 2) <= 1) by (split; [apply pos_INR|]; change 1 with (INR 1); apply le_INR; lia). lra.
  - intros i j Hij. unfold edge_bin, Rfloor_nat.
    assert (HH : edge rate nf i * (INR n + 1) / rate <= edge rate nf j * (INR n + 1) / rate).
    { unfold Rdiv. apply Rmult_le_compat_r; [left; apply Rinv_0_lt_compat; exact Hr|]. apply Rmult_le_compat_r; [pose proof (pos_INR n); lra|].
      unfold edge. apply Rmult_le_compat_l; [lra|]. apply Rplus_le_compat_r. apply Rle_Rpower; [lra|].
      apply Rmult_le_compat_r; [left; apply Rinv_0_lt_compat; exact HN|apply le_INR; exact Hij]. }
    set (a := edge rate nf i * (INR n + 1) / rate) in *. set (b := edge rate nf j * (INR n + 1) / rate) in *.
    assert (Int_part a <= Int_part b)%Z; [|lia].
    destruct (base_Int_part a) as [A1 A2], (base_Int_part b) as [B1 B2].
    apply Z.lt_succ_r, lt_IZR. unfold Z.succ. rewrite plus_IZR. lra.
Qed.
Print Assumptions C55_edges.
Example C55_example : Forall (Rle 0) [1; 0; 2] /\ 0 < 8000 /\ edge_bin 7 1400 0 1 = 4%nat /\ tri 0 4 8 5 = 3 / 4.
Proof.
  split; [repeat constructor; lra|]. split; [lra|]. split; [|unfold tri; cbn; lra].
  destruct (@C55_edges 7 1400 0 ltac:(lra)) as (_ & E & _). exact E.
Qed.

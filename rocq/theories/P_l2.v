(* Property C103: the root-mean-square rounding error of the FFT, its inverse and the round trip. *)
From Coq Require Import Reals Lra Lia.
From Flocq Require Import Core.
From Verif Require Import L_err L_flx L_l2 P_fft P_err.
Set Implicit Arguments.
Open Scope R_scope.

(* ---------- specification ---------- *)
(* Euclidean length of a signal: its root-mean-square value times sqrt n *)
Definition norm2 (x : list C) : R := sqrt (rsum (length x) (fun j => Cnorm2 (at_ x j))).
(* two signals of the same length whose difference has Euclidean length at most e *)
Definition close2 (e : R) (y z : list C) : Prop :=
  length y = length z /\ sqrt (rsum (length z) (fun k => Cnorm2 (at_ y k -c at_ z k))) <= e.

(* ---------- proofs ---------- *)
Lemma norm2_l2 x : norm2 x = l2 (length x) (at_ x). Proof. reflexivity. Qed.
Lemma norm2_pos x : 0 <= norm2 x. Proof. apply sqrt_pos. Qed.
Lemma dft_sub n a b k : dft n (fun i => a i -c b i) k = dft n a k -c dft n b k.
Proof.
  replace (dft n a k -c dft n b k) with (C1 *c dft n a k +c Copp C1 *c dft n b k) by ring. rewrite <- dft_linear. apply dft_ext. intros. ring.
Qed.
Lemma pars n a : (0 < n)%nat -> l2 n (dft n a) = sqrt (INR n) * l2 n a.
Proof. intros Hn. unfold l2. rewrite <- sqrt_mult_alt by apply pos_INR. f_equal. apply (@parseval n a Hn). Qed.
Lemma pars_DFT a b : length a = length b -> (0 < length a)%nat ->
  l2 (length a) (fun k => at_ (DFT a) k -c at_ (DFT b) k) = sqrt (INR (length a)) * l2 (length a) (fun k => at_ a k -c at_ b k).
Proof.
  intros H Hn. rewrite <- pars by exact Hn. apply l2_ext. intros k Hk. rewrite !DFT_at by lia. rewrite <- H. symmetry. apply dft_sub.
Qed.
Lemma l2_scal n (a : nat -> C) r : 0 <= r -> l2 n (fun i => RtoC r *c a i) = r * l2 n a.
Proof.
  intros Hr. unfold l2. rewrite sqrt_in by exact Hr. f_equal. rewrite <- rsum_scal. apply rsum_ext. intros i _. rewrite Cnorm2_mul. f_equal. unfold Cnorm2. cbn. ring.
Qed.
Lemma l2_conj n (a : nat -> C) : l2 n (fun i => Cconj (a i)) = l2 n a.
Proof. unfold l2. f_equal. apply rsum_ext. intros i _. unfold Cnorm2, Cconj. cbn. ring. Qed.
Lemma l2_abs n (a b : nat -> C) r : 0 <= r -> (forall i, (i < n)%nat -> Cabs (a i) <= r * Cabs (b i)) -> l2 n a <= r * l2 n b.
Proof.
  intros Hr H. unfold l2. rewrite sqrt_in by exact Hr. apply sqrt_le_1_alt. rewrite <- rsum_scal. apply rsum_le'. intros i Hi. apply sq_le; [exact Hr|]. apply H. exact Hi.
Qed.
Lemma l2_peak n (a : nat -> C) i : (i < n)%nat -> Cabs (a i) <= l2 n a.
Proof.
  intros Hi. apply Cabs_le; [apply l2_pos|]. rewrite l2_sq. induction n as [|n IH]; [lia|]. cbn [rsum]. pose proof (l2_sum_pos n a). pose proof (Cnorm2_nonneg (a n)).
  destruct (Nat.eq_dec i n) as [->|]; [lra|]. specialize (IH ltac:(lia)). lra.
Qed.
Section Lem.
Variables (G : Float R) (u d : R) (c : cfg).
Hypothesis (HG : rounded G u) (Hd : 0 <= d).
Local Notation Q n := (bfly u d ^ Nat.log2 n).
Lemma Q_ge1 n : 1 <= Q n.
Proof. apply pow_R1_Rle. exact (QQ_ge1 HG Hd). Qed.
Lemma fresh_l2 x : (32 <= length x)%nat -> is_pow2 (length x) = true -> twiddles_within G c (length x) d ->
  length (fft_fresh (F := G) c x) = length x /\ l2 (length x) (fun k => at_ (fft_fresh (F := G) c x) k -c at_ (DFT x) k) <= (Q (length x) - 1) * l2 (length x) (at_ (DFT x)).
Proof.
  intros Hn Hp Ht. unfold fft_fresh. rewrite Hp. unfold pow2fft. destruct (Nat.leb_spec (length x) 1); [lia|]. destruct (Nat.leb_spec (length x) 16); [lia|].
  split; [apply stkp_length|]. apply stkp_l2; [exact HG|exact Hd|apply mulk_err; exact HG|exact Hp|apply tws; [exact Ht|lia]].
Qed.
Lemma ifresh_l2 y : (32 <= length y)%nat -> is_pow2 (length y) = true -> twiddles_within G c (length y) d -> @fofnat R G (length y) = INR (length y) ->
  length (ifft_fresh (F := G) c y) = length y /\
  l2 (length y) (fun k => at_ (ifft_fresh (F := G) c y) k -c at_ (IDFT y) k) <= (Q (length y) * (1 + u) ^ 2 - 1) * l2 (length y) (at_ (IDFT y)).
Proof.
  intros Hn Hp Ht Hf. set (n := length y) in *. assert (HnR : 0 < INR n) by (apply lt_0_INR; lia). pose proof (u_pos HG) as U.
  pose proof (@fresh_l2 (map (cconj (F := G)) y)) as P. rewrite map_length in P. fold n in P. specialize (P Hn Hp Ht). destruct P as [P1 P2].
  assert (EC : map (cconj (F := G)) y = map Cconj y).
  { apply map_ext. intros a. unfold cconj, Cconj. f_equal. apply (r_neg HG). }
  rewrite EC in *. set (v := fft_fresh (F := G) c (map Cconj y)) in *. set (V := DFT (map Cconj y)) in *. set (s := / INR n).
  assert (s0 : 0 < s) by (apply Rinv_0_lt_compat; exact HnR).
  unfold ifft_fresh. fold n. destruct (Nat.eqb_spec n 1); [lia|]. rewrite EC. fold v.
  split; [rewrite map_length; exact P1|].
  assert (Hs : Rabs (@fdiv R G (@fone R G) (@fofnat R G n) - s) <= u * s).
  { rewrite Hf, (r_one HG). pose proof (r_div HG 1 (b := INR n) ltac:(lra)) as D. unfold Rdiv in D. rewrite Rmult_1_l in D. rewrite (Rabs_pos_eq (/ INR n)) in D; [exact D|]. fold s. lra. }
  set (sh := @fdiv R G (@fone R G) (@fofnat R G n)) in *.
  assert (EI : forall k, (k < n)%nat -> at_ (IDFT y) k = RtoC s *c Cconj (at_ V k)) by (intros k Hk; apply IDFT_at; exact Hk).
  assert (EN : l2 n (at_ (IDFT y)) = s * l2 n (at_ V)).
  { rewrite (l2_ext _ _ EI), l2_scal, l2_conj by lra. reflexivity. }
  set (r := (1 + u) ^ 2 - 1). assert (r0 : 0 <= r) by (unfold r; cbn [pow]; nra).
  set (E1 := fun k => cscale (F := G) sh (cconj (F := G) (at_ v k)) -c RtoC s *c Cconj (at_ v k)). set (E2 := fun k => RtoC s *c Cconj (at_ v k -c at_ V k)).
  assert (B1 : l2 n E1 <= r * s * l2 n (at_ v)).
  { apply l2_abs; [apply Rmult_le_pos; lra|]. intros k Hk. unfold E1.
    destruct (@near_scale G u HG 1 (Cabs (at_ v k)) (Cconj (at_ v k)) (cconj (F := G) (at_ v k)) s sh) as (_ & _ & W); [apply (near_conj HG); apply near_refl; apply Rle_refl|lra|exact Hs|].
    unfold r. cbn [pow] in *. lra. }
  assert (B2 : l2 n E2 <= s * ((Q n - 1) * l2 n (at_ V))).
  { unfold E2. rewrite l2_scal by lra. apply Rmult_le_compat_l; [lra|]. rewrite l2_conj. exact P2. }
  assert (B3 : l2 n (at_ v) <= Q n * l2 n (at_ V)).
  { rewrite (@l2_ext n (at_ v) (fun k => (at_ v k -c at_ V k) +c at_ V k)) by (intros; ring). eapply Rle_trans; [apply l2_tri|]. lra. }
  rewrite (@l2_ext n _ (fun k => E1 k +c E2 k)).
  - eapply Rle_trans; [apply l2_tri|]. rewrite EN. apply Rle_trans with (r * s * (Q n * l2 n (at_ V)) + s * ((Q n - 1) * l2 n (at_ V))).
    + apply Rplus_le_compat; [|exact B2]. eapply Rle_trans; [exact B1|]. apply Rmult_le_compat_l; [apply Rmult_le_pos; lra|exact B3].
    + right. unfold r. ring.
  - intros k Hk. rewrite map_at by lia. rewrite EI by exact Hk. unfold E1, E2. replace (Cconj (at_ v k -c at_ V k)) with (Cconj (at_ v k) -c Cconj (at_ V k)) by (creal; ring). ring.
Qed.
End Lem.

(* ---------- theorems ---------- *)
Theorem C103_fft : forall (G : Float R) (u d : R) (c : cfg) (x : list C),
  rounded G u -> 0 <= d -> (32 <= length x)%nat -> is_pow2 (length x) = true -> twiddles_within G c (length x) d ->
  exists p y, fft (F := G) c (new_planner (T := R)) x = Done (p, y, ROk) /\
    close2 ((bfly u d ^ Nat.log2 (length x) - 1) * norm2 (DFT x)) y (DFT x).
Proof.
  intros G u d c x HG Hd Hn Hp Ht. destruct (@fft_fresh_ok R G c x) as [p E]; [lia|right; exact Hp|]. exists p, (fft_fresh (F := G) c x). split; [exact E|].
  destruct (@fresh_l2 G u d c HG Hd x Hn Hp Ht) as [L1 L2]. split; [rewrite DFT_length; exact L1|]. rewrite norm2_l2, DFT_length. exact L2.
Qed.
Print Assumptions C103_fft.
(* the length of the spectrum: sqrt n times that of the signal *)
Theorem C103_length : forall x, (0 < length x)%nat -> norm2 (DFT x) = sqrt (INR (length x)) * norm2 x.
Proof.
  intros x Hn. rewrite !norm2_l2, DFT_length. rewrite <- pars by exact Hn. apply l2_ext. intros k Hk. apply DFT_at. exact Hk.
Qed.
Print Assumptions C103_length.
Theorem C103_ifft : forall (G : Float R) (u d : R) (c : cfg) (y : list C),
  rounded G u -> 0 <= d -> (32 <= length y)%nat -> is_pow2 (length y) = true -> twiddles_within G c (length y) d -> @fofnat R G (length y) = INR (length y) ->
  exists p z, ifft (F := G) c (new_planner (T := R)) y = Done (p, z, ROk) /\
    close2 ((bfly u d ^ Nat.log2 (length y) * (1 + u) ^ 2 - 1) * norm2 (IDFT y)) z (IDFT y).
Proof.
  intros G u d c y HG Hd Hn Hp Ht Hf.
  destruct (@ifft_cases R G c new_planner y (@Inv_new R G c)) as [[H _]|[(_ & H & _)|(_ & _ & p' & z & E & _ & _ & Hz)]].
  - lia.
  - exfalso. revert H. unfold supported. rewrite Hp, orb_true_r. discriminate.
  - exists p', z. split; [exact E|]. rewrite (Hz (@ready_new R c _)). destruct (@ifresh_l2 G u d c HG Hd y Hn Hp Ht Hf) as [L1 L2].
    assert (LI : length (IDFT y) = length y) by apply tab_length. split; [lia|]. rewrite norm2_l2, LI. exact L2.
Qed.
Print Assumptions C103_ifft.
Theorem C103_roundtrip : forall (G : Float R) (u d : R) (c : cfg) (x : list C),
  rounded G u -> 0 <= d -> (32 <= length x)%nat -> is_pow2 (length x) = true -> twiddles_within G c (length x) d -> @fofnat R G (length x) = INR (length x) ->
  exists p y p' z, fft (F := G) c (new_planner (T := R)) x = Done (p, y, ROk) /\ ifft (F := G) c p y = Done (p', z, ROk) /\
    close2 ((bfly u d ^ (2 * Nat.log2 (length x)) * (1 + u) ^ 2 - 1) * norm2 x) z x.
Proof.
  intros G u d c x HG Hd Hn Hp Ht Hf. set (n := length x) in *. assert (n0 : (0 < n)%nat) by lia.
  destruct (@fft_fresh_ok R G c x) as [p E]; [lia|right; exact Hp|]. exists p, (fft_fresh (F := G) c x).
  destruct (@fresh_l2 G u d c HG Hd x Hn Hp Ht) as [L1 L2]. set (y := fft_fresh (F := G) c x) in *. fold n in L1, L2.
  assert (ER : run_calls (F := G) c (new_planner (T := R)) [CFft x] = Done p) by (cbn [run_calls run_call]; unfold forget; rewrite E; reflexivity).
  assert (HI : Inv (F := G) c p) by (eapply (@run_calls_Inv R G c); [apply Inv_new|exact ER]).
  assert (Hr : ready c p n) by (eapply (@history_ready R G c); [exact ER|]; intros k [<-|[]]; apply Nat.le_refl).
  destruct (@ifft_cases R G c p y HI) as [[H _]|[(_ & H & _)|(_ & _ & p' & z & E' & _ & _ & Hz)]]; rewrite ?L1 in *.
  - lia.
  - exfalso. revert H. unfold supported. rewrite Hp, orb_true_r. discriminate.
  - exists p', z. split; [exact E|]. split; [exact E'|]. rewrite (Hz Hr).
    pose proof (@ifresh_l2 G u d c HG Hd y) as P. rewrite L1 in P. destruct (P Hn Hp Ht Hf) as [Z1 Z2]. split; [exact Z1|]. fold n.
    set (Qn := bfly u d ^ Nat.log2 n) in *. pose proof (@Q_ge1 G u d HG Hd n) as Q1. fold Qn in Q1. pose proof (u_pos HG) as U.
    assert (LI : length (IDFT y) = n) by (unfold IDFT; rewrite tab_length; exact L1).
    assert (B : l2 n (fun k => at_ (IDFT y) k -c at_ x k) <= (Qn - 1) * norm2 x).
    { pose proof (@pars_DFT (IDFT y) x) as D. rewrite LI in D. specialize (D eq_refl n0). rewrite DFT_IDFT in D.
      assert (EX : l2 n (at_ (DFT x)) = sqrt (INR n) * norm2 x) by (pose proof (@C103_length x n0) as K; rewrite norm2_l2, DFT_length in K; exact K).
      rewrite EX, D in L2. apply Rmult_le_reg_l with (sqrt (INR n)); [apply sqrt_lt_R0, lt_0_INR; exact n0|]. lra. }
    assert (B2 : l2 n (at_ (IDFT y)) <= Qn * norm2 x).
    { rewrite (@l2_ext n (at_ (IDFT y)) (fun k => (at_ (IDFT y) k -c at_ x k) +c at_ x k)) by (intros; ring). eapply Rle_trans; [apply l2_tri|]. unfold norm2 in *. fold n in B |- *. fold (l2 n (at_ x)) in B |- *. lra. }
    assert (R0 : 0 <= Qn * (1 + u) ^ 2 - 1) by (assert (1 <= (1 + u) ^ 2) by (cbn [pow]; nra); nra).
    fold (l2 n (fun k => at_ (ifft_fresh (F := G) c y) k -c at_ x k)).
    rewrite (@l2_ext n _ (fun k => (at_ (ifft_fresh (F := G) c y) k -c at_ (IDFT y) k) +c (at_ (IDFT y) k -c at_ x k))) by (intros; ring).
    eapply Rle_trans; [apply l2_tri|]. apply Rle_trans with ((Qn * (1 + u) ^ 2 - 1) * (Qn * norm2 x) + (Qn - 1) * norm2 x).
    + apply Rplus_le_compat; [|exact B]. eapply Rle_trans; [exact Z2|]. apply Rmult_le_compat_l; assumption.
    + right. replace (2 * Nat.log2 n)%nat with (Nat.log2 n + Nat.log2 n)%nat by lia. rewrite pow_add. fold Qn. ring.
Qed.
Print Assumptions C103_roundtrip.
(* prec-bit round-to-nearest-even arithmetic (L_flx.v): the relative root-mean-square error of the spectrum is at most 11 n log2(n) 2^-prec *)
Theorem C103_float_fft : forall (prec : Z) (c : cfg) (x : list C), (24 <= prec)%Z -> c_precomp c = false \/ prec = 24%Z \/ prec = 53%Z ->
  (32 <= length x)%nat -> is_pow2 (length x) = true -> 11 * INR (length x) * INR (Nat.log2 (length x)) <= bpow radix2 prec ->
  exists p y, fft (F := flx prec) c (new_planner (T := R)) x = Done (p, y, ROk) /\
    close2 (11 * INR (length x) * INR (Nat.log2 (length x)) * bpow radix2 (- prec) * norm2 (DFT x)) y (DFT x).
Proof.
  intros prec c x Hprec Hc Hn Hp Hb. set (n := length x) in *.
  assert (Hd : 0 <= dd prec n). { unfold dd. pose proof (pos_INR n). pose proof (uu_pos prec). nra. }
  destruct (@C103_fft (flx prec) (uu prec) (dd prec n) c x (flx_rounded Hprec) Hd Hn Hp) as (p & y & E & N1 & N2).
  - apply flx_tw; assumption.
  - exists p, y. split; [exact E|]. split; [exact N1|]. eapply Rle_trans; [exact N2|].
    apply Rmult_le_compat_r; [apply norm2_pos|]. fold n. pose proof (@flx_bfly prec Hprec n Hn Hb (Nat.log2 n) (@Hb' prec n Hb)) as Q.
    pose proof (pos_INR n). pose proof (pos_INR (Nat.log2 n)). pose proof (uu_pos prec). fold (uu prec).
    assert (0 <= INR n * INR (Nat.log2 n)) by nra. nra.
Qed.
Print Assumptions C103_float_fft.
(* there and back: relative error 22 n log2(n) 2^-prec of the whole, and so of every sample with respect to the length of the signal *)
Theorem C103_float_roundtrip : forall (prec : Z) (c : cfg) (x : list C), (24 <= prec)%Z -> c_precomp c = false \/ prec = 24%Z \/ prec = 53%Z ->
  (32 <= length x)%nat -> is_pow2 (length x) = true -> 22 * INR (length x) * INR (Nat.log2 (length x)) <= bpow radix2 prec ->
  exists p y p' z, fft (F := flx prec) c (new_planner (T := R)) x = Done (p, y, ROk) /\ ifft (F := flx prec) c p y = Done (p', z, ROk) /\
    close2 (22 * INR (length x) * INR (Nat.log2 (length x)) * bpow radix2 (- prec) * norm2 x) z x /\
    within (22 * INR (length x) * INR (Nat.log2 (length x)) * bpow radix2 (- prec) * norm2 x) z x.
Proof.
  intros prec c x Hprec Hc Hn Hp Hb22. set (n := length x) in *.
  pose proof (nR Hn) as HnR. pose proof (log5 Hn) as HL.
  assert (Hb : 11 * INR n * INR (Nat.log2 n) <= bpow radix2 prec) by nra.
  assert (Hd : 0 <= dd prec n). { unfold dd. pose proof (uu_pos prec). nra. }
  destruct (@C103_roundtrip (flx prec) (uu prec) (dd prec n) c x (flx_rounded Hprec) Hd Hn Hp) as (p & y & p' & z & E & E2 & N1 & N2).
  - apply flx_tw; assumption.
  - apply fofnat_pow2; assumption.
  - enough (K : sqrt (rsum n (fun k => Cnorm2 (at_ z k -c at_ x k))) <= 22 * INR n * INR (Nat.log2 n) * bpow radix2 (- prec) * norm2 x).
    { exists p, y, p', z. split; [exact E|]. split; [exact E2|]. split; [split; [exact N1|exact K]|]. split; [exact N1|]. intros k Hk. eapply Rle_trans; [|exact K].
      apply (@l2_peak n (fun k => at_ z k -c at_ x k) k). exact Hk. }
    eapply Rle_trans; [exact N2|]. apply Rmult_le_compat_r; [apply norm2_pos|]. fold n. pose proof (uu_pos prec) as Hu. fold (uu prec).
    assert (HB : 22 * INR n * INR (Nat.log2 n) * uu prec <= 1).
    { unfold uu. rewrite bpow_opp. pose proof (bpow_gt_0 radix2 prec).
      apply Rmult_le_reg_r with (bpow radix2 prec); [assumption|]. rewrite Rmult_assoc, Rinv_l by lra. lra. }
    assert (EM : INR (2 * Nat.log2 n) = 2 * INR (Nat.log2 n)) by (rewrite mult_INR; cbn [INR]; ring).
    pose proof (@flx_bfly prec Hprec n Hn Hb (2 * Nat.log2 n)%nat) as Q. rewrite EM in Q. specialize (Q ltac:(lra)).
    set (B := bfly (uu prec) (dd prec n) ^ (2 * Nat.log2 n)) in *. set (v := uu prec) in *.
    assert (V : 160 <= INR n * INR (Nat.log2 n)) by nra. set (w := INR n * INR (Nat.log2 n)) in *.
    replace (10.8 * INR n * (2 * INR (Nat.log2 n)) * v) with (21.6 * w * v) in Q by (unfold w; lra).
    replace (22 * INR n * INR (Nat.log2 n) * v) with (22 * w * v) in * by (unfold w; ring).
    assert (S2 : (1 + v) ^ 2 <= 1 + 2.1 * v) by (cbn [pow]; nra).
    assert (B1 : 0 <= 1 + v) by lra.
    apply Rle_trans with ((1 + 21.6 * w * v) * (1 + 2.1 * v) - 1).
    + apply Rplus_le_compat_r. apply Rle_trans with ((1 + 21.6 * w * v) * (1 + v) ^ 2); [apply Rmult_le_compat_r; [apply pow_le; exact B1|exact Q]|].
      apply Rmult_le_compat_l; [nra|exact S2].
    + nra.
Qed.
Print Assumptions C103_float_roundtrip.
(* f32, 1024 samples: within 0.7 % of the length of the spectrum; f64, 1024 samples back to 2.6e-11 of the length of the signal *)
Example C103_f32_1024 : forall (x : list C), length x = 1024%nat ->
  exists p y, fft (F := flx 24) (cfg_std F32) (new_planner (T := R)) x = Done (p, y, ROk) /\ close2 (7 / 1000 * norm2 (DFT x)) y (DFT x).
Proof.
  intros x Hx. assert (HL : Nat.log2 (length x) = 10%nat) by (rewrite Hx; reflexivity).
  assert (E1 : INR (length x) = 1024). { rewrite Hx, INR_IZR_INZ. reflexivity. }
  assert (E2 : INR (Nat.log2 (length x)) = 10). { rewrite HL, INR_IZR_INZ. reflexivity. }
  assert (EB : bpow radix2 24 = 16777216) by reflexivity.
  destruct (@C103_float_fft 24 (cfg_std F32) x ltac:(lia) (or_intror (or_introl eq_refl))) as (p & y & E & N1 & N2).
  - rewrite Hx. lia.
  - rewrite Hx. reflexivity.
  - rewrite E1, E2, EB. lra.
  - exists p, y. split; [exact E|]. split; [exact N1|]. eapply Rle_trans; [exact N2|]. apply Rmult_le_compat_r; [apply norm2_pos|]. rewrite E1, E2, bpow_opp, EB. lra.
Qed.
Example C103_f64_1024 : forall (x : list C), length x = 1024%nat ->
  exists p y p' z, fft (F := flx 53) (cfg_std F64) (new_planner (T := R)) x = Done (p, y, ROk) /\ ifft (F := flx 53) (cfg_std F64) p y = Done (p', z, ROk) /\
    close2 (26 / 1000000000000 * norm2 x) z x.
Proof.
  intros x Hx. assert (HL : Nat.log2 (length x) = 10%nat) by (rewrite Hx; reflexivity).
  assert (E1 : INR (length x) = 1024). { rewrite Hx, INR_IZR_INZ. reflexivity. }
  assert (E2 : INR (Nat.log2 (length x)) = 10). { rewrite HL, INR_IZR_INZ. reflexivity. }
  assert (EB : bpow radix2 53 = 9007199254740992) by reflexivity.
  destruct (@C103_float_roundtrip 53 (cfg_std F64) x ltac:(lia) (or_intror (or_intror eq_refl))) as (p & y & p' & z & E & E' & (N1 & N2) & _).
  - rewrite Hx. lia.
  - rewrite Hx. reflexivity.
  - rewrite E1, E2, EB. lra.
  - exists p, y, p', z. split; [exact E|]. split; [exact E'|]. split; [exact N1|]. eapply Rle_trans; [exact N2|]. apply Rmult_le_compat_r; [apply norm2_pos|]. rewrite E1, E2, bpow_opp, EB. lra.
Qed.

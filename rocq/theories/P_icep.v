(* Property C108: the real cepstrum in f32 arithmetic. *)
From Coq Require Import Reals Lra Lia ZArith List Bool.
From Flocq Require Import Core BinarySingleNaN.
From Verif Require Import L_err L_rerr L_flx L_ierr M_fft M_cep L_fft L_obj L_stft L_trig P_cep P_fft P_err P_rerr P_ierr P_irerr P_ispec L_ieee L_ieeex.
Import ListNotations.
Set Implicit Arguments.
Open Scope R_scope.

(* ---------- specification ---------- *)
(* the exact cepstrum: the inverse DFT of the logarithms ln(|X_k| + 10^-12) (log_mag of P_cep.v) *)
Definition cepstrum (x : list R) (j : nat) : R := re (idft (length x) (fun k => RtoC (log_mag x k)) j).
(* the library's logarithm of a positive number is finite and good to a millionth *)
Definition accurate_ln (lx : libx B32) : Prop := forall a, is_finite a = true -> 0 < B2R a ->
  is_finite (o_ln lx a) = true /\ Rabs (B2R (o_ln lx a) - ln (B2R a)) <= / 1000000 * (1 + Rabs (ln (B2R a))).
(* the relative error 15 n log2(n) 2^-24 of an FFT of length n *)
Definition fft_rel (n : nat) : R := 15 * INR n * INR (Nat.log2 n) * bpow radix2 (- precf B32).

(* ---------- proofs ---------- *)
Lemma p62 : bpow radix2 62 = 4611686018427387904. Proof. reflexivity. Qed.
Lemma sqrt_band a m h s e : 0 <= a <= 1 -> 0 <= m -> 0 < h -> 0 <= s -> e <= h * h -> Rabs (s - m * m) <= a * (m * m) + e -> Rabs (sqrt s - m) <= a * m + h.
Proof.
  intros Ha Hm Hh Hs He H. apply Rabs_le_inv in H. assert (am : 0 <= a * m) by nra. apply Rabs_le. split.
  - destruct (Rle_lt_dec ((1 - a) * m) h) as [L|L]; [pose proof (sqrt_pos s); lra|]. set (A := (1 - a) * m) in *.
    assert (A - h <= sqrt s); [|unfold A in *; lra]. rewrite <- (sqrt_square (A - h)) by lra. apply sqrt_le_1_alt.
    assert (A * A <= (1 - a) * (m * m)) by (unfold A; assert (0 <= (1 - a) * (m * m)) by nra; nra). nra.
  - assert (sqrt s <= (1 + a) * m + h); [|lra]. rewrite <- (sqrt_square ((1 + a) * m + h)) by nra. apply sqrt_le_1_alt.
    assert (0 <= (1 + a) * m) by nra. assert (0 <= m * m) by nra. assert ((1 + a) * (m * m) <= ((1 + a) * m) * ((1 + a) * m)) by nra. nra.
Qed.
Lemma div_le a b c : 0 < c -> a <= b * c -> a / c <= b.
Proof. intros Hc Ha. apply Rmult_le_reg_r with c; [exact Hc|]. unfold Rdiv. rewrite Rmult_assoc, Rinv_l; lra. Qed.
Lemma ln_minus1 z : 0 < z -> ln z <= z - 1.
Proof. intros H. destruct (Rle_lt_dec (ln z) (z - 1)) as [L|L]; [exact L|]. apply exp_increasing in L. rewrite exp_ln in L by exact H. pose proof (exp_ineq1_le (z - 1)). lra. Qed.
Lemma ln_lip a b r : 0 < b -> 0 <= r <= / 2 -> Rabs (a - b) <= r * b -> 0 < a /\ Rabs (ln a - ln b) <= 2 * r.
Proof.
  intros Hb Hr H. apply Rabs_le_inv in H. assert (Ha : b / 2 <= a) by nra. assert (A0 : 0 < a) by lra. split; [exact A0|].
  assert (E1 : ln a - ln b = ln (a / b)) by (unfold Rdiv; rewrite ln_mult, ln_Rinv; [ring|lra|lra|apply Rinv_0_lt_compat; lra]).
  assert (E2 : - (ln a - ln b) = ln (b / a)) by (unfold Rdiv; rewrite ln_mult, ln_Rinv; [ring|lra|lra|apply Rinv_0_lt_compat; lra]).
  apply Rabs_le. split.
  - pose proof (@ln_minus1 (b / a) ltac:(apply Rdiv_lt_0_compat; lra)) as L. assert (b / a - 1 <= 2 * r); [|lra].
    replace (b / a - 1) with ((b - a) / a) by (field; lra). apply div_le; [lra|]. nra.
  - pose proof (@ln_minus1 (a / b) ltac:(apply Rdiv_lt_0_compat; lra)) as L. assert (a / b - 1 <= r); [|lra].
    replace (a / b - 1) with ((a - b) / b) by (field; lra). apply div_le; lra.
Qed.
Lemma ln2_1 : 0 < ln 2 <= 1.
Proof. split; [rewrite <- ln_1; apply ln_increasing; lra|]. pose proof (@ln_minus1 2 ltac:(lra)). lra. Qed.
Lemma ln_pow2 k : Rabs (ln (2 ^ k)) <= INR k.
Proof. pose proof ln2_1. pose proof (pos_INR k). rewrite ln_pow by lra. rewrite Rabs_pos_eq; nra. Qed.
Lemma ln_64 a : / 2 ^ 41 <= a -> a <= 2 ^ 63 -> Rabs (ln a) <= 64.
Proof.
  intros H1 H2. assert (P : 0 < / 2 ^ 41) by (apply Rinv_0_lt_compat, pow_lt; lra).
  pose proof (ln_pow2 41) as L1. pose proof (ln_pow2 63) as L2. apply Rabs_le_inv in L1. apply Rabs_le_inv in L2.
  assert (E1 : ln (/ 2 ^ 41) <= ln a) by (destruct H1 as [H1|<-]; [left; apply ln_increasing; assumption|right; reflexivity]).
  assert (E2 : ln a <= ln (2 ^ 63)) by (destruct H2 as [H2|<-]; [left; apply ln_increasing; lra|right; reflexivity]).
  rewrite ln_Rinv in E1 by (apply pow_lt; lra). rewrite INR_IZR_INZ in L1, L2. cbn [Z.of_nat Pos.of_succ_nat Pos.succ] in L1, L2. apply Rabs_le. lra.
Qed.

Section Lem.
Variables (o : libm B32) (lx : libx B32).
Local Notation G := (ieee o).
Local Notation H := (ieeex lx).
Local Notation fin := (fin (f := B32)).
Local Notation val := (val (f := B32)).
Local Notation v := (v0 B32).
Local Notation eta := (etaf B32).
Local Notation tt := (1 / 10 ^ 12).
(* 1e-12 in f32: the quotient is the number Rust reads, 9223372 * 2^-63 *)
Lemma tiny_v : fin (M_cep.tiny (F := G)) /\ Rabs (val (M_cep.tiny (F := G)) - tt) <= v * tt /\ 0 < val (M_cep.tiny (F := G)).
Proof.
  destruct (@SF_val B32 (M_cep.tiny (F := G)) false 9223372 (-63)) as [A B]; [vm_compute; reflexivity|]. split; [exact A|]. rewrite B. cbn [cond_Zopp].
  change (bpow radix2 (-63)) with (/ 9223372036854775808). unfold L_ieee.v0. change (bpow radix2 (- precf B32)) with (/ 16777216). cbn [pow]. split; [|lra]. apply Rabs_le. lra.
Qed.
Definition mag_arg (z : cx (num B32)) : num B32 := @fadd _ G (@fsqrt _ H (@fadd _ G (@fmul _ G (re z) (re z)) (@fmul _ G (im z) (im z)))) (M_cep.tiny (F := G)).
Lemma eta_v : eta = bpow radix2 (-150). Proof. unfold L_ieee.etaf. change (SpecFloat.emin (precf B32) (emaxf B32)) with (-149)%Z. change (/ 2) with (bpow radix2 (-1)). rewrite <- bpow_plus. reflexivity. Qed.
Lemma mag_I z : fin (re z) -> fin (im z) -> Cabs (mkcx (val (re z)) (val (im z))) <= bpow radix2 62 ->
  fin (mag_arg z) /\ Rabs (val (mag_arg z) - (Cabs (mkcx (val (re z)) (val (im z))) + tt)) <= / 2000000 * (Cabs (mkcx (val (re z)) (val (im z))) + tt).
Proof.
  intros F1 F2 HM. set (Z := mkcx (val (re z)) (val (im z))) in *. set (m := Cabs Z) in *. assert (m0 : 0 <= m) by apply Cabs_nonneg.
  pose proof (Cabs_sq Z) as SQ. fold m in SQ. unfold Cnorm2 in SQ. cbn [re im Z] in SQ. set (a := val (re z)) in *. set (b := val (im z)) in *.
  assert (a2 : 0 <= a * a) by nra. assert (b2 : 0 <= b * b) by nra. rewrite p62 in HM.
  assert (M2 : m * m <= 4611686018427387904 * 4611686018427387904) by nra.
  assert (MX : 60000000000000000000000000000000000000 <= maxf B32). { unfold L_ieee.maxf. change (bpow radix2 (emaxf B32 - precf B32)) with 20282409603651670423947251286016. change (bpow radix2 (precf B32)) with 16777216. lra. }
  pose proof (v0_pos B32) as V0. assert (EV : v = / 16777216) by reflexivity. pose proof (etaf_pos B32) as E0.
  set (h := bpow radix2 (-74)). assert (h0 : 0 < h) by apply bpow_gt_0. assert (Eh : 4 * eta = h * h) by (rewrite eta_v; unfold h; rewrite <- bpow_plus; change 4 with (bpow radix2 2); rewrite <- bpow_plus; reflexivity).
  assert (hs : h <= / 10000000000000000000000). { unfold h. change (bpow radix2 (-74)) with (/ 18889465931478580854784). lra. }
  assert (es : eta <= h) by nra.
  destruct (@mul_r B32 o _ _ F1 F1) as [Fp Vp]; [fold a; rewrite Rabs_pos_eq; lra|]. destruct (@mul_r B32 o _ _ F2 F2) as [Fq Vq]; [fold b; rewrite Rabs_pos_eq; lra|]. fold a in Vp. fold b in Vq.
  pose proof (@rn_err B32 (a * a)) as Ep. pose proof (@rn_err B32 (b * b)) as Eq. rewrite <- Vp in Ep. rewrite <- Vq in Eq. pose proof (@rn_pos B32 _ a2) as Pp. pose proof (@rn_pos B32 _ b2) as Pq. rewrite <- Vp in Pp. rewrite <- Vq in Pq.
  rewrite (Rabs_pos_eq (a * a)) in Ep by exact a2. rewrite (Rabs_pos_eq (b * b)) in Eq by exact b2.
  unfold mag_arg. set (p := @fmul _ G (re z) (re z)) in *. set (q := @fmul _ G (im z) (im z)) in *. apply Rabs_le_inv in Ep. apply Rabs_le_inv in Eq.
  assert (vm : 0 <= v * (m * m)) by nra.
  destruct (@add_r B32 o _ _ Fp Fq) as [Fs Vs]; [rewrite Rabs_pos_eq by lra; rewrite EV in *; lra|]. pose proof (@rn_err B32 (val p + val q)) as Es. pose proof (@rn_pos B32 (val p + val q) ltac:(lra)) as Ps. rewrite <- Vs in Es, Ps.
  rewrite (Rabs_pos_eq (val p + val q)) in Es by lra. set (s := @fadd _ G p q) in *. apply Rabs_le_inv in Es.
  assert (Es2 : Rabs (val s - m * m) <= 2.01 * v * (m * m) + 4 * eta). { rewrite SQ. rewrite EV in *. apply Rabs_le. lra. }
  destruct (@sqrt_r B32 lx s Fs Ps) as [Fr Vr]. set (r := @fsqrt _ H s) in *.
  pose proof (@sqrt_band (2.01 * v) m h (val s) (4 * eta) ltac:(rewrite EV; lra) m0 h0 Ps ltac:(lra) Es2) as B. pose proof (sqrt_pos (val s)) as S0.
  pose proof (@rn_err B32 (sqrt (val s))) as Er. pose proof (@rn_pos B32 _ S0) as Pr. rewrite <- Vr in Er, Pr. rewrite (Rabs_pos_eq (sqrt _)) in Er by exact S0.
  apply Rabs_le_inv in B. apply Rabs_le_inv in Er. destruct tiny_v as (Ft & Et & Pt). apply Rabs_le_inv in Et. set (t := M_cep.tiny (F := G)) in *.
  cbn [pow] in *. rewrite EV in *.
  destruct (@add_r B32 o _ _ Fr Ft) as [Fy Vy]; [rewrite Rabs_pos_eq by lra; lra|]. pose proof (@rn_err B32 (val r + val t)) as Ey. rewrite <- Vy in Ey. rewrite (Rabs_pos_eq (val r + val t)) in Ey by lra. apply Rabs_le_inv in Ey. rewrite EV in Ey.
  split; [exact Fy|]. apply Rabs_le. lra.
Qed.
Lemma log_I z M g E : accurate_ln lx -> fin (re z) -> fin (im z) -> Cabs (mkcx (val (re z)) (val (im z))) <= bpow radix2 62 ->
  fin (fln (FloatX := H) (mag_arg z)) /\ Rabs (val (fln (FloatX := H) (mag_arg z))) <= 65 /\
  (0 <= M -> 0 < g <= M + tt -> Rabs (Cabs (mkcx (val (re z)) (val (im z))) - M) <= E -> 4 * E <= g -> Rabs (val (fln (FloatX := H) (mag_arg z)) - ln (M + tt)) <= 3 * (E / g) + / 10000).
Proof.
  intros HL F1 F2 HM. destruct (mag_I z F1 F2 HM) as [FA EA]. set (m := Cabs (mkcx (val (re z)) (val (im z)))) in *. assert (m0 : 0 <= m) by apply Cabs_nonneg.
  set (A := mag_arg z) in *. rewrite p62 in HM. apply Rabs_le_inv in EA. cbn [pow] in EA. assert (A0 : 0 < val A) by lra.
  destruct (HL A FA A0) as [FL EL]. cbn [fln ieeex]. set (L := o_ln lx A) in *. change (B2R L) with (val L) in EL. change (B2R A) with (val A) in EL.
  assert (LB : Rabs (ln (val A)) <= 64) by (apply ln_64; cbn [pow]; lra). split; [exact FL|]. apply Rabs_le_inv in EL. split.
  - apply Rabs_le_inv in LB. apply Rabs_le. split; (assert (X : Rabs (ln (val A)) <= 64) by (apply Rabs_le; exact LB)); lra.
  - intros M0 Hg HE H4. apply Rabs_le_inv in HE. assert (E0 : 0 <= E) by lra. assert (G0 : 0 <= E / g) by (apply Rmult_le_pos; [lra|left; apply Rinv_0_lt_compat; lra]).
    assert (G1 : E / g <= / 4) by (apply div_le; lra). assert (G2 : E <= E / g * (M + tt)).
    { replace E with (E / g * g) at 1 by (field; lra). apply Rmult_le_compat_l; [exact G0|lra]. }
    destruct (@ln_lip (val A) (M + tt) (1.01 * (E / g) + / 1000000)) as [_ D]; [cbn [pow]; lra|lra| |].
    + cbn [pow] in *. rewrite Rmult_plus_distr_r, Rmult_assoc. apply Rabs_le. lra.
    + apply Rabs_le_inv in D. apply Rabs_le. lra.
Qed.
End Lem.
Lemma idft_diff n (a b : nat -> C) j e : (0 < n)%nat -> (forall k, (k < n)%nat -> Cabs (a k -c b k) <= e) -> Cabs (idft n a j -c idft n b j) <= e.
Proof.
  intros Hn Hk. assert (P : 0 < INR n) by (apply lt_0_INR; exact Hn). unfold idft.
  replace (RtoC (/ INR n) *c csum n (fun k => a k *c Cconj (W n (j * k))) -c RtoC (/ INR n) *c csum n (fun k => b k *c Cconj (W n (j * k)))) with (RtoC (/ INR n) *c csum n (fun k => (a k -c b k) *c Cconj (W n (j * k)))).
  - rewrite Cabs_mul, Cabs_R, Rabs_pos_eq by (left; apply Rinv_0_lt_compat; exact P). apply Rle_trans with (/ INR n * (INR n * e)); [|right; field; lra].
    apply Rmult_le_compat_l; [left; apply Rinv_0_lt_compat; exact P|]. eapply Rle_trans; [apply Cabs_csum|]. rewrite <- rsum_const'. apply rsum_le'. intros k K. rewrite Cabs_mul, Cabs_conj, Cabs_W, Rmult_1_r. apply Hk, K.
  - rewrite (@csum_ext n (fun k => (a k -c b k) *c Cconj (W n (j * k))) (fun k => a k *c Cconj (W n (j * k)) -c b k *c Cconj (W n (j * k)))) by (intros; ring). rewrite csum_sub. ring.
Qed.
Section Main.
Variables (o : libm B32) (lx : libx B32) (c : cfg) (x : list (num B32)).
Local Notation G := (ieee o).
Local Notation H := (ieeex lx).
Let n := length x.
Let xs := real_values x.
Let X := dft n (fun j => RtoC (nth j xs 0)).
Let w := fft_rel n.
Let E := w * (rnorm xs + INR n * floor_size B32).
Lemma wide_v : values (widen (F := G) x) = map RtoC xs.
Proof. unfold values, widen, xs, real_values. rewrite !map_map. apply map_ext. intros a. reflexivity. Qed.
Lemma xs_len : length xs = n. Proof. unfold xs, real_values. apply map_length. Qed.
Lemma wide_norm : norm1 (values (widen (F := G) x)) = rnorm xs.
Proof.
  rewrite wide_v. unfold norm1, rnorm. rewrite map_length. apply rsum_ext. intros i Hi. unfold at_. rewrite (nth_indep _ C0 (RtoC 0)) by (rewrite map_length; exact Hi). rewrite map_nth, Cabs_R. reflexivity.
Qed.
Lemma wide_fin : finite_reals x -> finite_signal (widen (F := G) x).
Proof. intros Hf z Hz. apply in_map_iff in Hz. destruct Hz as (a & <- & Ha). split; [apply Hf, Ha|reflexivity]. Qed.
Lemma X_le k : Cabs (X k) <= rnorm xs.
Proof. unfold X, dft, rnorm. rewrite xs_len. eapply Rle_trans; [apply Cabs_csum|]. right. apply rsum_ext. intros j _. rewrite Cabs_mul, Cabs_W, Cabs_R. ring. Qed.
Lemma cep_I : accurate_trig o -> c_precomp c = false \/ accurate_tables o -> accurate_ln lx -> finite_reals x -> (32 <= n)%nat -> is_pow2 n = true ->
  15 * INR n * INR (Nat.log2 n) <= bpow radix2 (precf B32) -> rnorm xs <= bpow radix2 60 ->
  exists y, real_cepstrum (F := G) (X := H) c x = Done (Ok y) /\ length y = n /\ finite_reals y /\
    (forall j, (j < n)%nat -> Rabs (nth j (real_values y) 0) <= 131) /\
    forall g, 0 < g -> (forall k, (k < n)%nat -> g <= Cabs (X k) + 1 / 10 ^ 12) -> 4 * E <= g ->
      forall j, (j < n)%nat -> Rabs (nth j (real_values y) 0 - cepstrum xs j) <= 66 * w + 3 * (E / g) + / 10000.
Proof.
  intros HT Hc HL Hf Hn Hp Hb HN. assert (n0 : (0 < n)%nat) by lia. assert (N1 : 1 <= INR n) by (change 1 with (INR 1); apply le_INR; lia).
  assert (Lw : length (widen (F := G) x) = n) by apply map_length. pose proof (rnorm_pos xs) as P0.
  assert (W1 : 0 <= w <= 1).
  { unfold w, fft_rel. pose proof (bpow_gt_0 radix2 (- precf B32)). pose proof (pos_INR (Nat.log2 n)). split; [apply Rmult_le_pos; [nra|lra]|].
    apply Rle_trans with (bpow radix2 (precf B32) * bpow radix2 (- precf B32)); [apply Rmult_le_compat_r; lra|]. rewrite <- bpow_plus. right. reflexivity. }
  assert (NB : INR n <= 16777216).
  { change 16777216 with (bpow radix2 (precf B32)). pose proof (log5 Hn). nra. }
  assert (FS : 0 < floor_size B32 <= / 1000000000000000000000000000000) by (split; [apply bpow_gt_0|apply (tiny_1 B32)]).
  assert (NF : 0 <= INR n * floor_size B32 <= / 1000000). { split; [nra|]. apply Rle_trans with (16777216 * / 1000000000000000000000000000000); [apply Rmult_le_compat; lra|lra]. }
  assert (p60 : bpow radix2 60 = 1152921504606846976) by reflexivity. rewrite p60 in HN.
  assert (E1 : 0 <= E <= rnorm xs + / 1000000). { unfold E. split; [apply Rmult_le_pos; lra|]. apply Rle_trans with (1 * (rnorm xs + INR n * floor_size B32)); [apply Rmult_le_compat_r; lra|lra]. }
  destruct (@C89_ieee_fft B32 o c (widen (F := G) x) HT Hc (wide_fin Hf)) as (p & Z & EZ & FZ & WZ); rewrite ?Lw, ?wide_norm; try assumption.
  { apply Rle_trans with (bpow radix2 60); [rewrite p60; exact HN|apply bpow_le; cbn; lia]. }
  rewrite Lw, wide_norm in WZ. change (15 * INR n * INR (Nat.log2 n) * bpow radix2 (- precf B32)) with w in WZ. fold E in WZ. rewrite wide_v in WZ.
  destruct (@fft_fresh_new _ G c (widen (F := G) x)) as [(p1 & EF) _]; [lia|right; rewrite Lw; exact Hp|]. assert (ZE : fft_fresh (F := G) c (widen (F := G) x) = Z) by congruence. clear EF EZ p p1.
  destruct WZ as [LZ WZ]. rewrite DFT_length, map_length, xs_len in LZ. rewrite DFT_length, map_length, xs_len in WZ.
  assert (LZ' : length Z = n) by (rewrite <- LZ; unfold values; rewrite map_length; reflexivity).
  assert (WX : forall k, (k < n)%nat -> Cabs (at_ (values Z) k -c X k) <= E).
  { intros k Hk. specialize (WZ k Hk). rewrite DFT_at in WZ by (rewrite map_length, xs_len; exact Hk). rewrite map_length, xs_len in WZ. unfold X.
    rewrite (@dft_ext n (fun j => RtoC (nth j xs 0)) (at_ (map RtoC xs))); [exact WZ|]. intros j Hj. unfold at_. rewrite (nth_indep _ C0 (RtoC 0)) by (rewrite map_length, xs_len; exact Hj). rewrite map_nth. reflexivity. }
  set (d := mkcx (B754_zero false) (B754_zero false) : cx (num B32)).
  assert (AZ : forall k, (k < n)%nat -> at_ (values Z) k = mkcx (val (re (nth k Z d))) (val (im (nth k Z d)))).
  { intros k Hk. unfold at_, values. change C0 with ((fun z : cx (num B32) => mkcx (B2R (re z)) (B2R (im z))) d). rewrite map_nth. reflexivity. }
  assert (BZ : forall k, (k < n)%nat -> is_finite (re (nth k Z d)) = true /\ is_finite (im (nth k Z d)) = true /\ Cabs (at_ (values Z) k) <= bpow radix2 62 /\ Rabs (Cabs (at_ (values Z) k) - Cabs (X k)) <= E).
  { intros k Hk. destruct (FZ (nth k Z d)) as [A1 A2]; [apply nth_In; lia|]. split; [exact A1|]. split; [exact A2|]. specialize (WX k Hk). pose proof (X_le k) as XL. set (zk := at_ (values Z) k) in *.
    assert (T1 : Cabs zk <= Cabs (X k) + E). { replace zk with ((zk -c X k) +c X k) at 1 by ring. eapply Rle_trans; [apply Cabs_tri|]. lra. }
    assert (T2 : Cabs (X k) <= Cabs zk + E). { replace (X k) with (zk -c (zk -c X k)) at 1 by ring. eapply Rle_trans; [apply Cabs_sub|]. lra. }
    split; [rewrite p62; lra|]. apply Rabs_le. lra. }
  set (L := map (logmag (F := G) (X := H)) Z). assert (LL : length L = n) by (unfold L; rewrite map_length; exact LZ').
  assert (AL : forall k, (k < n)%nat -> at_ (values L) k = RtoC (val (fln (FloatX := H) (mag_arg o lx (nth k Z d))))).
  { intros k Hk. unfold at_, values, L. rewrite map_map. pose (fn := fun z : cx (num B32) => mkcx (B2R (re (logmag (F := G) (X := H) z))) (B2R (im (logmag (F := G) (X := H) z)))).
    transitivity (fn (nth k Z d)); [|reflexivity]. rewrite <- (map_nth fn). apply nth_indep. rewrite map_length. lia. }
  assert (FL : finite_signal L).
  { intros z Hz. unfold L in Hz. apply in_map_iff in Hz. destruct Hz as (z0 & <- & Hz). destruct (In_nth _ _ d Hz) as (k & Hk & <-). rewrite LZ' in Hk. destruct (BZ k Hk) as (A1 & A2 & A3 & _). rewrite AZ in A3 by exact Hk.
    destruct (@log_I o lx (nth k Z d) 0 1 0 HL A1 A2 A3) as (B1 & _). split; [exact B1|reflexivity]. }
  assert (B65 : forall k, (k < n)%nat -> Cabs (at_ (values L) k) <= 65).
  { intros k Hk. rewrite AL, Cabs_R by exact Hk. destruct (BZ k Hk) as (A1 & A2 & A3 & _). rewrite AZ in A3 by exact Hk. destruct (@log_I o lx (nth k Z d) 0 1 0 HL A1 A2 A3) as (_ & B2 & _). exact B2. }
  assert (NL : norm1 (values L) <= 65 * INR n). { unfold norm1. rewrite values_length, LL. apply Rle_trans with (rsum n (fun _ => 65)); [apply rsum_le'; exact B65|]. rewrite rsum_const'. lra. }
  destruct (@C89_ieee_ifft B32 o c L HT Hc FL) as (p & y & EY & FY & WY); rewrite ?LL; try assumption.
  { eapply Rle_trans; [exact NL|]. apply Rle_trans with (bpow radix2 60); [rewrite p60; lra|apply bpow_le; cbn; lia]. }
  rewrite LL in WY. change (15 * INR n * INR (Nat.log2 n) * bpow radix2 (- precf B32)) with w in WY.
  destruct (@fft_fresh_new _ G c L) as [_ (p1 & EF)]; [lia|right; rewrite LL; exact Hp|]. assert (YE : ifft_fresh (F := G) c L = y) by congruence. clear EF EY p p1.
  destruct WY as [LY WY]. rewrite IDFT_length, !values_length, LL in LY. rewrite IDFT_length, values_length, LL in WY.
  assert (WW : forall j, (j < n)%nat -> Cabs (at_ (values y) j -c idft n (at_ (values L)) j) <= 66 * w).
  { intros j Hj. specialize (WY j Hj). unfold IDFT in WY. rewrite values_length, LL in WY. unfold at_ in WY at 2. rewrite nth_tab in WY by exact Hj. eapply Rle_trans; [exact WY|]. rewrite Rmult_comm. apply Rmult_le_compat_r; [lra|].
    assert (norm1 (values L) / INR n <= 65) by (apply div_le; lra). lra. }
  assert (NY : forall j, (j < n)%nat -> nth j (real_values (map (fun z => re z) y)) 0 = re (at_ (values y) j)).
  { intros j Hj. unfold real_values, at_, values. rewrite map_map. change 0 with ((fun z : cx (num B32) => B2R (re z)) d). rewrite map_nth. change C0 with ((fun z : cx (num B32) => mkcx (B2R (re z)) (B2R (im z))) d). rewrite map_nth. reflexivity. }
  exists (map (fun z => re z) y). split.
  { unfold real_cepstrum. rewrite via_fresh by (try assumption; intros; apply map_length). rewrite ZE. fold L. rewrite YE. reflexivity. }
  split; [rewrite map_length; exact LY|]. split. { intros a Ha. apply in_map_iff in Ha. destruct Ha as (z & <- & Hz). apply FY, Hz. }
  split.
  - intros j Hj. rewrite NY by exact Hj. eapply Rle_trans; [apply Rabs_re|]. specialize (WW j Hj).
    pose proof (@idft_diff n (at_ (values L)) (fun _ => C0) j 65 n0) as D. assert (Z0 : idft n (fun _ => C0) j = C0) by (unfold idft; rewrite csum_0 by (intros; ring); ring). rewrite Z0 in D.
    replace (at_ (values y) j) with ((at_ (values y) j -c idft n (at_ (values L)) j) +c (idft n (at_ (values L)) j -c C0)) by ring. eapply Rle_trans; [apply Cabs_tri|].
    assert (D' : Cabs (idft n (at_ (values L)) j -c C0) <= 65) by (apply D; intros k Hk; replace (at_ (values L) k -c C0) with (at_ (values L) k) by ring; apply B65, Hk). lra.
  - intros g Hg HX H4 j Hj. rewrite NY by exact Hj. unfold cepstrum. rewrite xs_len. specialize (WW j Hj).
    change (re (at_ (values y) j) - re (idft n (fun k => RtoC (log_mag xs k)) j)) with (re (at_ (values y) j -c idft n (fun k => RtoC (log_mag xs k)) j)). eapply Rle_trans; [apply Rabs_re|].
    replace (at_ (values y) j -c idft n (fun k => RtoC (log_mag xs k)) j) with ((at_ (values y) j -c idft n (at_ (values L)) j) +c (idft n (at_ (values L)) j -c idft n (fun k => RtoC (log_mag xs k)) j)) by ring.
    eapply Rle_trans; [apply Cabs_tri|]. rewrite Rplus_assoc. apply Rplus_le_compat; [exact WW|]. apply idft_diff; [exact n0|]. intros k Hk. rewrite AL by exact Hk.
    destruct (BZ k Hk) as (A1 & A2 & A3 & A4). rewrite AZ in A3, A4 by exact Hk. destruct (@log_I o lx (nth k Z d) (Cabs (X k)) g E HL A1 A2 A3) as (_ & _ & B3).
    specialize (B3 (Cabs_nonneg _) (conj Hg (HX k Hk)) A4 H4).
    replace (RtoC (val (fln (FloatX := H) (mag_arg o lx (nth k Z d)))) -c RtoC (log_mag xs k)) with (RtoC (val (fln (FloatX := H) (mag_arg o lx (nth k Z d))) - log_mag xs k)) by (apply C_eq; cbn; ring). rewrite Cabs_R.
    replace (log_mag xs k) with (ln (Cabs (X k) + 1 / 10 ^ 12)); [exact B3|]. unfold log_mag. rewrite xs_len. reflexivity.
Qed.
End Main.
(* ---------- theorems ---------- *)
(* A finite signal of 32 or more samples whose absolute sum is at most 2^60 has a finite cepstrum, silence included *)
Theorem C108_finite : forall (o : libm B32) (lx : libx B32) (c : cfg) (x : list (num B32)), accurate_trig o -> c_precomp c = false \/ accurate_tables o -> accurate_ln lx ->
  finite_reals x -> (32 <= length x)%nat -> is_pow2 (length x) = true -> 15 * INR (length x) * INR (Nat.log2 (length x)) <= bpow radix2 (precf B32) -> rnorm (real_values x) <= bpow radix2 60 ->
  exists y, real_cepstrum (F := ieee o) (X := ieeex lx) c x = Done (Ok y) /\ length y = length x /\ finite_reals y /\ forall j, (j < length x)%nat -> Rabs (nth j (real_values y) 0) <= 131.
Proof. intros o lx c x H1 H2 H3 H4 H5 H6 H7 H8. destruct (@cep_I o lx c x) as (y & Y1 & Y2 & Y3 & Y4 & _); try assumption. exists y. auto. Qed.
Print Assumptions C108_finite.
(* and where every |X_k| + 10^-12 is at least g, four times the FFT's own error, it is close to the exact one *)
Theorem C108_error : forall (o : libm B32) (lx : libx B32) (c : cfg) (x : list (num B32)) (g : R), accurate_trig o -> c_precomp c = false \/ accurate_tables o -> accurate_ln lx ->
  finite_reals x -> (32 <= length x)%nat -> is_pow2 (length x) = true -> 15 * INR (length x) * INR (Nat.log2 (length x)) <= bpow radix2 (precf B32) -> rnorm (real_values x) <= bpow radix2 60 ->
  let n := length x in let err := fft_rel n * (rnorm (real_values x) + INR n * floor_size B32) in
  0 < g -> (forall k, (k < n)%nat -> g <= Cabs (dft n (fun j => RtoC (nth j (real_values x) 0)) k) + 1 / 10 ^ 12) -> 4 * err <= g ->
  exists y, real_cepstrum (F := ieee o) (X := ieeex lx) c x = Done (Ok y) /\ length y = n /\ finite_reals y /\
    forall j, (j < n)%nat -> Rabs (nth j (real_values y) 0 - cepstrum (real_values x) j) <= 66 * fft_rel n + 3 * (err / g) + / 10000.
Proof. intros o lx c x g H1 H2 H3 H4 H5 H6 H7 H8 n err H9 H10 H11. destruct (@cep_I o lx c x) as (y & Y1 & Y2 & Y3 & _ & Y5); try assumption. exists y. split; [exact Y1|]. split; [exact Y2|]. split; [exact Y3|]. apply Y5; assumption. Qed.
Print Assumptions C108_error.
(* The magnitude is taken by squaring without scaling: from 2^64 on it overflows. For every library with ln(+inf) = +inf, every
   configuration and every sin and cos, the impulse 2^64, 0, 0, 0 has the exact spectrum 2^64, 2^64, 2^64, 2^64 and its cepstrum holds no finite number. *)
Theorem C108_overflow_refuted : forall (o : libm B32) (lx : libx B32) (c : cfg), o_ln lx (B754_infinity false) = B754_infinity false ->
  exists x, finite_reals x /\ length x = 4%nat /\ rnorm (real_values x) = bpow radix2 64 /\
    (forall k, (k < 4)%nat -> dft 4 (fun j => RtoC (nth j (real_values x) 0)) k = RtoC (bpow radix2 64)) /\
    exists y, real_cepstrum (F := ieee o) (X := ieeex lx) c x = Done (Ok y) /\ length y = 4%nat /\ forall a, In a y -> is_finite a = false.
Proof.
  intros o lx c HI. set (b := norm B32 1 64). set (z := B754_zero false : num B32).
  assert (B : fin b /\ val b = bpow radix2 64).
  { unfold fin, val. rewrite <- SF2R_B2SF, <- is_finite_SF_B2SF. assert (E : B2SF b = SpecFloat.S754_finite false 8388608 41) by (vm_compute; reflexivity). rewrite E.
    split; [reflexivity|]. cbn -[bpow]. unfold F2R. cbn -[bpow]. change (IZR 8388608) with (bpow radix2 23). rewrite <- bpow_plus. reflexivity. }
  destruct B as [FB VB]. exists [b; z; z; z]. assert (RV : real_values [b; z; z; z] = [bpow radix2 64; 0; 0; 0]) by (cbn [real_values map]; change (B2R b) with (val b); rewrite VB; reflexivity).
  split. { intros a [<-|[<-|[<-|[<-|[]]]]]; [exact FB|reflexivity..]. } split; [reflexivity|]. rewrite RV. split.
  { unfold rnorm. cbn [length rsum nth]. rewrite !Rabs_R0, Rabs_pos_eq by apply bpow_ge_0. ring. }
  split. { intros k _. unfold dft. cbn [csum nth Nat.mul]. rewrite W_0. apply C_eq; cbn -[bpow]; ring. }
  assert (EL : map (logmag (F := ieee o) (X := ieeex lx)) (fft_fresh (F := ieee o) c (widen (F := ieee o) [b; z; z; z])) = repeat (mkcx (B754_infinity false) z) 4).
  { assert (M : map (fun q => (mag_arg o lx q)) (fft_fresh (F := ieee o) c (widen (F := ieee o) [b; z; z; z])) = repeat (B754_infinity false) 4) by (destruct c as [? ? [] ? ? ?]; vm_compute; reflexivity).
    apply (f_equal (map (fun a => mkcx (o_ln lx a) z))) in M. rewrite map_map in M. refine (eq_trans M _). cbn [repeat map]. rewrite HI. reflexivity. }
  eexists. split. { unfold real_cepstrum. rewrite via_fresh; [|cbn; lia|reflexivity|intros; apply map_length]. rewrite EL. reflexivity. }
  assert (A : forallb (fun a : num B32 => negb (is_finite a)) (map (fun q => re q) (ifft_fresh (F := ieee o) c (repeat (mkcx (B754_infinity false) z) 4))) = true) by (destruct c as [? ? [] ? ? ?]; vm_compute; reflexivity).
  split. { destruct c as [? ? [] ? ? ?]; vm_compute; reflexivity. }
  rewrite forallb_forall in A. intros a Ha. apply A in Ha. apply negb_true_iff in Ha. exact Ha.
Qed.
Print Assumptions C108_overflow_refuted.
(* concrete cases: a correctly rounding library; a unit impulse of 32 samples, whose cepstrum is known to a hundredth *)
Example C108_library : accurate_ln exact_libx.
Proof.
  intros a Fa Pa. cbn [exact_libx o_ln]. assert (B : Rabs (ln (val a)) <= 150).
  { assert (U : val a <= 2 ^ 128). { rewrite <- (Rabs_pos_eq (val a)) by (left; exact Pa). apply Rle_trans with (bpow radix2 128); [left; apply abs_B2R_lt_emax|right; rewrite (pow_IZR 2 128); reflexivity]. }
    assert (D : / 2 ^ 149 <= val a). { rewrite <- (Rabs_pos_eq (val a)) by (left; exact Pa). apply Rle_trans with (bpow radix2 (-149)); [right; rewrite (pow_IZR 2 149); reflexivity|]. apply (@abs_B2R_ge_emin 24 128). destruct a; try reflexivity; cbn in Pa; lra. }
    pose proof (ln_pow2 149) as L1. pose proof (ln_pow2 128) as L2. apply Rabs_le_inv in L1. apply Rabs_le_inv in L2. rewrite INR_IZR_INZ in L1, L2. cbn [Z.of_nat Pos.of_succ_nat Pos.succ] in L1, L2.
    assert (P : 0 < / 2 ^ 149) by (apply Rinv_0_lt_compat, pow_lt; lra).
    assert (E1 : ln (/ 2 ^ 149) <= ln (val a)) by (destruct D as [D|<-]; [left; apply ln_increasing; assumption|right; reflexivity]).
    assert (E2 : ln (val a) <= ln (2 ^ 128)) by (destruct U as [U|<-]; [left; apply ln_increasing; assumption|right; reflexivity]).
    rewrite ln_Rinv in E1 by (apply pow_lt; lra). apply Rabs_le. lra. }
  rewrite clip_id by lra. destruct (@near_rn (ln (val a))) as [F V]; [lra|]. split; [exact F|]. change (B2R (near_float B32 (ln (val a)))) with (val (near_float B32 (ln (val a)))). rewrite V.
  eapply Rle_trans; [apply rn_err|]. change (B2R a) with (val a). pose proof (eta_small B32). pose proof (ui_small B32). unfold L_ieee.v0 at 1. change (bpow radix2 (- precf B32)) with (/ 16777216). pose proof (Rabs_pos (ln (val a))). pose proof (ui_pos B32). lra.
Qed.
Definition impulse32 : list (num B32) := norm B32 1 0 :: repeat (B754_zero false) 31.
Example C108_impulse : exists y, real_cepstrum (F := ieee (exact_libm B32)) (X := ieeex exact_libx) (cfg_std F32) impulse32 = Done (Ok y) /\ length y = 32%nat /\ finite_reals y /\
  forall j, (j < 32)%nat -> Rabs (nth j (real_values y) 0 - cepstrum (1 :: repeat 0 31) j) <= / 100.
Proof.
  destruct (one_ok (exact_libm B32)) as [F1 V1]. cbn [fone ieee] in F1, V1.
  assert (RV : real_values impulse32 = 1 :: repeat 0 31) by (cbn [impulse32 real_values map repeat]; change (B2R (norm B32 1 0)) with (val (norm B32 1 0)); rewrite V1; reflexivity).
  assert (RN : rnorm (real_values impulse32) = 1) by (rewrite RV; unfold rnorm; cbn [length repeat rsum nth]; rewrite !Rabs_R0, Rabs_R1; ring).
  assert (LI : length impulse32 = 32%nat) by reflexivity. assert (I32 : INR 32 = 32) by (rewrite INR_IZR_INZ; reflexivity). assert (I5 : INR (Nat.log2 32) = 5) by (change (Nat.log2 32) with 5%nat; rewrite INR_IZR_INZ; reflexivity).
  assert (X1 : forall k, dft 32 (fun j => RtoC (nth j (real_values impulse32) 0)) k = C1).
  { intros k. rewrite RV. unfold dft. cbn [csum nth repeat Nat.mul]. rewrite W_0. apply C_eq; cbn -[Nat.mul]; ring. }
  pose proof (tiny_1 B32) as T1. pose proof (tiny_pos B32) as T0. change (L_ieee.tiny B32) with (floor_size B32) in T0, T1.
  assert (FR : fft_rel 32 = 15 * 32 * 5 * / 16777216) by (unfold fft_rel; rewrite I32, I5; reflexivity).
  destruct (@C108_error (exact_libm B32) exact_libx (cfg_std F32) impulse32 1 (C89_library B32) (or_intror (C89_tables B32)) C108_library) as (y & Y1 & Y2 & Y3 & Y4); rewrite ?LI, ?RN, ?I32, ?I5, ?FR; try lra; try lia; try reflexivity.
  - intros a [<-|Ha]; [exact F1|]. apply repeat_spec in Ha. subst a. reflexivity.
  - change (bpow radix2 (precf B32)) with 16777216. lra.
  - change 1 with (bpow radix2 0). apply bpow_le. lia.
  - intros k _. rewrite X1. change C1 with (RtoC 1). rewrite Cabs_R, Rabs_R1. cbn [pow]. lra.
  - exists y. split; [exact Y1|]. split; [exact Y2|]. split; [exact Y3|]. intros j Hj. rewrite <- RV. eapply Rle_trans; [apply Y4; exact Hj|]. rewrite LI, FR, RN, I32. lra.
Qed.

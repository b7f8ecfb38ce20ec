(* Property C89: the FFT in IEEE binary32/binary64 arithmetic, overflow and underflow included. *)
From Coq Require Import Reals Lra Lia ZArith List Bool.
From Flocq Require Import Core BinarySingleNaN.
From Verif Require Import L_err L_flx L_pi L_ierr L_ieee P_fft P_err.
Import ListNotations.
Set Implicit Arguments.
Open Scope R_scope.

(* ---------- specification ---------- *)
(* signals of floating-point numbers without infinities and NaN, and the numbers they stand for *)
Definition finite_signal (f : fmt) (x : list (cx (num f))) : Prop := forall z, In z x -> is_finite (re z) = true /\ is_finite (im z) = true.
Definition values (f : fmt) (x : list (cx (num f))) : list C := map (fun z => mkcx (B2R (re z)) (B2R (im z))) x.
(* a library whose sin and cos are off by at most 2 units of 2^-prec (and finite) on finite arguments *)
Definition accurate_trig (f : fmt) (o : libm f) : Prop := forall t, is_finite t = true ->
  is_finite (fst (o_sincos o t)) = true /\ is_finite (snd (o_sincos o t)) = true /\
  Rabs (B2R (fst (o_sincos o t)) - sin (B2R t)) <= 2 * bpow radix2 (- precf f) /\
  Rabs (B2R (snd (o_sincos o t)) - cos (B2R t)) <= 2 * bpow radix2 (- precf f).
(* the precomputed-twiddles feature: build.rs's own sin and cos, and printing a table entry and reading it back *)
Definition accurate_tables (f : fmt) (o : libm f) : Prop :=
  (forall t, is_finite t = true -> is_finite (o_sin o t) = true /\ Rabs (B2R (o_sin o t) - sin (B2R t)) <= 2 * bpow radix2 (- precf f)) /\
  (forall t, is_finite t = true -> is_finite (o_cos o t) = true /\ Rabs (B2R (o_cos o t) - cos (B2R t)) <= 2 * bpow radix2 (- precf f)) /\
  (forall t, is_finite t = true -> Rabs (B2R t) <= 1.01 -> is_finite (o_reparse o t) = true /\ Rabs (B2R (o_reparse o t) - B2R t) <= 2 * bpow radix2 (- precf f)).
(* 2^13 times the smallest normal number: what underflow can add per sample *)
Definition floor_size (f : fmt) : R := bpow radix2 (13 - emaxf f).

(* ---------- proofs ---------- *)
Section Lem.
Variables (f : fmt) (o : libm f) (c : cfg).
Local Notation G := (ieee o).
Local Notation fin := (fin (f := f)).
Local Notation val := (val (f := f)).
Local Notation tiny := (tiny f).
Local Notation ui := (ui f).
Lemma values_length x : length (values (f := f) x) = length x. Proof. apply map_length. Qed.
Lemma values_at x i : (i < length x)%nat -> at_ (values (f := f) x) i = cv val (nthc (F := G) x i).
Proof. intros H. unfold at_, values, nthc. rewrite (map_as_tab _ x (czero (F := G))), nth_tab by exact H. reflexivity. Qed.
Lemma sig_at x i : finite_signal x -> (i < length x)%nat -> cfin fin (nthc (F := G) x i).
Proof. intros H Hi. apply H. apply nth_In. exact Hi. Qed.
Lemma ilist_self x : finite_signal x -> ilist G fin val (maxf f) tiny 1 (fun i => Cabs (at_ (values x) i) + tiny) (values x) x.
Proof.
  intros H. split; [rewrite values_length; reflexivity|]. rewrite values_length. intros i Hi. rewrite values_at by exact Hi.
  apply fnear_inear. apply fnear_refl; [apply tiny_pos|]. apply sig_at; assumption.
Qed.
Lemma rsum_self x : rsum (length x) (fun i => Cabs (at_ x i) + tiny) = norm1 x + INR (length x) * tiny.
Proof. rewrite rsum_plus, rsum_const'. reflexivity. Qed.
Definition gnear (q S : R) (y : list C) (yh : list (cx (num f))) : Prop :=
  length yh = length y /\ forall i, (i < length y)%nat -> fnear fin val tiny q S (at_ y i) (nthc (F := G) yh i).
Lemma gnear_out q S y yh : gnear q S y yh -> finite_signal yh /\ within ((q - 1) * S) (values yh) y.
Proof.
  intros [Hl H]. split.
  - intros z Hz. destruct (In_nth _ _ (czero (F := G)) Hz) as (i & Hi & <-). destruct (H i ltac:(lia)) as (_ & _ & _ & F & _). exact F.
  - split; [rewrite values_length; exact Hl|]. intros k Hk. rewrite values_at by lia. apply (H k Hk).
Qed.
Lemma within_le a b (y z : list C) : within a y z -> a <= b -> within b y z.
Proof. intros [H1 H2] H. split; [exact H1|]. intros k Hk. eapply Rle_trans; [apply H2; exact Hk|exact H]. Qed.
Lemma ui16 : ui <= / 16. Proof. pose proof (ui_small f). lra. Qed.
Lemma tiny1 : tiny <= 1. Proof. pose proof (tiny_1 f). lra. Qed.
Lemma norm1_pos x : 0 <= norm1 x. Proof. unfold norm1. apply rsum_pos. intros. apply Cabs_nonneg. Qed.
Lemma fft_gen d x : 0 <= d -> ((length x <= 16)%nat -> kernI_ok G fin val d) -> is_pow2 (length x) = true ->
  ((16 < length x)%nat -> twI_ok G fin val c d (length x)) -> finite_signal x ->
  QQ ui d ^ Nat.log2 (length x) * (norm1 (values x) + INR (length x) * tiny) <= maxf f ->
  exists p y, fft (F := G) c (new_planner (T := num f)) x = Done (p, y, ROk) /\
    gnear (QQ ui d ^ Nat.log2 (length x)) (norm1 (values x) + INR (length x) * tiny) (DFT (values x)) y /\ Inv (F := G) c p /\ ready c p (length x).
Proof.
  intros Hd K Hp Ht Hx HM. assert (Hn : (0 < length x)%nat). { apply is_pow2_iff in Hp. destruct Hp as [L ->]. apply pow2_pos. }
  destruct (@fft_fresh_ok _ G c x Hn (or_intror Hp)) as [p E]. exists p, (fft_fresh (F := G) c x). split; [exact E|]. split.
  - unfold fft_fresh. rewrite Hp.
    pose proof (@pow2fft_I _ _ _ _ _ _ _ (ieee_bounded o) c tiny ui (tiny_pos f) (ui_v0 f) ui16 (slack f) d Hd tiny1 1 (fun i => Cabs (at_ (values x) i) + tiny) (values x) x) as P.
    rewrite values_length in P. specialize (P K Hp Ht (ilist_self Hx)). destruct P as [Pl P]. split; [exact Pl|]. intros i Hi.
    specialize (P i Hi). pose proof (rsum_self (values x)) as R. rewrite values_length in R. rewrite R, Rmult_1_l in P. apply (inear_fnear P HM).
  - assert (ER : run_calls (F := G) c (new_planner (T := num f)) [CFft x] = Done p) by (cbn [run_calls run_call]; unfold forget; rewrite E; reflexivity).
    split; [eapply (@run_calls_Inv _ G c); [apply Inv_new|exact ER]|].
    eapply (@history_ready _ G c); [exact ER|]. intros k [<-|[]]. apply Nat.le_refl.
Qed.
Lemma ifft_gen d p q S y yh : Inv (F := G) c p -> ready c p (length y) -> 0 <= d -> ((length y <= 16)%nat -> kernI_ok G fin val d) -> is_pow2 (length y) = true ->
  ((16 < length y)%nat -> twI_ok G fin val c d (length y)) -> INR (length y) <= bpow radix2 100 ->
  ilist G fin val (maxf f) tiny q S y yh -> q * QQ ui d ^ Nat.log2 (length y) * (1 + ui) * rsum (length y) S <= maxf f ->
  exists p' z, ifft (F := G) c p yh = Done (p', z, ROk) /\
    gnear (q * QQ ui d ^ Nat.log2 (length y) * ((1 + ui) * (1 + ui))) (/ INR (length y) * rsum (length y) S + tiny) (IDFT y) z.
Proof.
  intros HI Hr Hd K Hp Ht Hb Hy HM. assert (Hn : (0 < length y)%nat). { apply is_pow2_iff in Hp. destruct Hp as [L ->]. apply pow2_pos. }
  assert (Hl : length yh = length y) by apply Hy.
  destruct (@ifft_cases _ G c p yh HI) as [[H _]|[(_ & H & _)|(_ & _ & p' & z & E & _ & _ & Hz)]]; rewrite Hl in *.
  - lia.
  - exfalso. revert H. unfold supported. rewrite Hp, orb_true_r. discriminate.
  - exists p', z. split; [exact E|]. rewrite (Hz Hr).
    destruct (nat_pow2 o _ Hp Hb) as [Fn En].
    assert (Ht1 : tiny <= / INR (length y)).
    { assert (0 < INR (length y)) by (apply lt_0_INR; exact Hn). apply Rle_trans with (/ bpow radix2 100); [|apply Rinv_le_contravar; lra].
      rewrite <- bpow_opp. eapply Rle_trans; [apply tiny_small|]. apply bpow_le. lia. }
    destruct (@ifft_I _ _ _ _ _ _ _ (ieee_bounded o) c tiny ui (tiny_pos f) (ui_v0 f) ui16 (slack f) d Hd tiny1 q S y yh K Hp Ht Fn En Ht1 (maxf_ge1 f) Hy HM) as [A B].
    assert (EI : length (IDFT y) = length y) by (unfold IDFT; apply tab_length).
    split; [lia|]. rewrite EI. exact B.
Qed.
Lemma range q A B : 0 <= q <= 2 -> 0 <= A <= bpow radix2 (emaxf f - 2) -> 0 <= B <= 1 -> q * (A + B) <= maxf f.
Proof.
  intros Hq HA HB. eapply Rle_trans; [|apply maxf_big]. assert (E : bpow radix2 (emaxf f - 1) = 2 * bpow radix2 (emaxf f - 2)).
  { replace (emaxf f - 1)%Z with (1 + (emaxf f - 2))%Z by lia. rewrite bpow_plus. reflexivity. }
  assert (2 <= bpow radix2 (emaxf f - 2)). { change 2 with (bpow radix2 1). apply bpow_le. clear. destruct f; cbn; lia. }
  assert (q * (A + B) <= 2 * (A + B)) by (apply Rmult_le_compat_r; lra). lra.
Qed.
Lemma n_tiny r : 0 <= r <= bpow radix2 (precf f) -> 0 <= r * tiny <= / 1000000.
Proof.
  intros [H0 H]. pose proof (tiny_pos f). split; [nra|].
  apply Rle_trans with (bpow radix2 (precf f) * tiny); [apply Rmult_le_compat_r; lra|]. unfold L_ieee.tiny. rewrite <- bpow_plus.
  apply Rle_trans with (bpow radix2 (Z.opp 20)); [apply bpow_le; clear; destruct f; cbn; lia|]. change (bpow radix2 (Z.opp 20)) with (/ 1048576). lra.
Qed.
Lemma prec100 r : r <= bpow radix2 (precf f) -> r <= bpow radix2 100.
Proof. intros H. eapply Rle_trans; [exact H|]. apply bpow_le. clear. destruct f; cbn; lia. Qed.
Lemma v0_prec r : r <= bpow radix2 (precf f) -> r * v0 f <= 1.
Proof.
  intros H. unfold v0. rewrite bpow_opp. pose proof (bpow_gt_0 radix2 (precf f)).
  apply Rmult_le_reg_r with (bpow radix2 (precf f)); [assumption|]. rewrite Rmult_assoc, Rinv_l by lra. lra.
Qed.
(* numbers for n >= 32 *)
Lemma nums n (k : R) : (32 <= n)%nat -> 15 <= k -> k * INR n * INR (Nat.log2 n) <= bpow radix2 (precf f) ->
  32 <= INR n /\ 5 <= INR (Nat.log2 n) /\ INR n <= bpow radix2 (precf f) /\ 6.7 * INR n * ui <= / 2 /\ k * (INR n * INR (Nat.log2 n)) * v0 f <= 1.
Proof.
  intros Hn Hk Hb. pose proof (nR Hn) as HnR. pose proof (log5 Hn) as HL. assert (W0 : 5 * INR n <= INR n * INR (Nat.log2 n)) by nra.
  rewrite Rmult_assoc in Hb. set (w := INR n * INR (Nat.log2 n)) in *.
  assert (Hb2 : 15 * w <= bpow radix2 (precf f)) by nra. split; [exact HnR|]. split; [exact HL|]. split; [lra|]. split; [|apply v0_prec; exact Hb].
  pose proof (v0_prec Hb2) as V. pose proof (v0_pos f). unfold L_ieee.ui. assert (5 * (INR n * v0 f) <= w * v0 f) by nra. lra.
Qed.
Lemma pow_num n m : (32 <= n)%nat -> 6.7 * INR n * ui <= / 2 -> 15 * (INR n * INR m) * v0 f <= 1 -> 1 <= QQ ui (di f n) ^ m <= 1 + 14.1 * (INR n * INR m * v0 f).
Proof.
  intros Hn H6 Hm. pose proof (v0_pos f). pose proof (pos_INR n). pose proof (pos_INR m). assert (0 <= INR n * INR m * v0 f) by (apply Rmult_le_pos; [apply Rmult_le_pos; assumption|lra]).
  assert (E : INR n * INR m * ui = INR n * INR m * v0 f * (1 + / 1024)) by (unfold L_ieee.ui; ring).
  destruct (@QQ_pow_i f n m Hn H6) as [A B]; [rewrite E; lra|]. rewrite E in B. split; [exact A|lra].
Qed.
End Lem.

(* ---------- theorems ---------- *)
(* Forward transform of a power-of-two length n >= 32: if |x_0| + ... + |x_(n-1)| is at most a quarter of the range
   (2^126 for f32, 2^1022 for f64), no output overflows, and each is within 15 n log2(n) 2^-prec of the exact DFT,
   relative to |x_0| + ... + |x_(n-1)| plus the underflow floor. *)
Theorem C89_ieee_fft : forall (f : fmt) (o : libm f) (c : cfg) (x : list (cx (num f))),
  accurate_trig o -> c_precomp c = false \/ accurate_tables o -> finite_signal x -> (32 <= length x)%nat -> is_pow2 (length x) = true ->
  15 * INR (length x) * INR (Nat.log2 (length x)) <= bpow radix2 (precf f) -> norm1 (values x) <= bpow radix2 (emaxf f - 2) ->
  exists p y, fft (F := ieee o) c (new_planner (T := num f)) x = Done (p, y, ROk) /\ finite_signal y /\
    within (15 * INR (length x) * INR (Nat.log2 (length x)) * bpow radix2 (- precf f) * (norm1 (values x) + INR (length x) * floor_size f)) (values y) (DFT (values x)).
Proof.
  intros f o c x HT Hc Hx Hn Hp Hb HN. set (n := length x) in *.
  destruct (@nums f n 15 Hn ltac:(lra) Hb) as (HnR & HL & Hnb & H6 & HV).
  pose proof (pow_num _ Hn H6 HV) as HQ. destruct (@n_tiny f (INR n) ltac:(lra)) as [T0 T1].
  pose proof (norm1_pos (values x)) as N0. pose proof (v0_pos f) as V0. set (w := INR n * INR (Nat.log2 n)) in *. assert (W0 : 0 <= w) by (unfold w; nra).
  destruct (@fft_gen f o c (di f n) x) as (p & y & E & Y & _).
  - apply di_pos.
  - fold n. intros H. lia.
  - exact Hp.
  - intros _. apply table_i; try assumption; [apply (@prec100 f _ Hnb)|fold n; lra].
  - exact Hx.
  - fold n. apply range; [lra|lra|lra].
  - exists p, y. split; [exact E|]. apply gnear_out in Y. destruct Y as [Y1 Y2]. split; [exact Y1|]. eapply within_le; [exact Y2|]. fold n.
    fold (v0 f). change (floor_size f) with (tiny f). replace (15 * INR n * INR (Nat.log2 n)) with (15 * w) by (unfold w; ring).
    apply Rmult_le_compat_r; [lra|]. assert (0 <= w * v0 f) by nra. lra.
Qed.
Print Assumptions C89_ieee_fft.

(* Inverse transform *)
Theorem C89_ieee_ifft : forall (f : fmt) (o : libm f) (c : cfg) (y : list (cx (num f))),
  accurate_trig o -> c_precomp c = false \/ accurate_tables o -> finite_signal y -> (32 <= length y)%nat -> is_pow2 (length y) = true ->
  15 * INR (length y) * INR (Nat.log2 (length y)) <= bpow radix2 (precf f) -> norm1 (values y) <= bpow radix2 (emaxf f - 2) ->
  exists p z, ifft (F := ieee o) c (new_planner (T := num f)) y = Done (p, z, ROk) /\ finite_signal z /\
    within (15 * INR (length y) * INR (Nat.log2 (length y)) * bpow radix2 (- precf f) * (norm1 (values y) / INR (length y) + 2 * floor_size f)) (values z) (IDFT (values y)).
Proof.
  intros f o c y HT Hc Hy Hn Hp Hb HN. set (n := length y) in *.
  destruct (@nums f n 15 Hn ltac:(lra) Hb) as (HnR & HL & Hnb & H6 & HV).
  pose proof (pow_num _ Hn H6 HV) as HQ. destruct (@n_tiny f (INR n) ltac:(lra)) as [T0 T1].
  pose proof (norm1_pos (values y)) as N0. pose proof (v0_pos f) as V0. pose proof (v0_small f) as V1. set (w := INR n * INR (Nat.log2 n)) in *. assert (W0 : 160 <= w) by (unfold w; nra).
  assert (EL : length (values y) = n) by apply values_length.
  assert (Uv : (1 + ui f) * (1 + ui f) <= 1 + 2.1 * v0 f) by (unfold ui; nra). pose proof (ui_pos f) as U0. pose proof (ui_small f) as U1.
  assert (QU : QQ (ui f) (di f n) ^ Nat.log2 n * ((1 + ui f) * (1 + ui f)) <= 1 + 15 * w * v0 f).
  { apply Rle_trans with ((1 + 14.1 * (w * v0 f)) * (1 + 2.1 * v0 f)); [apply Rmult_le_compat; nra|]. nra. }
  assert (R : rsum (length (values y)) (fun i => Cabs (at_ (values y) i) + tiny f) = norm1 (values y) + INR n * tiny f) by (rewrite rsum_self, EL; reflexivity).
  destruct (@ifft_gen f o c (di f n) (new_planner (T := num f)) 1 (fun i => Cabs (at_ (values y) i) + tiny f) (values y) y (@Inv_new _ (ieee o) c) (@ready_new _ c _) (di_pos f n)) as (p & z & E & Z).
  - rewrite EL. intros H. lia.
  - rewrite EL. exact Hp.
  - rewrite EL. intros _. apply table_i; try assumption; [apply (@prec100 f _ Hnb)|lra].
  - rewrite EL. apply (@prec100 f _ Hnb).
  - apply ilist_self. exact Hy.
  - rewrite R, EL. apply range; [|lra|lra]. split; [apply Rmult_le_pos; lra|].
    apply Rle_trans with (QQ (ui f) (di f n) ^ Nat.log2 n * ((1 + ui f) * (1 + ui f))); [|lra]. nra.
  - exists p, z. split; [exact E|]. apply gnear_out in Z. destruct Z as [Z1 Z2]. split; [exact Z1|]. eapply within_le; [exact Z2|].
    rewrite R, EL, Rmult_1_l. fold (v0 f). change (floor_size f) with (tiny f). replace (15 * INR n * INR (Nat.log2 n)) with (15 * w) by (unfold w; ring).
    replace (/ INR n * (norm1 (values y) + INR n * tiny f) + tiny f) with (norm1 (values y) / INR n + 2 * tiny f) by (field; lra).
    assert (0 <= / INR n) by (left; apply Rinv_0_lt_compat; lra). pose proof (tiny_pos f).
    apply Rmult_le_compat_r; [unfold Rdiv; nra|]. lra.
Qed.
Print Assumptions C89_ieee_ifft.

(* There and back: n (|x_0| + ... + |x_(n-1)|) must fit, as the inverse divides by n last *)
Theorem C89_ieee_roundtrip : forall (f : fmt) (o : libm f) (c : cfg) (x : list (cx (num f))),
  accurate_trig o -> c_precomp c = false \/ accurate_tables o -> finite_signal x -> (32 <= length x)%nat -> is_pow2 (length x) = true ->
  30 * INR (length x) * INR (Nat.log2 (length x)) <= bpow radix2 (precf f) -> INR (length x) * norm1 (values x) <= bpow radix2 (emaxf f - 2) ->
  exists p y p' z, fft (F := ieee o) c (new_planner (T := num f)) x = Done (p, y, ROk) /\ ifft (F := ieee o) c p y = Done (p', z, ROk) /\ finite_signal z /\
    within (30 * INR (length x) * INR (Nat.log2 (length x)) * bpow radix2 (- precf f) * (norm1 (values x) + 2 * INR (length x) * floor_size f)) (values z) (values x).
Proof.
  intros f o c x HT Hc Hx Hn Hp Hb HN. set (n := length x) in *.
  destruct (@nums f n 30 Hn ltac:(lra) Hb) as (HnR & HL & Hnb & H6 & HV).
  pose proof (norm1_pos (values x)) as N0. pose proof (v0_pos f) as V0. pose proof (v0_small f) as V1. set (w := INR n * INR (Nat.log2 n)) in *. assert (W0 : 160 <= w) by (unfold w; nra).
  assert (EL : length (values x) = n) by apply values_length.
  assert (E2 : INR (2 * Nat.log2 n) = 2 * INR (Nat.log2 n)) by (rewrite mult_INR; cbn [INR]; ring).
  pose proof (@pow_num f n (Nat.log2 n) Hn H6 ltac:(fold w; nra)) as HQ. fold w in HQ.
  pose proof (@pow_num f n (2 * Nat.log2 n) Hn H6 ltac:(rewrite E2; replace (INR n * (2 * INR (Nat.log2 n))) with (2 * w) by (unfold w; ring); lra)) as HQ2.
  rewrite E2 in HQ2. replace (INR n * (2 * INR (Nat.log2 n))) with (2 * w) in HQ2 by (unfold w; ring).
  destruct (@n_tiny f (INR n) ltac:(lra)) as [T0 T1].
  assert (W5 : INR n <= w) by (unfold w; nra). 
  assert (NN : 0 <= INR n * (INR n * tiny f) <= 1).
  { split; [nra|]. rewrite Rmult_assoc in Hb. fold w in Hb. assert (B : INR n * INR n <= bpow radix2 (precf f) * bpow radix2 (precf f)) by nra. pose proof (tiny_pos f).
    apply Rle_trans with (bpow radix2 (precf f) * bpow radix2 (precf f) * tiny f); [nra|]. unfold tiny. rewrite <- !bpow_plus. change 1 with (bpow radix2 0). apply bpow_le. clear. destruct f; cbn; lia. }
  assert (NI : norm1 (values x) <= INR n * norm1 (values x)) by nra.
  destruct (@fft_gen f o c (di f n) x) as (p & y & E & Y & HI & Hr).
  { apply di_pos. } { fold n. intros H. lia. } { exact Hp. }
  { intros _. apply table_i; try assumption; [apply (@prec100 f _ Hnb)|fold n; lra]. } { exact Hx. }
  { fold n. apply range; [lra|lra|lra]. }
  fold n in Y, Hr. set (q := QQ (ui f) (di f n) ^ Nat.log2 n) in *. set (S := norm1 (values x) + INR n * tiny f) in *.
  assert (LD : length (DFT (values x)) = n) by (rewrite DFT_length; exact EL).
  assert (EQ : QQ (ui f) (di f n) ^ (2 * Nat.log2 n) = q * q). { replace (2 * Nat.log2 n)%nat with (Nat.log2 n + Nat.log2 n)%nat by lia. apply pow_add. }
  rewrite EQ in HQ2.
  assert (Uv : (1 + ui f) * (1 + ui f) <= 1 + 2.1 * v0 f) by (unfold ui; nra). pose proof (ui_pos f) as U0. pose proof (ui_small f) as U1.
  assert (QU : q * q * ((1 + ui f) * (1 + ui f)) <= 1 + 30 * w * v0 f).
  { apply Rle_trans with ((1 + 14.1 * (2 * w * v0 f)) * (1 + 2.1 * v0 f)); [apply Rmult_le_compat; nra|]. nra. }
  destruct (@ifft_gen f o c (di f n) p q (fun _ => S) (DFT (values x)) y HI) as (p' & z & E' & Z).
  { rewrite LD. exact Hr. } { apply di_pos. } { rewrite LD. intros H. lia. } { rewrite LD. exact Hp. }
  { rewrite LD. intros _. apply table_i; try assumption; [apply (@prec100 f _ Hnb)|lra]. }
  { rewrite LD. apply (@prec100 f _ Hnb). }
  { destruct Y as [Y1 Y2]. split; [exact Y1|]. intros i Hi. apply fnear_inear. apply Y2. exact Hi. }
  { rewrite LD, rsum_const'. fold q. replace (INR n * S) with (INR n * norm1 (values x) + INR n * (INR n * tiny f)) by (unfold S; ring). apply range; [|nra|lra]. split; [apply Rmult_le_pos; nra|].
    apply Rle_trans with (q * q * ((1 + ui f) * (1 + ui f))); [|lra]. assert (0 <= q * q) by nra. nra. }
  exists p, y, p', z. split; [exact E|]. split; [exact E'|]. apply gnear_out in Z. destruct Z as [Z1 Z2]. split; [exact Z1|].
  rewrite IDFT_DFT in Z2. eapply within_le; [exact Z2|]. rewrite LD, rsum_const'. fold q. fold (v0 f). change (floor_size f) with (tiny f).
  replace (30 * INR n * INR (Nat.log2 n)) with (30 * w) by (unfold w; ring). pose proof (tiny_pos f) as TP.
  replace (/ INR n * (INR n * S) + tiny f) with (S + tiny f) by (field; lra).
  assert (B1 : S + tiny f <= norm1 (values x) + 2 * INR n * tiny f) by (unfold S; nra). assert (B0 : 0 <= S + tiny f) by (unfold S; lra).
  apply Rmult_le_compat; [|exact B0|lra|exact B1]. assert (1 <= q * q) by nra. nra.
Qed.
Print Assumptions C89_ieee_roundtrip.

(* Lengths up to 16, whose kernels use f32 literals *)
Theorem C89_ieee_small : forall (f : fmt) (o : libm f) (c : cfg) (x : list (cx (num f))),
  finite_signal x -> (length x <= 16)%nat -> is_pow2 (length x) = true -> norm1 (values x) <= bpow radix2 (emaxf f - 2) ->
  exists p y, fft (F := ieee o) c (new_planner (T := num f)) x = Done (p, y, ROk) /\ finite_signal y /\
    within (INR (Nat.log2 (length x)) / 1000000 * (norm1 (values x) + INR (length x) * floor_size f)) (values y) (DFT (values x)).
Proof.
  intros f o c x Hx Hn Hp HN. set (n := length x) in *. pose proof (ui_pos f) as U0. pose proof (ui_small f) as U1. pose proof (gam_i f) as G1. pose proof (gam_i0 f) as G0.
  assert (B : 1 <= QQ (ui f) (/ 10000000) <= 1 + 5 / 10000000). { assert (U6 : ui f <= 6 / 100000000) by (unfold ui; pose proof (v0_small f); lra). unfold QQ. set (v := ui f) in *. split; [nra|]. 
    apply Rle_trans with ((1 + / 10000000) * (1 + 3.01 * v) * (1 + v)); [apply Rmult_le_compat_r; nra|]. nra. }
  assert (L4 : INR (Nat.log2 n) <= 4). { replace 4 with (INR 4) by (cbn; lra). apply le_INR. change 4%nat with (Nat.log2 16). apply Nat.log2_le_mono. exact Hn. }
  pose proof (pos_INR (Nat.log2 n)) as L0.
  assert (Q : QQ (ui f) (/ 10000000) ^ Nat.log2 n <= (1 + 5 / 10000000) ^ Nat.log2 n) by (apply pow_incr; lra).
  pose proof (@pow_linear (5 / 10000000) (Nat.log2 n) ltac:(lra) ltac:(nra)) as Q2.
  assert (Q1 : 1 <= QQ (ui f) (/ 10000000) ^ Nat.log2 n) by (apply pow_R1_Rle; lra).
  assert (HnR : INR n <= 16). { replace 16 with (INR 16) by (cbn; lra). apply le_INR. exact Hn. } pose proof (pos_INR n) as Hn0. pose proof (norm1_pos (values x)) as N0.
  assert (HnP : INR n <= bpow radix2 (precf f)). { apply Rle_trans with (bpow radix2 4); [change (bpow radix2 4) with 16; lra|apply bpow_le; clear; destruct f; cbn; lia]. }
  destruct (@n_tiny f (INR n) ltac:(lra)) as [T0 T1].
  destruct (@fft_gen f o c (/ 10000000) x) as (p & y & E & Y & _).
  - lra.
  - intros _. apply kern_i.
  - exact Hp.
  - fold n. intros H. lia.
  - exact Hx.
  - fold n. apply range; lra.
  - exists p, y. split; [exact E|]. apply gnear_out in Y. destruct Y as [Y1 Y2]. split; [exact Y1|]. eapply within_le; [exact Y2|]. fold n.
    change (floor_size f) with (tiny f). apply Rmult_le_compat_r; [lra|]. lra.
Qed.
Print Assumptions C89_ieee_small.

(* Any other length 17 <= n <= 4096, through m = next_pow2 (2n - 1): 2 n m times |x_0| + ... + |x_(n-1)| must fit *)
Theorem C89_ieee_bluestein : forall (f : fmt) (o : libm f) (c : cfg) (x : list (cx (num f))) (m : nat),
  accurate_trig o -> c_precomp c = false \/ accurate_tables o -> c_std c = true -> finite_signal x -> (17 <= length x <= 4096)%nat -> is_pow2 (length x) = false ->
  m = next_pow2 (2 * length x - 1) -> 100 * INR m * INR (Nat.log2 m) <= bpow radix2 (precf f) ->
  2 * INR (length x) * INR m * norm1 (values x) <= bpow radix2 (emaxf f - 2) ->
  exists p y, fft (F := ieee o) c (new_planner (T := num f)) x = Done (p, y, ROk) /\ finite_signal y /\
    within (52 * INR m * INR (Nat.log2 m) * bpow radix2 (- precf f) * (2 * INR (length x) * (norm1 (values x) + 2 * INR m * floor_size f))) (values y) (DFT (values x)).
Proof.
  intros f o c x m HT Hc Hs Hx [Hn Hn4] Hp Em Hb HN. set (n := length x) in *.
  assert (Hmp : is_pow2 m = true) by (rewrite Em; apply next_pow2_pow2).
  pose proof (blue_m32 Hn) as Hm. pose proof (blue_nm Hn) as [Hnm HnR]. rewrite <- Em in Hm, Hnm.
  destruct (@nums f m 100 Hm ltac:(lra) Hb) as (HmR & HL & Hmb & H6 & HV).
  assert (Hn5 : INR n <= 4096). { replace 4096 with (INR 4096) by (rewrite INR_IZR_INZ; reflexivity). apply le_INR. exact Hn4. }
  pose proof (norm1_pos (values x)) as N0. pose proof (v0_pos f) as V0. pose proof (v0_small f) as V1. set (w := INR m * INR (Nat.log2 m)) in *.
  assert (W5 : 5 * INR m <= w) by (unfold w; nra).
  pose proof (ui_pos f) as U0. pose proof (ui_small f) as U1. pose proof (gam_i f) as G1. pose proof (gam_i0 f) as G0.
  set (t := w * v0 f) in *. assert (Ht0 : 0 <= t) by (unfold t; nra). assert (Ht1 : t <= 1 / 100) by (unfold t in *; lra).
  assert (Eu : ui f = v0 f * (1 + / 1024)) by reflexivity.
  assert (Hmv : 5 * (INR m * v0 f) <= t) by (unfold t; nra).
  set (e := 9.7 * INR n * ui f). assert (He : 0 <= e <= 5.2 * (INR m * v0 f)).
  { unfold e. rewrite Eu. split; [nra|]. assert (9.7 * INR n * (1 + / 1024) <= 5.2 * INR m) by nra. nra. }
  (* Q <= 1 + 52 t *)
  assert (E3 : INR (Nat.log2 m * 3) = 3 * INR (Nat.log2 m)) by (rewrite mult_INR; cbn [INR]; ring).
  pose proof (@pow_num f m (Nat.log2 m * 3) Hm H6 ltac:(rewrite E3; replace (INR m * (3 * INR (Nat.log2 m))) with (3 * w) by (unfold w; ring); lra)) as HQ3.
  rewrite E3 in HQ3. replace (INR m * (3 * INR (Nat.log2 m)) * v0 f) with (3 * t) in HQ3 by (unfold t, w; ring). rewrite pow_mult in HQ3.
  pose proof (@pow_num f m (Nat.log2 m) Hm H6 ltac:(fold w; lra)) as HQ1. fold w in HQ1. fold t in HQ1.
  set (Qm := QQ (ui f) (di f m) ^ Nat.log2 m) in *.
  assert (S1 : 1 <= (1 + e) * (1 + gam (ui f)) <= 1 + 5.4 * (INR m * v0 f)).
  { split; [nra|]. apply Rle_trans with ((1 + 5.2 * (INR m * v0 f)) * (1 + 3.02 * v0 f)).
    - apply Rmult_le_compat; [lra|lra|lra|lra].
    - assert (INR m * v0 f <= 1 / 500) by lra. nra. }
  assert (S3 : 1 <= ((1 + e) * (1 + gam (ui f))) ^ 3 <= 1 + 6.5 * t).
  { split; [apply pow_R1_Rle; lra|]. apply Rle_trans with ((1 + 5.4 * (INR m * v0 f)) ^ 3); [apply pow_incr; lra|].
    eapply Rle_trans; [apply pow_linear; [nra|cbn [INR]; lra]|]. cbn [INR]. lra. }
  assert (S2 : 1 <= (1 + ui f) * (1 + ui f) <= 1 + t / 60) by (rewrite Eu; nra).
  set (Q := 1 * ((1 + e) * (1 + gam (ui f))) ^ 3 * Qm ^ 3 * ((1 + ui f) * (1 + ui f))).
  assert (HQ : 1 <= Q <= 1 + 52 * t).
  { unfold Q. set (X := ((1 + e) * (1 + gam (ui f))) ^ 3) in *. set (Y := Qm ^ 3) in *. set (Z := (1 + ui f) * (1 + ui f)) in *. split; [assert (1 <= X * Y) by nra; nra|].
    rewrite Rmult_1_l. apply Rle_trans with ((1 + 6.5 * t) * (1 + 42.3 * t) * (1 + t / 60)).
    - apply Rmult_le_compat; [apply Rmult_le_pos; lra|lra| |lra]. apply Rmult_le_compat; lra.
    - clear - Ht0 Ht1. assert (t * t <= t / 100) by nra. assert (0 <= t * t) by nra. nra. }
  (* sizes *)
  destruct (@n_tiny f (INR m) ltac:(lra)) as [T0 T1]. pose proof (tiny_pos f) as TP. pose proof (tiny_1 f) as TS.
  assert (EL : length (values x) = n) by apply values_length.
  assert (R : rsum n (fun i => Cabs (at_ (values x) i) + tiny f) = norm1 (values x) + INR n * tiny f) by (rewrite <- EL, rsum_self; reflexivity).
  assert (Hmn : (n <= m)%nat). { rewrite Em. pose proof (next_pow2_ge (2 * n - 1)). lia. }
  assert (ESA : rsum n (fun i => Cabs (at_ (values x) i) + tiny f) + INR (m - n) * tiny f = norm1 (values x) + INR m * tiny f) by (rewrite R, minus_INR by exact Hmn; ring).
  set (sA := norm1 (values x) + INR m * tiny f) in *. set (sB := 2 * INR n - 1 + INR m * tiny f).
  assert (HsB : 1 <= sB <= 2 * INR n) by (unfold sB; lra). assert (HsA : 0 <= sA) by (unfold sA; lra).
  assert (HAB : 0 <= sA * sB) by nra.
  assert (HAB2 : sA * sB + tiny f <= 2 * INR n * (norm1 (values x) + 2 * INR m * tiny f)).
  { apply Rle_trans with (sA * (2 * INR n) + tiny f); [assert (sA * sB <= sA * (2 * INR n)) by (apply Rmult_le_compat_l; lra); lra|]. unfold sA.
    assert (tiny f <= 2 * INR n * (INR m * tiny f)); [|lra]. assert (1 <= 2 * INR n * INR m) by nra. nra. }
  assert (Hnb : INR n <= bpow radix2 100) by (pose proof p100; lra).
  destruct (nat_pow2 o _ Hmp (@prec100 f _ Hmb)) as [Fm Em'].
  assert (Ht1' : tiny f <= / INR m). { apply Rmult_le_reg_r with (INR m); [lra|]. rewrite Rinv_l by lra. lra. }
  destruct (@fft_fresh_ok _ (ieee o) c x ltac:(fold n; lia) (or_introl Hs)) as [p E]. exists p, (fft_fresh (F := ieee o) c x). split; [exact E|].
  unfold fft_fresh. fold n. rewrite Hp.
  pose proof (@bluefft_I _ _ _ _ _ _ _ (ieee_bounded o) c (tiny f) (ui f) TP (ui_v0 f) (ui16 f) (slack f) (di f m) (di_pos f m) (tiny1 f)
    (fun i => PI * (INR i * INR i) / INR (length (values x))) 1 (fun i => Cabs (at_ (values x) i) + tiny f) (values x) x e) as P. cbv zeta in P.
  rewrite (@chirpz_DFT (values x)) in P by (rewrite EL; lia).
  rewrite EL in P. replace (blue_m n) with m in P by exact Em. rewrite ESA in P. fold sB Qm Q in P.
  destruct P as [P1 P2].
  - intros H. lia.
  - lia.
  - lra.
  - apply chirp_i; [exact HT|exact Hn|exact Hn5].
  - intros _. apply table_i; try assumption; [apply (@prec100 f _ Hmb)|lra].
  - exact Fm.
  - exact Em'.
  - exact Ht1'.
  - apply maxf_ge1.
  - apply ilist_self. exact Hx.
  - pose proof (@big_ok f ((1 + e) * Qm * sB)) as BO. pose proof p120. assert (0 <= (1 + e) * Qm * sB) by (apply Rmult_le_pos; [apply Rmult_le_pos; lra|lra]). rewrite Rabs_pos_eq in BO by assumption. apply BO.
    apply Rle_trans with (2 * 2 * (2 * INR n)); [|lra]. apply Rmult_le_compat; [apply Rmult_le_pos; lra|lra|apply Rmult_le_compat; lra|lra].
  - replace (INR m * (sA * sB) + tiny f) with (INR m * (norm1 (values x) * sB) + (INR m * (INR m * tiny f * sB) + tiny f)) by (unfold sA; ring).
    apply range; [lra| |].
    + split; [apply Rmult_le_pos; [lra|apply Rmult_le_pos; lra]|]. eapply Rle_trans; [|exact HN].
      replace (2 * INR n * INR m * norm1 (values x)) with (INR m * (norm1 (values x) * (2 * INR n))) by ring. apply Rmult_le_compat_l; [lra|]. apply Rmult_le_compat_l; lra.
    + split; [apply Rplus_le_le_0_compat; [apply Rmult_le_pos; [lra|apply Rmult_le_pos; lra]|lra]|].
      assert (M1 : INR m * (INR m * tiny f * sB) <= INR m * INR m * tiny f * 8192).
      { replace (INR m * (INR m * tiny f * sB)) with (INR m * INR m * tiny f * sB) by ring. apply Rmult_le_compat_l; [apply Rmult_le_pos; nra|lra]. }
      assert (M2 : INR m * INR m * tiny f <= bpow radix2 (precf f) * bpow radix2 (precf f) * tiny f) by (apply Rmult_le_compat_r; [lra|nra]).
      assert (M3 : bpow radix2 (precf f) * bpow radix2 (precf f) * tiny f <= bpow radix2 (Z.opp 20)).
      { unfold tiny. rewrite <- !bpow_plus. apply bpow_le. clear. destruct f; cbn; lia. }
      change (bpow radix2 (Z.opp 20)) with (/ 1048576) in M3. lra.
  - assert (GN : gnear o Q (sA * sB + tiny f) (DFT (values x)) (bluefft (F := ieee o) c x)).
    { split; [rewrite DFT_length, EL; exact P1|]. rewrite DFT_length, EL. exact P2. }
    apply gnear_out in GN. destruct GN as [Y1 Y2]. split; [exact Y1|]. eapply within_le; [exact Y2|]. fold (v0 f). change (floor_size f) with (tiny f).
    replace (52 * INR m * INR (Nat.log2 m) * v0 f) with (52 * t) by (unfold t, w; ring). apply Rmult_le_compat; lra.
Qed.
Print Assumptions C89_ieee_bluestein.

(* "A transform whose input and exact outputs are all in range does not overflow" is false of the lengths that go through the
   chirp: the product of the two m-point spectra is transformed back before it is divided by m. Three samples, f32:
   the DFT of (2^126, 0, 0) is 2^126 three times, the code returns infinities and NaN. *)
Definition ang1 : num B32 := norm B32 8784530 (-23).
Definition ang4 : num B32 := norm B32 8784530 (-21).
Definition root3 : num B32 := norm B32 14529495 (-24).
Definition half : num B32 := norm B32 1 (-1).
(* sin and cos of 0 and of the f32 neighbours of pi/3 and 4pi/3 from a table, correctly rounded elsewhere *)
Definition table_sincos (t : num B32) : num B32 * num B32 :=
  if Beqb t (B754_zero false) then (B754_zero false, norm B32 1 0)
  else if Beqb t ang1 then (root3, half)
  else if Beqb t (Bopp ang1) then (Bopp root3, half)
  else if Beqb t ang4 then (Bopp root3, Bopp half)
  else if Beqb t (Bopp ang4) then (root3, Bopp half)
  else (near_float B32 (sin (B2R t)), near_float B32 (cos (B2R t))).
Definition table_libm : libm B32 :=
  {| o_sin := fun t => fst (table_sincos t); o_cos := fun t => snd (table_sincos t); o_sincos := table_sincos; o_reparse := fun x => x |}.
Definition big_impulse : list (cx (num B32)) :=
  [mkcx (norm B32 1 126) (B754_zero false); mkcx (B754_zero false) (B754_zero false); mkcx (B754_zero false) (B754_zero false)].
Lemma v_ang1 : fin ang1 /\ val ang1 = 8784530 * / 8388608.
Proof. destruct (@SF_val B32 ang1 false 8784530 (-23)) as [F E]; [vm_compute; reflexivity|]. split; [exact F|]. rewrite E. reflexivity. Qed.
Lemma v_ang4 : fin ang4 /\ val ang4 = 8784530 * / 2097152.
Proof. destruct (@SF_val B32 ang4 false 8784530 (-21)) as [F E]; [vm_compute; reflexivity|]. split; [exact F|]. rewrite E. reflexivity. Qed.
Lemma v_root3 : fin root3 /\ val root3 = 14529495 * / 16777216.
Proof. destruct (@SF_val B32 root3 false 14529495 (-24)) as [F E]; [vm_compute; reflexivity|]. split; [exact F|]. rewrite E. reflexivity. Qed.
Lemma v_half : fin half /\ val half = / 2.
Proof. destruct (@SF_val B32 half false 8388608 (-24)) as [F E]; [vm_compute; reflexivity|]. split; [exact F|]. rewrite E. change (bpow radix2 (-24)) with (/ 16777216). cbn [cond_Zopp]. lra. Qed.
Lemma root3_R : 14529495 * / 16777216 <= sqrt 3 / 2 <= 145294953 * / 167772160.
Proof.
  assert (H : sqrt 3 * sqrt 3 = 3) by (apply sqrt_sqrt; lra). pose proof (sqrt_pos 3). split.
  - apply Rmult_le_reg_r with 2; [lra|]. replace (sqrt 3 / 2 * 2) with (sqrt 3) by field. apply Rnot_lt_le. intros L. nra.
  - apply Rmult_le_reg_r with 2; [lra|]. replace (sqrt 3 / 2 * 2) with (sqrt 3) by field. apply Rnot_lt_le. intros L. nra.
Qed.
Lemma sin_near t a d k : Rabs (t - a) <= d -> Rabs (cos a) <= k -> Rabs (sin t - sin a) <= d * (k + d).
Proof.
  intros H Hk. rewrite form4. pose proof (Rabs_pos (t - a)). pose proof (Rabs_pos (cos a)).
  rewrite !Rabs_mult, (Rabs_pos_eq 2) by lra.
  assert (A : Rabs (sin ((t - a) / 2)) <= d / 2). { eapply Rle_trans; [apply Rabs_sin_le|]. unfold Rdiv. rewrite Rabs_mult, (Rabs_pos_eq (/ 2)) by lra. lra. }
  assert (B : Rabs (cos ((t + a) / 2)) <= k + d).
  { replace (cos ((t + a) / 2)) with (cos a + (cos ((t + a) / 2) - cos a)) by ring. eapply Rle_trans; [apply Rabs_triang|].
    apply Rplus_le_compat; [exact Hk|]. pose proof (chord ((t + a) / 2) a) as Q.
    assert (Q2 : Rabs (cos ((t + a) / 2) - cos a) <= Cabs (cis ((t + a) / 2) -c cis a)) by apply (@Rabs_re (cis ((t + a) / 2) -c cis a)).
    replace ((t + a) / 2 - a) with ((t - a) * / 2) in Q by field. rewrite Rabs_mult, (Rabs_pos_eq (/ 2)) in Q by lra. lra. }
  pose proof (Rabs_pos (sin ((t - a) / 2))). pose proof (Rabs_pos (cos ((t + a) / 2))).
  apply Rle_trans with (2 * (k + d) * (d / 2)); [|lra]. apply Rmult_le_compat; lra.
Qed.
Lemma cos_near t a d : Rabs (t - a) <= d -> Rabs (cos t - cos a) <= d.
Proof. intros H. pose proof (chord t a). pose proof (@Rabs_re (cis t -c cis a)) as Q. cbn [re cis Csub] in Q. lra. Qed.
Lemma ang1_near : Rabs (val ang1 - PI / 3) <= 3 / 100000000.
Proof. destruct v_ang1 as [_ ->]. pose proof PI_bounds. apply Rabs_le. lra. Qed.
Lemma ang4_near : Rabs (val ang4 - (PI / 3 + PI)) <= 117 / 1000000000.
Proof. destruct v_ang4 as [_ ->]. pose proof PI_bounds. apply Rabs_le. lra. Qed.
Lemma near_tab x s t : Rabs (x - t) <= 118 / 1000000000 -> s = x -> Rabs (s - t) <= 2 * v0 B32.
Proof. intros H ->. eapply Rle_trans; [exact H|]. unfold v0. cbn [precf]. change (bpow radix2 (- (24))) with (/ 16777216). lra. Qed.
Lemma s1_near : Rabs (val root3 - sin (val ang1)) <= 118 / 1000000000.
Proof.
  destruct v_root3 as [_ ->]. pose proof root3_R as R. pose proof (@sin_near _ _ _ 1 ang1_near) as S. rewrite sin_PI3, cos_PI3 in S.
  specialize (S ltac:(rewrite Rabs_pos_eq; lra)). apply Rabs_le_inv in S. apply Rabs_le. lra.
Qed.
Lemma c1_near : Rabs (val half - cos (val ang1)) <= 118 / 1000000000.
Proof. destruct v_half as [_ ->]. pose proof (@cos_near _ _ _ ang1_near) as S. rewrite cos_PI3 in S. apply Rabs_le_inv in S. apply Rabs_le. lra. Qed.
Lemma s4_near : Rabs (- val root3 - sin (val ang4)) <= 118 / 1000000000.
Proof.
  destruct v_root3 as [_ ->]. pose proof root3_R as R. pose proof (@sin_near _ _ _ (/ 2) ang4_near) as S. rewrite neg_sin, neg_cos, sin_PI3, cos_PI3 in S.
  specialize (S ltac:(rewrite Rabs_Ropp, Rabs_pos_eq; lra)). apply Rabs_le_inv in S. apply Rabs_le. lra.
Qed.
Lemma c4_near : Rabs (- val half - cos (val ang4)) <= 118 / 1000000000.
Proof. destruct v_half as [_ ->]. pose proof (@cos_near _ _ _ ang4_near) as S. rewrite neg_cos, cos_PI3 in S. apply Rabs_le_inv in S. apply Rabs_le. lra. Qed.
Lemma Beq_val (s t : num B32) : fin s -> fin t -> Beqb s t = true -> val s = val t.
Proof. intros F1 F2 H. rewrite (Beqb_correct _ _ s t F1 F2) in H. unfold val. revert H. case Req_bool_spec; [intros E _; exact E|discriminate]. Qed.
Lemma opp_ok (t : num B32) : fin t -> fin (Bopp t) /\ val (Bopp t) = - val t.
Proof. intros H. unfold fin, val. rewrite is_finite_Bopp, B2R_Bopp. split; [exact H|reflexivity]. Qed.
Lemma table_accurate : accurate_trig table_libm.
Proof.
  intros t Ft. change (- precf B32)%Z with (- precf B32)%Z. fold (v0 B32). cbn [table_libm o_sincos]. unfold table_sincos.
  destruct v_ang1 as [A1 _]. destruct v_ang4 as [A4 _]. destruct v_root3 as [R3 _]. destruct v_half as [H2 _].
  destruct (opp_ok A1) as [A1' E1]. destruct (opp_ok A4) as [A4' E4]. destruct (opp_ok R3) as [R3' ER]. destruct (opp_ok H2) as [H2' EH].
  pose proof (v0_pos B32). pose proof s1_near as S1. pose proof c1_near as C1'. pose proof s4_near as S4. pose proof c4_near as C4.
  destruct (Beqb t (B754_zero false)) eqn:B0.
  { apply Beq_val in B0; [|exact Ft|reflexivity]. change (B2R t) with (val t). rewrite B0. change (val (B754_zero false)) with 0. cbn [fst snd B2R]. rewrite sin_0, cos_0.
    destruct (one_ok table_libm) as [F1 V1]. cbn [fone ieee] in F1, V1. change (B2R (norm B32 1 0)) with (val (norm B32 1 0)). rewrite V1. repeat split; try exact F1; rewrite Rminus_diag_eq, Rabs_R0 by reflexivity; lra. }
  destruct (Beqb t ang1) eqn:B1.
  { apply Beq_val in B1; [|exact Ft|exact A1]. change (B2R t) with (val t). rewrite B1. cbn [fst snd].
    split; [exact R3|]. split; [exact H2|]. split; [apply (@near_tab _ _ _ S1 eq_refl)|apply (@near_tab _ _ _ C1' eq_refl)]. }
  destruct (Beqb t (Bopp ang1)) eqn:B1'.
  { apply Beq_val in B1'; [|exact Ft|exact A1']. change (B2R t) with (val t). rewrite B1', E1, sin_neg, cos_neg. cbn [fst snd].
    split; [exact R3'|]. split; [exact H2|]. split; [|apply (@near_tab _ _ _ C1' eq_refl)].
    change (B2R (Bopp root3)) with (val (Bopp root3)). rewrite ER. replace (- val root3 - - sin (val ang1)) with (- (val root3 - sin (val ang1))) by ring. rewrite Rabs_Ropp. apply (@near_tab _ _ _ S1 eq_refl). }
  destruct (Beqb t ang4) eqn:B4.
  { apply Beq_val in B4; [|exact Ft|exact A4]. change (B2R t) with (val t). rewrite B4. cbn [fst snd].
    split; [exact R3'|]. split; [exact H2'|]. split; [apply (@near_tab _ _ _ S4 ER)|apply (@near_tab _ _ _ C4 EH)]. }
  destruct (Beqb t (Bopp ang4)) eqn:B4'.
  { apply Beq_val in B4'; [|exact Ft|exact A4']. change (B2R t) with (val t). rewrite B4', E4, sin_neg, cos_neg. cbn [fst snd].
    split; [exact R3|]. split; [exact H2'|]. split; [|apply (@near_tab _ _ _ C4 EH)].
    change (B2R root3) with (val root3). replace (val root3 - - sin (val ang4)) with (- (- val root3 - sin (val ang4))) by ring. rewrite Rabs_Ropp. apply (@near_tab _ _ _ S4 eq_refl). }
  exact (exact_trig Ft).
Qed.
Lemma v_big : fin (norm B32 1 126) /\ val (norm B32 1 126) = bpow radix2 126.
Proof. destruct (@SF_val B32 (norm B32 1 126) false 8388608 103) as [F E]; [vm_compute; reflexivity|]. split; [exact F|]. rewrite E. replace 126%Z with (23 + 103)%Z by reflexivity. rewrite bpow_plus. reflexivity. Qed.
Theorem C89_bluestein_overflow_refuted : exists (o : libm B32) (x : list (cx (num B32))), accurate_trig o /\ finite_signal x /\
  length x = 3%nat /\ norm1 (values x) = bpow radix2 (emaxf B32 - 2) /\ DFT (values x) = repeat (RtoC (bpow radix2 126)) 3 /\
  exists p y, fft (F := ieee o) (cfg_std F32) (new_planner (T := num B32)) x = Done (p, y, ROk) /\ forall z, In z y -> is_finite (re z) = false /\ is_finite (im z) = false.
Proof.
  exists table_libm, big_impulse. destruct v_big as [FB VB].
  assert (EV : values big_impulse = [RtoC (bpow radix2 126); C0; C0]). { unfold values, big_impulse. cbn [map re im]. change (B2R (norm B32 1 126)) with (val (norm B32 1 126)). rewrite VB. reflexivity. }
  split; [exact table_accurate|]. split; [intros z [<-|[<-|[<-|[]]]]; split; try reflexivity; exact FB|]. split; [reflexivity|]. rewrite EV. split.
  { unfold norm1, at_. cbn [length rsum nth]. rewrite Cabs_0, Cabs_R, Rabs_pos_eq by apply bpow_ge_0. cbn [emaxf]. change (128 - 2)%Z with 126%Z. ring. }
  split.
  { unfold DFT. cbn [length repeat]. unfold tab. cbn [seq map]. unfold dft, at_. cbn [csum nth Nat.mul]. rewrite !W_0. repeat f_equal; creal; ring. }
  destruct (@fft_fresh_ok _ (ieee table_libm) (cfg_std F32) big_impulse ltac:(cbn; lia) (or_introl eq_refl)) as [p E].
  exists p, (fft_fresh (F := ieee table_libm) (cfg_std F32) big_impulse). split; [exact E|].
  apply (proj1 (Forall_forall _ _)). 
  assert (B : forallb (fun z : cx (num B32) => negb (is_finite (re z)) && negb (is_finite (im z))) (fft_fresh (F := ieee table_libm) (cfg_std F32) big_impulse) = true) by (vm_compute; reflexivity).
  rewrite forallb_forall in B. apply Forall_forall. intros z Hz. apply B in Hz. apply andb_prop in Hz. destruct Hz as [H1 H2]. apply negb_true_iff in H1, H2. split; assumption.
Qed.
Print Assumptions C89_bluestein_overflow_refuted.

(* The same for the inverse transform of any length, which divides by n last: (2^127, 2^127) should give (2^127, 0) *)
Theorem C89_ifft_overflow_refuted : forall (o : libm B32) (c : cfg), exists (y : list (cx (num B32))), finite_signal y /\
  length y = 2%nat /\ IDFT (values y) = [RtoC (bpow radix2 127); C0] /\
  exists p z, ifft (F := ieee o) c (new_planner (T := num B32)) y = Done (p, z, ROk) /\ exists w, In w z /\ is_finite (re w) = false.
Proof.
  intros o c. set (y := [mkcx (norm B32 1 127) (B754_zero false); mkcx (norm B32 1 127) (B754_zero false)] : list (cx (num B32))). exists y.
  assert (P : fin (norm B32 1 127) /\ val (norm B32 1 127) = bpow radix2 127).
  { destruct (@SF_val B32 (norm B32 1 127) false 8388608 104) as [F E]; [vm_compute; reflexivity|]. split; [exact F|]. rewrite E. replace 127%Z with (23 + 104)%Z by reflexivity. rewrite bpow_plus. reflexivity. }
  destruct P as [FB VB]. split; [intros z [<-|[<-|[]]]; split; try reflexivity; exact FB|]. split; [reflexivity|].
  assert (EV : values y = [RtoC (bpow radix2 127); RtoC (bpow radix2 127)]). { unfold values, y. cbn [map re im]. change (B2R (norm B32 1 127)) with (val (norm B32 1 127)). rewrite VB. reflexivity. }
  split.
  { rewrite EV. set (b := RtoC (bpow radix2 127)). replace [b; C0] with (IDFT (DFT [b; C0])) by apply IDFT_DFT. f_equal. unfold DFT. cbn [length]. unfold tab. cbn [seq map].
    unfold dft, at_. cbn [csum nth Nat.mul]. rewrite !W_0. repeat f_equal; unfold b; creal; ring. }
  destruct (@ifft_cases _ (ieee o) c (new_planner (T := num B32)) y (@Inv_new _ (ieee o) c)) as [[H _]|[(_ & H & _)|(_ & _ & p' & z & E & _ & _ & Hz)]].
  - cbn in H. lia.
  - exfalso. revert H. unfold supported. cbn. rewrite orb_true_r. discriminate.
  - exists p', z. split; [exact E|]. rewrite (Hz (@ready_new _ c _)). exists (nth 0 (ifft_fresh (F := ieee o) c y) (czero (F := ieee o))).
    split; [left; reflexivity|]. vm_compute. reflexivity.
Qed.
Print Assumptions C89_ifft_overflow_refuted.

(* ---------- examples ---------- *)
(* a correctly rounding library is accurate enough *)
Example C89_library : forall f : fmt, accurate_trig (exact_libm f).
Proof. intros f t Ft. exact (exact_trig Ft). Qed.
Example C89_tables : forall f : fmt, accurate_tables (exact_libm f).
Proof.
  intros f. split; [|split]; intros t Ft; cbn [exact_libm o_sin o_cos o_reparse].
  - apply (@near_float_ok f (sin (val t))), Rabs_le. destruct (SIN_bound (val t)). lra.
  - apply (@near_float_ok f (cos (val t))), Rabs_le. destruct (COS_bound (val t)). lra.
  - intros _. split; [exact Ft|]. rewrite Rminus_diag_eq by reflexivity. rewrite Rabs_R0. pose proof (bpow_gt_0 radix2 (- precf f)). lra.
Qed.
Lemma ones_sum (f : fmt) (o : libm f) (k : nat) : finite_signal (repeat (mkcx (norm f 1 0) (B754_zero false)) k) /\ norm1 (values (repeat (mkcx (norm f 1 0) (B754_zero false)) k)) = INR k.
Proof.
  destruct (one_ok o) as [F1 V1]. cbn [fone ieee] in F1, V1. split; [intros z Hz; apply repeat_spec in Hz; subst z; split; [exact F1|reflexivity]|].
  unfold norm1. rewrite values_length, repeat_length. rewrite <- (Rmult_1_r (INR k)), <- rsum_const'. apply rsum_ext. intros i Hi.
  rewrite (values_at o) by (rewrite repeat_length; exact Hi). unfold nthc. rewrite nth_repeat_lt || rewrite (nth_indep _ _ (mkcx (norm f 1 0) (B754_zero false))) by (rewrite repeat_length; exact Hi).
  rewrite nth_repeat. unfold cv. cbn [re im]. rewrite V1. change (val (B754_zero false)) with 0. change (mkcx 1 0) with (RtoC 1). rewrite Cabs_R. apply Rabs_R1.
Qed.
(* 1024 ones in f32 *)
Example C89_f32_1024 : exists p y, fft (F := ieee (exact_libm B32)) {| c_std := true; c_parallel := false; c_fma := true; c_precomp := false; c_kind := F32; c_lanes := 8 |}
    (new_planner (T := num B32)) (repeat (mkcx (norm B32 1 0) (B754_zero false)) 1024) = Done (p, y, ROk) /\ finite_signal y /\
  within 10 (values y) (DFT (values (repeat (mkcx (norm B32 1 0) (B754_zero false)) 1024))).
Proof.
  set (x := repeat (mkcx (norm B32 1 0) (B754_zero false)) 1024). destruct (ones_sum (exact_libm B32) 1024) as [F N]. fold x in F, N.
  assert (Hx : length x = 1024%nat) by apply repeat_length. clearbody x.
  assert (E1 : INR 1024 = 1024) by (rewrite INR_IZR_INZ; reflexivity).
  assert (E2 : INR (Nat.log2 1024) = 10) by (change (Nat.log2 1024) with 10%nat; rewrite INR_IZR_INZ; reflexivity).
  destruct (@C89_ieee_fft B32 (exact_libm B32) {| c_std := true; c_parallel := false; c_fma := true; c_precomp := false; c_kind := F32; c_lanes := 8 |} x (C89_library B32) (or_introl eq_refl) F) as (p & y & E & Y1 & Y2).
  - rewrite Hx. lia.
  - rewrite Hx. reflexivity.
  - rewrite Hx, E1, E2. change (bpow radix2 (precf B32)) with 16777216. lra.
  - rewrite N, E1. apply Rle_trans with (bpow radix2 10); [change (bpow radix2 10) with 1024; lra|apply bpow_le; cbn; lia].
  - exists p, y. split; [exact E|]. split; [exact Y1|]. eapply within_le; [exact Y2|]. rewrite N, Hx, E1, E2.
    change (bpow radix2 (- precf B32)) with (/ 16777216). pose proof (tiny_1 B32) as T. pose proof (tiny_pos B32). change (floor_size B32) with (tiny B32). lra.
Qed.
(* 1000 ones in f64, through the chirp *)
Example C89_f64_1000 : exists p y, fft (F := ieee (exact_libm B64)) (cfg_std F64) (new_planner (T := num B64)) (repeat (mkcx (norm B64 1 0) (B754_zero false)) 1000) = Done (p, y, ROk) /\ finite_signal y /\
  within (/ 1000) (values y) (DFT (values (repeat (mkcx (norm B64 1 0) (B754_zero false)) 1000))).
Proof.
  set (x := repeat (mkcx (norm B64 1 0) (B754_zero false)) 1000). destruct (ones_sum (exact_libm B64) 1000) as [F N]. fold x in F, N.
  assert (Hx : length x = 1000%nat) by apply repeat_length. clearbody x.
  assert (E0 : INR 1000 = 1000) by (rewrite INR_IZR_INZ; reflexivity).
  assert (E1 : INR 2048 = 2048) by (rewrite INR_IZR_INZ; reflexivity).
  assert (E2 : INR (Nat.log2 2048) = 11) by (change (Nat.log2 2048) with 11%nat; rewrite INR_IZR_INZ; reflexivity).
  assert (EM : (2048 = next_pow2 (2 * length x - 1))%nat) by (rewrite Hx; vm_compute; reflexivity).
  destruct (@C89_ieee_bluestein B64 (exact_libm B64) (cfg_std F64) x 2048 (C89_library B64) (or_intror (C89_tables B64)) eq_refl F) as (p & y & E & Y1 & Y2).
  - rewrite Hx. lia.
  - rewrite Hx. reflexivity.
  - exact EM.
  - rewrite E1, E2. change (bpow radix2 (precf B64)) with 9007199254740992. lra.
  - rewrite N, Hx, E0, E1. apply Rle_trans with (bpow radix2 40); [change (bpow radix2 40) with 1099511627776; lra|apply bpow_le; cbn; lia].
  - exists p, y. split; [exact E|]. split; [exact Y1|]. eapply within_le; [exact Y2|]. rewrite N, Hx, E0, E1, E2.
    change (bpow radix2 (- precf B64)) with (/ 9007199254740992). pose proof (tiny_1 B64) as T. pose proof (tiny_pos B64). change (floor_size B64) with (tiny B64). nra.
Qed.

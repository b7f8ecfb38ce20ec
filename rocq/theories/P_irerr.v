(* Property C95: the real FFT in IEEE binary32/binary64 arithmetic, overflow and underflow included. *)
From Coq Require Import Reals Lra Lia ZArith List Bool.
From Flocq Require Import Core BinarySingleNaN.
From Verif Require Import L_err L_flx L_pi L_ierr L_rerr L_irerr L_ieee P_fft P_rfft P_err P_rerr P_ierr.
Import ListNotations.
Set Implicit Arguments.
Open Scope R_scope.

(* ---------- specification ---------- *)
(* real signals of floating-point numbers without infinities and NaN, and the numbers they stand for *)
Definition finite_reals (f : fmt) (x : list (num f)) : Prop := forall a, In a x -> is_finite a = true.
Definition real_values (f : fmt) (x : list (num f)) : list R := map (fun a => B2R a) x.

(* ---------- proofs ---------- *)
Section Lem.
Variables (f : fmt) (o : libm f) (c : cfg).
Local Notation G := (ieee o).
Local Notation fin := (fin (f := f)).
Local Notation val := (val (f := f)).
Local Notation tiny := (tiny f).
Local Notation ui := (ui f).
Local Notation maxf := (maxf f).
Local Notation flist := (flist G fin val tiny).
Lemma rvalues_length x : length (real_values (f := f) x) = length x. Proof. apply map_length. Qed.
Lemma rvalues_at x i : (i < length x)%nat -> nth i (real_values (f := f) x) 0 = val (nthf (F := G) x i).
Proof. intros H. unfold real_values, nthf. rewrite (map_as_tab _ x (@fzero _ G)), nth_tab by exact H. reflexivity. Qed.
Lemma fin_at x i : finite_reals x -> (i < length x)%nat -> fin (nthf (F := G) x i).
Proof. intros H Hi. apply H. apply nth_In. exact Hi. Qed.
Lemma packed_len (x : list (num f)) : length (packed (F := G) x) = (length x / 2)%nat. Proof. apply tab_length. Qed.
Lemma values_packed x : values (packed (F := G) x) = pairs (real_values x).
Proof.
  unfold values, packed, pairs. rewrite rvalues_length. pose proof (Nat.mul_div_le (length x) 2 ltac:(lia)) as Hm. set (m := (length x / 2)%nat) in *.
  rewrite (map_as_tab _ _ (czero (F := G))), tab_length. apply tab_ext. intros i Hi. rewrite nth_tab by exact Hi. cbn [re im].
  rewrite !rvalues_at by lia. reflexivity.
Qed.
Lemma packed_fin x : finite_reals x -> finite_signal (packed (F := G) x).
Proof.
  intros H z Hz. destruct (In_nth _ _ (czero (F := G)) Hz) as (i & Hi & <-). rewrite packed_len in Hi. pose proof (Nat.mul_div_le (length x) 2 ltac:(lia)).
  unfold packed. rewrite nth_tab by exact Hi. cbn [re im]. split; apply fin_at; (exact H || lia).
Qed.
(* one half *)
Lemma half_ok : fin (M_rfft.half (F := G)) /\ val (M_rfft.half (F := G)) = / 2.
Proof.
  assert (P : L_ieee.fin (Bdiv mode_NE (norm B32 1 0) (norm B32 2 0) : num B32) /\ L_ieee.val (Bdiv mode_NE (norm B32 1 0) (norm B32 2 0) : num B32) = / 2).
  { unfold L_ieee.fin, L_ieee.val. rewrite <- SF2R_B2SF, <- is_finite_SF_B2SF. assert (E : B2SF (Bdiv mode_NE (norm B32 1 0) (norm B32 2 0)) = SpecFloat.S754_finite false 8388608 (-24)) by (vm_compute; reflexivity).
    rewrite E. split; [reflexivity|]. unfold SF2R, F2R. cbn [Fnum Fexp cond_Zopp]. change (bpow radix2 (-24)) with (/ 16777216). lra. }
  destruct P as [P1 P2]. destruct (conv_ok f _ P1) as [F E]. split; [exact F|]. unfold M_rfft.half. cbn [flit ieee Qnum Qden]. rewrite E. exact P2.
Qed.
(* -pi / m *)
Lemma rtw_angle_i m : (32 <= m)%nat -> is_pow2 m = true -> INR m <= bpow radix2 100 ->
  fin (rtw_angleI G m) /\ Rabs (val (rtw_angleI G m) - - (2 * PI * INR 1 / INR (2 * m))) <= 0.62 * ui.
Proof.
  intros Hn Hp Hb. assert (HnR : 32 <= INR m) by (apply nR; exact Hn).
  destruct (nat_pow2 o _ Hp Hb) as [Fn En]. destruct (pi_ok o) as [Fp Ep].
  destruct (@i_neg _ _ _ _ _ _ _ (ieee_bounded o) _ Fp) as [F2 E2].
  pose proof PI_RGT_0 as HP. pose proof PI_bounds as PB. pose proof (ui_pos f) as U0. pose proof (ui_v0 f) as UV. pose proof (ui_small f) as US. pose proof (v0_pos f) as V0.
  set (a := @fneg _ G (@fpi _ G)) in *.
  assert (Da : Rabs (val a - - PI) <= ui * 3.15).
  { rewrite E2. replace (- val (@fpi _ G) - - PI) with (- (val (@fpi _ G) - PI)) by ring. rewrite Rabs_Ropp. eapply Rle_trans; [exact Ep|]. apply Rmult_le_compat; lra. }
  assert (Ba : Rabs (val a) <= 3.2). { replace (val a) with ((val a - - PI) + - PI) by ring. eapply Rle_trans; [apply Rabs_triang|]. rewrite Rabs_Ropp, (Rabs_pos_eq PI) by lra. nra. }
  assert (I0 : 0 < / INR m) by (apply Rinv_0_lt_compat; lra).
  assert (I1 : / INR m <= / 32) by (apply Rinv_le_contravar; lra). pose proof (Rabs_pos (val a)) as A0.
  assert (Bq : Rabs (val a / INR m) <= 0.1) by (unfold Rdiv; rewrite Rabs_mult, (Rabs_pos_eq (/ INR m)) by lra; nra).
  assert (M1 : Rabs (val a / val (@fofnat _ G m)) <= maxf). { rewrite En. pose proof (maxf_ge1 f). lra. }
  destruct (rel_op (fun h => @i_div _ _ _ _ _ _ _ (ieee_bounded o) a (@fofnat _ G m) F2 Fn ltac:(rewrite En; lra) h) M1) as [F E]. rewrite En in E.
  split; [exact F|]. replace (- (2 * PI * INR 1 / INR (2 * m))) with (- PI / INR m) by (rewrite mult_INR; cbn [INR]; field; lra).
  unfold rtw_angleI. fold a.
  replace (val (@fdiv _ G a (@fofnat _ G m)) - - PI / INR m) with ((val (@fdiv _ G a (@fofnat _ G m)) - val a / INR m) + (val a - - PI) / INR m) by (field; lra).
  eapply Rle_trans; [apply Rabs_triang|].
  assert (D2 : Rabs ((val a - - PI) / INR m) <= ui * 0.1).
  { unfold Rdiv. rewrite Rabs_mult, (Rabs_pos_eq (/ INR m)) by lra. pose proof (Rabs_pos (val a - - PI)). apply Rle_trans with (ui * 3.15 * / 32); [apply Rmult_le_compat; lra|lra]. }
  assert (ui * (Rabs (val a / INR m) + / 1000000000000) <= ui * 0.2) by (apply Rmult_le_compat_l; lra). lra.
Qed.
Lemma rtable_ok m : accurate_trig o -> (32 <= m)%nat -> is_pow2 m = true -> INR m <= bpow radix2 100 -> 13.4 * INR m * ui <= 1 -> rtwI_ok G fin val c (di f (2 * m)) m.
Proof.
  intros HT Hn Hp Hb Hs k Hk. assert (HnR : 32 <= INR m) by (apply nR; exact Hn).
  pose proof (ui_pos f) as U0. pose proof (ui_small f) as U1. pose proof (gam_i f) as G1. pose proof (gam_i0 f) as G0.
  assert (M4 : 4 <= maxf). { pose proof p120. pose proof (@big_ok f 4) as Q. rewrite Rabs_pos_eq in Q by lra. apply Q. lra. }
  assert (S1 : (1 + 3.62 * ui) * (1 + gam ui) <= 1 + 6.7 * ui) by nra.
  assert (S0 : 1 <= (1 + 3.62 * ui) * (1 + gam ui)) by nra.
  assert (P : (1 + 6.7 * ui) ^ m <= 1 + 2 * (INR m * (6.7 * ui))) by (apply pow_linear; nra).
  assert (Ed : di f (2 * m) = 2 * (INR m * (6.7 * ui))) by (unfold di; rewrite mult_INR; cbn [INR]; ring).
  assert (P2 : ((1 + 3.62 * ui) * (1 + gam ui)) ^ k <= 1 + di f (2 * m)).
  { rewrite Ed. apply Rle_trans with (((1 + 3.62 * ui) * (1 + gam ui)) ^ m); [apply Rle_pow; [exact S0|lia]|].
    eapply Rle_trans; [apply pow_incr; split; [lra|exact S1]|exact P]. }
  destruct (rtw_angle_i Hn Hp Hb) as [F E].
  apply (@rtable_I _ _ _ _ _ _ _ (ieee_bounded o) c tiny ui (tiny_pos f) (ui_v0 f) (slack f) (di f (2 * m)) (tiny1 f) m (3.62 * ui)); [|exact Hk|rewrite Ed in P2; lra|lra].
  pose proof (ui_v0 f). assert (E0 : 0 <= 0.62 * ui) by lra. apply (fnear_mono (tiny_pos f) (expi_i _ HT F E0 E)); lra.
Qed.
Lemma PP_i a : 64 * ui <= a -> a <= / 60 -> 1 <= PP ui (6.7 * a) <= 1 + 6.85 * a.
Proof.
  intros H1 H2. pose proof (ui_pos f) as Hu. pose proof (ui_small f). pose proof (gam_i f) as Hg. pose proof (gam_i0 f) as Hg0. unfold PP.
  assert (C3 : (1 + ui) ^ 3 <= 1 + 3.01 * ui) by (cbn [pow]; nra). assert (C1 : 1 <= (1 + ui) ^ 3) by (apply pow_ge1; lra).
  assert (B1 : 1 <= (1 + gam ui) * (1 + ui) ^ 3) by nra.
  assert (B2 : (1 + gam ui) * (1 + ui) ^ 3 <= 1 + 6.03 * ui).
  { apply Rle_trans with ((1 + 3.01 * ui) * (1 + 3.01 * ui)); [apply Rmult_le_compat; lra|nra]. }
  rewrite Rmult_assoc. set (b := (1 + gam ui) * (1 + ui) ^ 3) in *. split; [nra|].
  apply Rle_trans with ((1 + 6.7 * a) * (1 + 6.03 * ui)); [apply Rmult_le_compat_l; lra|nra].
Qed.
Lemma gnear_flist q S y yh : gnear o q S y yh <-> flist q (fun _ => S) y yh.
Proof. reflexivity. Qed.
Lemma flist_ilist q S y yh : flist q S y yh -> ilist G fin val maxf tiny q S y yh.
Proof. intros [H1 H2]. split; [exact H1|]. intros i Hi. apply fnear_inear. apply H2. exact Hi. Qed.
Lemma flist_mono q q' S S' y yh : flist q S y yh -> q <= q' -> (forall i, (i < length y)%nat -> S i <= S' i) -> flist q' S' y yh.
Proof. intros [H1 H2] Hq HS. split; [exact H1|]. intros i Hi. exact (fnear_mono (tiny_pos f) (H2 i Hi) Hq (HS i Hi)). Qed.
(* forward, given the complex transform's result *)
Lemma rdirect_I d v s s' x y out scr q B : 0 <= d -> rtwI_ok G fin val c d (length x / 2) -> (0 < length x)%nat -> Nat.Even (length x) ->
  length out = (length x / 2 + 1)%nat -> (length x / 2 <= length scr)%nat ->
  fft (F := G) c s (packed (F := G) x) = Done (s', y, ROk) -> flist q (fun _ => B) (DFT (pairs (real_values x))) y -> q * PP ui d * (4 * B) <= maxf ->
  exists z scr', rfft_direct (F := G) c (fft (F := G) c) v s x out scr (build_twiddle_table (F := G) c (length x / 2)) = Done (s', z, scr', ROk) /\
    flist (q * PP ui d) (fun _ => 2 * B) (half_spectrum (real_values x)) z.
Proof.
  intros Hd Ht Hn [m Hm] Ho Hs E N HM. assert (Hx : (length x / 2 = m)%nat) by (rewrite Hm, Nat.mul_comm; apply Nat.div_mul; lia). rewrite Hx in *.
  assert (Lp : length (pairs (real_values x)) = m) by (unfold pairs; rewrite tab_length, rvalues_length; exact Hx).
  assert (Ly : length y = m) by (destruct N as [Hl _]; rewrite Hl, DFT_length; exact Lp).
  exists (rclosed (F := G) (post (F := G) c v) m (build_twiddle_table (F := G) c m) y). eexists. split.
  - rewrite rfft_direct_ok.
    + rewrite E, Hx. cbn [bind]. reflexivity.
    + apply rcheck_none. lia.
    + rewrite rtable_length. lia.
    + rewrite E, Hx. intros ? ? [= _ <-]. exact Ly.
  - destruct half_ok as [Fh Eh].
    pose proof (@rclosed_I _ G fin val _ _ _ (ieee_bounded o) c tiny ui (tiny_pos f) (ui_v0 f) (ui16 f) (slack f) d Hd (tiny1 f) Fh Eh v m q B (DFT (pairs (real_values x))) y ltac:(lia) Ht ltac:(rewrite DFT_length; exact Lp) N HM) as P.
    change (pairs (real_values x)) with (packed (F := RF) (real_values x)) in P. rewrite rclosed_R in P by (rewrite ?rvalues_length; lia). unfold half_spectrum. rewrite rvalues_length, Hx, Hm. exact P.
Qed.
Lemma unpacked_I q B (X : list R) w : Nat.Even (length X) -> flist q (fun _ => B) (pairs X) w ->
  finite_reals (unpacked (F := G) w) /\ rwithin ((q - 1) * B) (real_values (unpacked (F := G) w)) X.
Proof.
  intros [m Hm] [Hl H]. assert (Hx : (length X / 2 = m)%nat) by (rewrite Hm, Nat.mul_comm; apply Nat.div_mul; lia).
  assert (Lp : length (pairs X) = m) by (unfold pairs; rewrite tab_length; exact Hx). rewrite Lp in *.
  assert (Lu : length (unpacked (F := G) w) = (2 * m)%nat) by (rewrite unpacked_length; lia).
  assert (K : forall k, (k < 2 * m)%nat -> fin (nthf (F := G) (unpacked (F := G) w) k) /\ Rabs (val (nthf (F := G) (unpacked (F := G) w) k) - nth k X 0) <= (q - 1) * B).
  { intros k Hk. assert (Ek : (k / 2 < m)%nat) by (apply Nat.div_lt_upper_bound; lia).
    specialize (H _ Ek). unfold unpacked, nthf. rewrite nth_tab by lia.
    assert (Ep : at_ (pairs X) (k / 2) = mkcx (nth (2 * (k / 2)) X 0) (nth (2 * (k / 2) + 1) X 0)) by (unfold pairs; rewrite at_tab by lia; reflexivity).
    rewrite Ep in H. pose proof (fnear_re H) as (_ & _ & _ & FR & ER). pose proof (fnear_im H) as (_ & _ & _ & FI & EI). cbn [re im] in ER, EI.
    destruct (Nat.even k) eqn:Ev.
    - apply Nat.even_spec in Ev. destruct Ev as [j ->]. replace (2 * j / 2)%nat with j in * by (rewrite Nat.mul_comm, Nat.div_mul; lia). split; assumption.
    - assert (Eo : Nat.odd k = true) by (rewrite <- Nat.negb_even, Ev; reflexivity). apply Nat.odd_spec in Eo. destruct Eo as [j ->].
      replace ((2 * j + 1) / 2)%nat with j in *; [split; assumption|].
      replace (2 * j + 1)%nat with (1 + j * 2)%nat by lia. rewrite Nat.div_add by lia. reflexivity. }
  split.
  - intros a Ha. destruct (In_nth _ _ (@fzero _ G) Ha) as (k & Hk & <-). apply (K k). lia.
  - split; [rewrite rvalues_length; lia|]. intros k Hk. rewrite rvalues_at by lia. apply (K k). lia.
Qed.
(* inverse *)
Lemma irfft_I d0 d v un p q S0 (y : list C) yh out m :
  accurate_trig o -> 0 <= d0 -> 0 <= d -> length out = (2 * m)%nat -> (32 <= m)%nat -> is_pow2 m = true -> INR m <= bpow radix2 100 ->
  rtwI_ok G fin val c d m -> twI_ok G fin val c d0 m ->
  length y = (m + 1)%nat -> Inv (F := G) c p -> ready c p m -> flist q S0 y yh ->
  (forall k, (k <= m)%nat -> q * PP ui d * (2 * (S0 k + S0 (m - k)%nat)) <= maxf) ->
  q * PP ui d * QQ ui d0 ^ Nat.log2 m * (1 + ui) * (2 * rsum (m + 1) S0) <= maxf ->
  exists p' z, tirfft (F := G) c (ifft (F := G) c) v un p yh out = Done (p', z, ROk) /\ finite_reals z /\
    rwithin ((q * PP ui d * QQ ui d0 ^ Nat.log2 m * ((1 + ui) * (1 + ui)) - 1) * (2 * rsum (m + 1) S0 / INR m + tiny)) (real_values z) (real_inverse y).
Proof.
  intros HT Hd0 Hd Hout Hm Hp Hb Ht Htw Hy HI Hr N HM1 HM2. 
  assert (Hx : (length out / 2 = m)%nat) by (rewrite Hout, Nat.mul_comm; apply Nat.div_mul; lia).
  assert (HmR : 0 < INR m) by (apply lt_0_INR; lia). destruct half_ok as [Fh Eh].
  pose proof (@iclosed_I _ G fin val _ _ _ (ieee_bounded o) c tiny ui (tiny_pos f) (ui_v0 f) (ui16 f) (slack f) d Hd (tiny1 f) Fh Eh v m q S0 y yh ltac:(lia) Ht Hy N ltac:(intros; apply HM1; lia)) as NZ.
  set (Z := iclosed (F := RF) c v m (build_twiddle_table (F := RF) c m) y) in *.
  assert (LZ : length Z = m) by apply tab_length.
  assert (EZ : IDFT Z = pairs (real_inverse y)).
  { unfold Z. rewrite iclosed_R by lia. change (pairs (real_inverse y)) with (packed (F := RF) (real_inverse y)). f_equal. unfold real_inverse. replace (length y - 1)%nat with m by lia.
    apply tab_ext. intros j Hj. unfold hsig. f_equal. apply idft_ext. intros i Hi. unfold extension. replace (length y - 1)%nat with m by lia. reflexivity. }
  assert (P0 : forall k, (k <= m)%nat -> 0 <= S0 k). { intros k Hk. destruct N as [_ N]. destruct (N k ltac:(lia)) as (_ & Q & _). pose proof (tiny_pos f). lra. }
  pose proof (@spread m S0 P0) as SP.
  assert (SP0 : 0 <= rsum m (fun k => S0 k + S0 (m - k)%nat)) by (apply rsum_pos; intros i Hi; pose proof (P0 i ltac:(lia)); pose proof (P0 (m - i)%nat ltac:(lia)); lra).
  assert (Hq : 1 <= q) by (destruct N as [_ N]; apply (N 0%nat ltac:(lia))).
  pose proof (ui_pos f) as U0. pose proof (@PPI_ge1 _ _ _ _ _ _ _ (ieee_bounded o) ui (ui_v0 f) d Hd) as HPP.
  pose proof (@QQI_ge1 _ _ _ _ _ _ _ (ieee_bounded o) ui (ui_v0 f) d0 Hd0) as HQQ. pose proof (pow_R1_Rle _ (Nat.log2 m) HQQ) as HQL.
  assert (F1 : 1 <= q * PP ui d) by nra. assert (F2 : 1 <= q * PP ui d * QQ ui d0 ^ Nat.log2 m) by nra.
  destruct (@ifft_gen f o c d0 p _ _ Z _ HI ltac:(rewrite LZ; exact Hr) Hd0 ltac:(rewrite LZ; intros H; lia) ltac:(rewrite LZ; exact Hp) ltac:(rewrite LZ; intros _; exact Htw) ltac:(rewrite LZ; exact Hb) (flist_ilist NZ)) as (p' & w & E & Nw).
  { rewrite LZ. eapply Rle_trans; [|exact HM2]. apply Rmult_le_compat_l; [nra|exact SP]. }
  rewrite LZ, EZ in Nw.
  assert (Lyh : length yh = (m + 1)%nat) by (destruct N as [Hl _]; congruence).
  assert (Lr : length (real_inverse y) = (2 * m)%nat) by (unfold real_inverse; rewrite tab_length; lia).
  assert (Lw : length w = m). { destruct Nw as [Hl _]. rewrite Hl. unfold pairs. rewrite tab_length, Lr, Nat.mul_comm. apply Nat.div_mul. lia. }
  destruct (@unpacked_I _ _ (real_inverse y) w ltac:(exists m; exact Lr) (proj1 (gnear_flist _ _ _ _) Nw)) as [UF [UL UW]].
  unfold tirfft, tirfft_with_scratch.
  destruct (irws_ok (ifft (F := G) c) v p yh out (tab (length out / 2) un) (rinv_new (F := G) c)) as (rp' & _ & _ & E1).
  exists p', (unpacked (F := G) w). rewrite E1, Hx. split; [|split; [exact UF|]].
  - rewrite irfft_direct_ok; rewrite ?Hx.
    + rewrite E. cbn [bind]. reflexivity.
    + apply rcheck_none. rewrite tab_length, Hx. lia.
    + rewrite rtable_length. lia.
    + rewrite E. intros ? ? [= _ <-]. exact Lw.
  - split; [exact UL|]. intros k Hk. eapply Rle_trans; [apply UW; exact Hk|].
    assert (Q1 : 1 <= q * PP ui d * QQ ui d0 ^ Nat.log2 m * ((1 + ui) * (1 + ui))) by (assert (1 <= (1 + ui) * (1 + ui)) by nra; nra).
    apply Rmult_le_compat_l; [lra|]. apply Rplus_le_compat_r. unfold Rdiv. rewrite Rmult_comm. apply Rmult_le_compat_r; [left; apply Rinv_0_lt_compat; exact HmR|exact SP].
Qed.
End Lem.
(* numbers for n = 2 m >= 64 *)
Lemma rnums f m (k : R) : (32 <= m)%nat -> 16 <= k -> k * INR (2 * m) * INR (S (Nat.log2 m)) <= bpow radix2 (precf f) ->
  let a := INR (2 * m) * v0 f in let L := INR (Nat.log2 m) in
  32 <= INR m /\ 5 <= L /\ INR m <= bpow radix2 (precf f) / 100 /\ 64 * v0 f <= a /\ k * (a * (L + 1)) <= 1 /\ a <= / 96 /\
  di f (2 * m) = 6.7 * (a * (1 + / 1024)) /\ 1 <= PP (ui f) (di f (2 * m)) <= 1 + 6.9 * a /\
  6.7 * INR m * ui f <= / 2 /\ 13.4 * INR m * ui f <= 1 /\ 1 <= QQ (ui f) (di f m) ^ Nat.log2 m <= 1 + 7.05 * (a * L) /\
  (k * (a * (L + 1)) <= 1 -> 30 <= k -> 1 <= QQ (ui f) (di f m) ^ (2 * Nat.log2 m) <= 1 + 14.1 * (a * L)).
Proof.
  intros Hm Hk Hb a L. pose proof (nR Hm) as HmR. pose proof (log5 Hm) as HL. fold L in HL. rewrite mult_INR, (S_INR (Nat.log2 m)) in Hb. fold L in Hb. change (INR 2) with (1 + 1) in Hb.
  assert (Ea : a = 2 * INR m * v0 f) by (unfold a; rewrite mult_INR; cbn [INR]; ring).
  pose proof (v0_pos f) as V0. pose proof (v0_small f) as V1. pose proof (bpow_gt_0 radix2 (precf f)) as B0.
  assert (HW : k * (a * (L + 1)) <= 1).
  { pose proof (@v0_prec f _ Hb) as P. rewrite Ea. replace (k * (2 * INR m * v0 f * (L + 1))) with (k * ((1 + 1) * INR m) * (L + 1) * v0 f) by ring. exact P. }
  assert (A0 : 64 * v0 f <= a) by (rewrite Ea; nra).
  assert (A1 : 6 * a <= a * (L + 1)) by nra. assert (A2 : 16 * (a * (L + 1)) <= 1) by nra.
  assert (A3 : a <= / 96) by lra.
  assert (Eu : ui f = v0 f * (1 + / 1024)) by reflexivity.
  assert (Ed : di f (2 * m) = 6.7 * (a * (1 + / 1024))) by (unfold di, a; rewrite Eu; ring).
  assert (Hmb : INR m <= bpow radix2 (precf f) / 100). { assert (6 <= L + 1) by lra. assert (X : 16 * 6 <= k * (L + 1)) by (apply Rmult_le_compat; lra).
    assert (X1 : 16 * 6 * (2 * INR m) <= k * (L + 1) * (2 * INR m)) by (apply Rmult_le_compat_r; lra). replace (k * ((1 + 1) * INR m) * (L + 1)) with (k * (L + 1) * (2 * INR m)) in Hb by ring. lra. }
  assert (H6 : 6.7 * INR m * ui f <= / 2) by (rewrite Eu; nra). assert (H13 : 13.4 * INR m * ui f <= 1) by (rewrite Eu; nra).
  assert (AL : INR m * L * v0 f = a * L / 2) by (rewrite Ea; field).
  split; [exact HmR|]. split; [exact HL|]. split; [exact Hmb|]. split; [exact A0|]. split; [exact HW|]. split; [exact A3|]. split; [exact Ed|]. split.
  { rewrite Ed. destruct (@PP_i f (a * (1 + / 1024))) as [P1 P2]; [rewrite Eu; nra|nra|]. split; [exact P1|nra]. }
  split; [exact H6|]. split; [exact H13|]. split.
  { pose proof (@pow_num f m (Nat.log2 m) Hm H6) as P. fold L in P. replace (15 * (INR m * L) * v0 f) with (15 * (INR m * L * v0 f)) in P by ring. rewrite AL in P. specialize (P ltac:(nra)). lra. }
  intros _ H30. pose proof (@pow_num f m (2 * Nat.log2 m) Hm H6) as P. rewrite mult_INR in P. fold L in P. cbn [INR] in P.
  replace (15 * (INR m * ((1 + 1) * L)) * v0 f) with (15 * (a * L)) in P by (rewrite Ea; ring). replace (INR m * ((1 + 1) * L) * v0 f) with (a * L) in P by (rewrite Ea; ring).
  apply P. nra.
Qed.
Lemma small4 f r : 0 <= r <= bpow radix2 (precf f) -> 0 <= 4 * (r * tiny f) <= 1.
Proof. intros H. pose proof (@n_tiny f r H). lra. Qed.
Lemma emax4 f r : r <= bpow radix2 (emaxf f - 4) -> 4 * r <= bpow radix2 (emaxf f - 2).
Proof. intros H. replace (emaxf f - 2)%Z with (2 + (emaxf f - 4))%Z by lia. rewrite bpow_plus. change (bpow radix2 2) with 4. lra. Qed.

Lemma one_mul a b : 1 <= a -> 1 <= b -> 1 <= a * b.
Proof. nra. Qed.
Lemma mul_one x k : 0 <= x -> 1 <= k -> x <= x * k.
Proof. nra. Qed.

(* ---------- theorems ---------- *)
(* Real FFT of a power-of-two length n >= 64, any kernel (scalar, AVX, NEON) and any contents of the output and scratch buffers:
   if |x_0| + ... + |x_(n-1)| is at most a sixteenth of the range (2^124 for f32, 2^1020 for f64), no bin overflows, and each is
   within 16 n log2(n) 2^-prec of the exact spectrum, relative to |x_0| + ... + |x_(n-1)| plus the underflow floor. *)
Theorem C95_ieee_rfft : forall (f : fmt) (o : libm f) (c : cfg) (v : rpath) uninit (x : list (num f)) out,
  accurate_trig o -> c_precomp c = false \/ accurate_tables o -> finite_reals x -> (64 <= length x)%nat -> is_pow2 (length x) = true ->
  16 * INR (length x) * INR (Nat.log2 (length x)) <= bpow radix2 (precf f) -> rnorm (real_values x) <= bpow radix2 (emaxf f - 4) -> length out = (length x / 2 + 1)%nat ->
  exists p z, trfft (F := ieee o) c (fft (F := ieee o) c) v uninit (new_planner (T := num f)) x out = Done (p, z, ROk) /\ finite_signal z /\
    within (16 * INR (length x) * INR (Nat.log2 (length x)) * bpow radix2 (- precf f) * (rnorm (real_values x) + INR (length x) * floor_size f)) (values z) (half_spectrum (real_values x)).
Proof.
  intros f o c v un x out HT Hc Hx Hn Hp Hb HN Ho. destruct (half_pow2 Hn Hp) as (m & Em & E2 & Hm & Hpm & EL). rewrite E2 in Ho.
  rewrite EL, Em in Hb. destruct (@rnums f m 16 Hm ltac:(lra) Hb) as (HmR & HL & Hmb & A0 & HW & A1 & Ed & HP & H6 & H13 & HQ & _).
  fold (v0 f). set (a := INR (2 * m) * v0 f) in *. set (L := INR (Nat.log2 m)) in *. pose proof (v0_pos f) as V0.
  assert (Lp : length (packed (F := ieee o) x) = m) by (rewrite packed_len; exact E2).
  assert (Hm1 : INR m <= bpow radix2 (precf f)) by (pose proof (bpow_gt_0 radix2 (precf f)); lra).
  destruct (@n_tiny f (INR m) ltac:(lra)) as [T0 T1].
  pose proof (norm1_pairs (real_values x)) as NP. pose proof (rnorm_pos (real_values x)) as RP. pose proof (norm1_pos (pairs (real_values x))) as NP0. pose proof (emax4 _ HN) as HN4.
  assert (AL : 5 * a <= a * L) by nra. set (w := a * L) in *. replace (a * (L + 1)) with (w + a) in HW by (unfold w; ring).
  destruct (@fft_gen f o c (di f m) (packed (F := ieee o) x)) as (p & y & E & Y & _); rewrite ?Lp, ?values_packed in *.
  - apply di_pos.
  - intros H. lia.
  - exact Hpm.
  - intros _. apply table_i; try assumption; [apply (@prec100 f _ Hm1)|lra].
  - apply packed_fin. exact Hx.
  - apply range; lra.
  - set (B := rnorm (real_values x) + INR m * tiny f).
    assert (Y' : flist (ieee o) (fin (f := f)) (val (f := f)) (tiny f) (QQ (ui f) (di f m) ^ Nat.log2 m) (fun _ => B) (DFT (pairs (real_values x))) y).
    { eapply flist_mono; [apply gnear_flist; exact Y|lra|]. intros i _. cbv beta. unfold B. lra. }
    assert (QP : QQ (ui f) (di f m) ^ Nat.log2 m * PP (ui f) (di f (2 * m)) <= 1 + 8 * (w + a)).
    { apply Rle_trans with ((1 + 7.05 * w) * (1 + 6.9 * a)); [apply Rmult_le_compat; lra|nra]. }
    assert (QP1 : 1 <= QQ (ui f) (di f m) ^ Nat.log2 m * PP (ui f) (di f (2 * m))) by nra.
    destruct (@rdirect_I f o c (di f (2 * m)) v (new_planner (T := num f)) p x y out (tab (length x / 2) un) (QQ (ui f) (di f m) ^ Nat.log2 m) B (di_pos f _)) as (z & scr' & Ez & Nz); rewrite ?E2; try assumption.
    + apply rtable_ok; try assumption. apply (@prec100 f _ Hm1).
    + lia.
    + exists m. exact Em.
    + rewrite tab_length. lia.
    + replace (4 * B) with (4 * rnorm (real_values x) + 4 * (INR m * tiny f)) by (unfold B; ring). apply range; [lra|lra|lra].
    + unfold trfft, trfft_with_scratch. destruct (rws_ok (fft (F := ieee o) c) v (new_planner (T := num f)) x out (tab (length x / 2) un) (rinv_new (F := ieee o) c)) as (rp' & _ & _ & E1).
      exists p, z. rewrite E1, E2. rewrite E2 in Ez. rewrite Ez. split; [reflexivity|].
      apply gnear_flist, gnear_out in Nz. destruct Nz as [Z1 Z2]. split; [exact Z1|]. eapply within_le; [exact Z2|].
      rewrite EL, Em, (S_INR (Nat.log2 m)). change (floor_size f) with (tiny f). fold L.
      replace (16 * INR (2 * m) * (L + 1) * v0 f) with (16 * (w + a)) by (unfold w, a; ring).
      pose proof (tiny_pos f) as TP. assert (Em2 : INR (2 * m) = 2 * INR m) by (rewrite mult_INR; cbn [INR]; ring). rewrite Em2.
      apply Rle_trans with (8 * (w + a) * (2 * B)); [apply Rmult_le_compat_r; [unfold B; lra|lra]|].
      replace (8 * (w + a) * (2 * B)) with (16 * (w + a) * B) by ring. apply Rmult_le_compat_l; [lra|]. unfold B. nra.
Qed.
Print Assumptions C95_ieee_rfft.

(* Inverse: |y_0| + ... + |y_(n/2)| at most a sixteenth of the range *)
Theorem C95_ieee_irfft : forall (f : fmt) (o : libm f) (c : cfg) (v : rpath) uninit (y : list (cx (num f))) out,
  accurate_trig o -> c_precomp c = false \/ accurate_tables o -> finite_signal y -> (64 <= length out)%nat -> is_pow2 (length out) = true ->
  16 * INR (length out) * INR (Nat.log2 (length out)) <= bpow radix2 (precf f) -> norm1 (values y) <= bpow radix2 (emaxf f - 4) -> length y = (length out / 2 + 1)%nat ->
  exists p z, tirfft (F := ieee o) c (ifft (F := ieee o) c) v uninit (new_planner (T := num f)) y out = Done (p, z, ROk) /\ finite_reals z /\
    rwithin (8 * INR (length out) * INR (Nat.log2 (length out)) * bpow radix2 (- precf f) * (4 * norm1 (values y) / INR (length out) + 4 * floor_size f)) (real_values z) (real_inverse (values y)).
Proof.
  intros f o c v un y out HT Hc Hy Hn Hp Hb HN Ho. destruct (half_pow2 Hn Hp) as (m & Em & E2 & Hm & Hpm & EL). rewrite E2 in Ho.
  rewrite EL, Em in Hb. destruct (@rnums f m 16 Hm ltac:(lra) Hb) as (HmR & HL & Hmb & A0 & HW & A1 & Ed & HP & H6 & H13 & HQ & _).
  fold (v0 f). set (a := INR (2 * m) * v0 f) in *. set (L := INR (Nat.log2 m)) in *. pose proof (v0_pos f) as V0. pose proof (v0_small f) as V1.
  assert (Hm1 : INR m <= bpow radix2 (precf f)) by (pose proof (bpow_gt_0 radix2 (precf f)); lra).
  assert (EM1 : INR (m + 1) = INR m + 1) by (rewrite plus_INR; reflexivity).
  destruct (@n_tiny f (INR m + 1)) as [T0 T1]. { split; [lra|]. assert (100 <= bpow radix2 (precf f)) by lra. lra. }
  pose proof (norm1_pos (values y)) as NP0. pose proof (emax4 _ HN) as HN4. pose proof (tiny_pos f) as TP.
  assert (AL : 5 * a <= a * L) by nra. set (w := a * L) in *. replace (a * (L + 1)) with (w + a) in HW by (unfold w; ring).
  set (S0 := fun i => Cabs (at_ (values y) i) + tiny f).
  assert (Lv : length (values y) = (m + 1)%nat) by (rewrite values_length; exact Ho).
  assert (R : rsum (m + 1) S0 = norm1 (values y) + (INR m + 1) * tiny f) by (unfold S0; rewrite <- Lv, rsum_self, Lv, EM1; reflexivity).
  assert (S00 : forall k, 0 <= S0 k) by (intros k; unfold S0; pose proof (Cabs_nonneg (at_ (values y) k)); lra).
  assert (S1 : forall k, (k <= m)%nat -> S0 k <= rsum (m + 1) S0).
  { intros k Hk. replace (m + 1)%nat with (k + S (m - k))%nat by lia. rewrite rsum_split', rsum_first, Nat.add_0_r.
    pose proof (@rsum_pos k S0 ltac:(intros; apply S00)). pose proof (@rsum_pos (m - k) (fun i => S0 (k + S i)%nat) ltac:(intros; apply S00)). lra. }
  assert (UU : 1 <= (1 + ui f) * (1 + ui f) <= 1 + 0.04 * a) by (unfold ui; nra). pose proof (ui_pos f) as U0.
  set (Q := QQ (ui f) (di f m) ^ Nat.log2 m) in *. set (P := PP (ui f) (di f (2 * m))) in *.
  assert (QP : P * Q * ((1 + ui f) * (1 + ui f)) <= 1 + 8 * (w + a)).
  { apply Rle_trans with ((1 + 6.9 * a) * (1 + 7.05 * w) * (1 + 0.04 * a)); [apply Rmult_le_compat; [nra|lra| |lra]; apply Rmult_le_compat; lra|].
    assert (a * a <= a / 96) by nra. assert (a * w <= w / 96) by nra. nra. }
  assert (PQ1 : 1 <= P * Q) by nra.
  destruct (@irfft_I f o c (di f m) (di f (2 * m)) v un (new_planner (T := num f)) 1 S0 (values y) y out m HT (di_pos f m) (di_pos f _) Em Hm Hpm (@prec100 f _ Hm1)) as (p & z & E & Fz & Nz); try assumption.
  - apply rtable_ok; try assumption. apply (@prec100 f _ Hm1).
  - apply table_i; try assumption; [apply (@prec100 f _ Hm1)|lra].
  - apply (@Inv_new _ (ieee o) c).
  - apply (@ready_new _ c _).
  - split; [rewrite Lv; exact Ho|]. intros i Hi. rewrite Lv in Hi. unfold S0. rewrite values_at with (o := o) by lia. apply fnear_refl; [exact TP|]. apply sig_at; [exact Hy|lia].
  - intros k Hk. pose proof (S1 k Hk). pose proof (S1 (m - k)%nat ltac:(lia)). fold P. pose proof (S00 k). pose proof (S00 (m - k)%nat).
    apply Rle_trans with (2 * (4 * norm1 (values y) + 4 * ((INR m + 1) * tiny f))); [|apply range; lra].
    rewrite Rmult_1_l. apply Rmult_le_compat; [lra|lra|lra|]. rewrite R in *. lra.
  - fold P Q. rewrite R, Rmult_1_l. replace (2 * (norm1 (values y) + (INR m + 1) * tiny f)) with (2 * norm1 (values y) + 2 * ((INR m + 1) * tiny f)) by ring.
    apply range; [|lra|lra]. split; [nra|]. apply Rle_trans with (P * Q * ((1 + ui f) * (1 + ui f))); [|lra]. nra.
  - exists p, z. split; [exact E|]. split; [exact Fz|]. destruct Nz as [Z1 Z2]. split; [exact Z1|]. intros k Hk. eapply Rle_trans; [apply Z2; exact Hk|].
    fold P Q. rewrite R, EL, Em, S_INR, Rmult_1_l. change (floor_size f) with (tiny f). fold L.
    replace (8 * INR (2 * m) * (L + 1) * v0 f) with (8 * (w + a)) by (unfold w, a; ring).
    assert (Em2 : INR (2 * m) = 2 * INR m) by (rewrite mult_INR; cbn [INR]; ring). rewrite Em2.
    assert (I0 : 0 < / INR m) by (apply Rinv_0_lt_compat; lra).
    assert (Q0 : 2 * (norm1 (values y) + (INR m + 1) * tiny f) / INR m + tiny f <= 4 * norm1 (values y) / (2 * INR m) + 4 * tiny f).
    { replace (2 * (norm1 (values y) + (INR m + 1) * tiny f) / INR m) with (4 * norm1 (values y) / (2 * INR m) + 2 * tiny f + 2 * tiny f * / INR m) by (field; lra).
      assert (/ INR m <= / 32) by (apply Rinv_le_contravar; lra). nra. }
    assert (Q00 : 0 <= 2 * (norm1 (values y) + (INR m + 1) * tiny f) / INR m + tiny f) by (unfold Rdiv; nra).
    apply Rmult_le_compat; [nra|exact Q00|lra|exact Q0].
Qed.
Print Assumptions C95_ieee_irfft.

(* There and back on one object: n (|x_0| + ... + |x_(n-1)|) must fit *)
Theorem C95_ieee_roundtrip : forall (f : fmt) (o : libm f) (c : cfg) (v v' : rpath) un un' (x : list (num f)) out out',
  accurate_trig o -> c_precomp c = false \/ accurate_tables o -> finite_reals x -> (64 <= length x)%nat -> is_pow2 (length x) = true ->
  64 * INR (length x) * INR (Nat.log2 (length x)) <= bpow radix2 (precf f) -> INR (length x) * rnorm (real_values x) <= bpow radix2 (emaxf f - 4) ->
  length out = (length x / 2 + 1)%nat -> length out' = length x ->
  exists p y p' z, trfft (F := ieee o) c (fft (F := ieee o) c) v un (new_planner (T := num f)) x out = Done (p, y, ROk) /\
    tirfft (F := ieee o) c (ifft (F := ieee o) c) v' un' p y out' = Done (p', z, ROk) /\ finite_reals z /\
    rwithin (64 * INR (length x) * INR (Nat.log2 (length x)) * bpow radix2 (- precf f) * (rnorm (real_values x) + INR (length x) * floor_size f)) (real_values z) (real_values x).
Proof.
  intros f o c v v' un un' x out out' HT Hc Hx Hn Hp Hb HN Ho Ho'. destruct (half_pow2 Hn Hp) as (m & Em & E2 & Hm & Hpm & EL). rewrite E2 in Ho.
  rewrite EL, Em in Hb. destruct (@rnums f m 64 Hm ltac:(lra) Hb) as (HmR & HL & Hmb & A0 & HW & A1 & Ed & HP & H6 & H13 & HQ & HQ2). specialize (HQ2 HW ltac:(lra)).
  fold (v0 f). set (a := INR (2 * m) * v0 f) in *. set (L := INR (Nat.log2 m)) in *. pose proof (v0_pos f) as V0. pose proof (v0_small f) as V1.
  assert (Lp : length (packed (F := ieee o) x) = m) by (rewrite packed_len; exact E2).
  assert (Hm1 : INR m <= bpow radix2 (precf f)) by (pose proof (bpow_gt_0 radix2 (precf f)); lra).
  assert (EM1 : INR (m + 1) = INR m + 1) by (rewrite plus_INR; reflexivity).
  assert (Em2 : INR (2 * m) = 2 * INR m) by (rewrite mult_INR; cbn [INR]; ring).
  destruct (@n_tiny f (INR m) ltac:(lra)) as [T0 T1].
  pose proof (norm1_pairs (real_values x)) as NP. pose proof (rnorm_pos (real_values x)) as RP. pose proof (norm1_pos (pairs (real_values x))) as NP0.
  assert (HNm : 2 * INR m * rnorm (real_values x) <= bpow radix2 (emaxf f - 4)) by (rewrite <- Em2, <- Em; exact HN).
  pose proof (emax4 _ HNm) as HN4.
  assert (AL : 5 * a <= a * L) by nra. set (w := a * L) in *. replace (a * (L + 1)) with (w + a) in HW by (unfold w; ring).
  destruct (@fft_gen f o c (di f m) (packed (F := ieee o) x)) as (p & y & E & Y & HI & Hr); rewrite ?Lp, ?values_packed in *.
  { apply di_pos. } { intros H. lia. } { exact Hpm. }
  { intros _. apply table_i; try assumption; [apply (@prec100 f _ Hm1)|lra]. } { apply packed_fin. exact Hx. }
  { apply range; [lra|nra|lra]. }
  set (B := rnorm (real_values x) + INR m * tiny f). set (Q := QQ (ui f) (di f m) ^ Nat.log2 m) in *. set (P := PP (ui f) (di f (2 * m))) in *.
  assert (Y' : flist (ieee o) (fin (f := f)) (val (f := f)) (tiny f) Q (fun _ => B) (DFT (pairs (real_values x))) y).
  { eapply flist_mono; [apply gnear_flist; exact Y|lra|]. intros i _. cbv beta. unfold B. lra. }
  pose proof (tiny_pos f) as TP. assert (NNt : 0 <= INR m * (INR m * tiny f) <= / 10).
  { split; [nra|]. assert (BB : INR m * INR m <= bpow radix2 (precf f) * bpow radix2 (precf f)) by (apply Rmult_le_compat; lra).
    apply Rle_trans with (bpow radix2 (precf f) * bpow radix2 (precf f) * tiny f); [nra|]. unfold tiny. rewrite <- !bpow_plus.
    apply Rle_trans with (bpow radix2 (Z.opp 4)); [apply bpow_le; clear; destruct f; cbn; lia|]. change (bpow radix2 (Z.opp 4)) with (/ 16). lra. }
  assert (UU : 1 <= (1 + ui f) * (1 + ui f) <= 1 + 0.04 * a) by (unfold ui; nra). pose proof (ui_pos f) as U0.
  assert (EQ : QQ (ui f) (di f m) ^ (2 * Nat.log2 m) = Q * Q). { replace (2 * Nat.log2 m)%nat with (Nat.log2 m + Nat.log2 m)%nat by lia. apply pow_add. }
  rewrite EQ in HQ2.
  assert (A3 : a <= / 384) by lra. assert (AA : 0 <= a) by lra.
  assert (P2 : 1 <= P * P <= 1 + 13.95 * a). { split; [nra|]. apply Rle_trans with ((1 + 6.9 * a) * (1 + 6.9 * a)); [apply Rmult_le_compat; lra|]. nra. }
  assert (PU : 1 <= P * P * ((1 + ui f) * (1 + ui f)) <= 1 + 14 * a).
  { split; [nra|]. apply Rle_trans with ((1 + 13.95 * a) * (1 + 0.04 * a)); [apply Rmult_le_compat; lra|nra]. }
  assert (Aw : a * w <= w / 384). { assert (a <= / 384) by lra. nra. }
  set (K := Q * P * P * Q * ((1 + ui f) * (1 + ui f))).
  assert (EK : K = (Q * Q) * (P * P * ((1 + ui f) * (1 + ui f)))) by (unfold K; ring).
  assert (HK : 1 <= K <= 1 + 14.7 * (w + a)).
  { rewrite EK. split; [apply one_mul; lra|]. apply Rle_trans with ((1 + 14.1 * w) * (1 + 14 * a)); [apply Rmult_le_compat; lra|]. nra. }
  assert (QP1 : 1 <= Q * P) by nra.
  assert (QPP : Q * P * P <= K). { unfold K. assert (1 <= Q * ((1 + ui f) * (1 + ui f))) by nra. assert (0 <= Q * P * P) by nra. replace (Q * P * P * Q * ((1 + ui f) * (1 + ui f))) with (Q * P * P * (Q * ((1 + ui f) * (1 + ui f)))) by ring. nra. }
  assert (QPK : Q * P <= K). { assert (Q * P <= Q * P * P) by (apply mul_one; lra). lra. }
  destruct (@rdirect_I f o c (di f (2 * m)) v (new_planner (T := num f)) p x y out (tab (length x / 2) un) Q B (di_pos f _)) as (z & scr' & Ez & Nz); rewrite ?E2; try assumption.
  { apply rtable_ok; try assumption. apply (@prec100 f _ Hm1). } { lia. } { exists m. exact Em. } { rewrite tab_length. lia. }
  { fold P. replace (4 * B) with (4 * rnorm (real_values x) + 4 * (INR m * tiny f)) by (unfold B; ring). apply range; [lra|nra|lra]. }
  fold P in Nz. rewrite E2 in Ez.
  unfold trfft, trfft_with_scratch. destruct (rws_ok (fft (F := ieee o) c) v (new_planner (T := num f)) x out (tab (length x / 2) un) (rinv_new (F := ieee o) c)) as (rp' & _ & _ & E1).
  assert (Eo : length out' = (2 * m)%nat) by lia.
  assert (HB : 0 <= B) by (unfold B; lra).
  assert (B32 : B <= (INR m + 1) * B) by nra.
  assert (R4 : 2 * rsum (m + 1) (fun _ : nat => 2 * B) = 4 * ((INR m + 1) * rnorm (real_values x)) + 4 * ((INR m + 1) * (INR m * tiny f))) by (rewrite rsum_const', EM1; unfold B; ring).
  assert (HA : 0 <= 4 * ((INR m + 1) * rnorm (real_values x)) <= bpow radix2 (emaxf f - 2)).
  { split; [apply Rmult_le_pos; [lra|apply Rmult_le_pos; lra]|]. apply Rle_trans with (4 * (2 * INR m * rnorm (real_values x))); [|lra].
    apply Rmult_le_compat_l; [lra|]. apply Rmult_le_compat_r; lra. }
  assert (HT4 : 0 <= 4 * ((INR m + 1) * (INR m * tiny f)) <= 1) by lra.
  destruct (@irfft_I f o c (di f m) (di f (2 * m)) v' un' p (Q * P) (fun _ => 2 * B) (half_spectrum (real_values x)) z out' m HT (di_pos f m) (di_pos f _) Eo Hm Hpm (@prec100 f _ Hm1)) as (p' & z' & E' & Fz & Nz'); try assumption.
  { apply rtable_ok; try assumption. apply (@prec100 f _ Hm1). }
  { apply table_i; try assumption; [apply (@prec100 f _ Hm1)|lra]. }
  { unfold half_spectrum. rewrite tab_length, rvalues_length, E2. reflexivity. }
  { intros k Hk. fold P. replace (2 * (2 * B + 2 * B)) with (8 * rnorm (real_values x) + 8 * (INR m * tiny f)) by (unfold B; ring). assert (1 <= Q * P * P) by (apply one_mul; lra). apply range; [lra| |lra]. split; [lra|]. apply Rle_trans with (4 * (2 * INR m * rnorm (real_values x))); [|lra].
    replace (8 * rnorm (real_values x)) with (4 * (2 * 1 * rnorm (real_values x))) by ring. apply Rmult_le_compat_l; [lra|]. apply Rmult_le_compat_r; lra. }
  { fold P Q. rewrite R4. apply range; [|exact HA|exact HT4]. assert (X : 1 <= Q * P * P * Q) by (do 2 (apply one_mul; [|lra]); apply one_mul; lra).
    assert (X2 : 1 <= Q * P * P * Q * (1 + ui f)) by (apply one_mul; lra).
    split; [lra|]. apply Rle_trans with K; [|lra]. unfold K. rewrite <- (Rmult_assoc (Q * P * P * Q)). apply mul_one; lra. }
  exists p, z, p', z'. rewrite E1, E2. rewrite Ez. split; [reflexivity|]. split; [exact E'|]. split; [exact Fz|].
  rewrite half_spectrum_inverse in Nz' by (rewrite rvalues_length; first [lia|exists m; exact Em]). destruct Nz' as [Z1 Z2]. split; [exact Z1|]. intros k Hk. eapply Rle_trans; [apply Z2; exact Hk|].
  fold P Q K. rewrite R4, EL, Em, S_INR, Em2. change (floor_size f) with (tiny f). fold L.
  replace (64 * (2 * INR m) * (L + 1) * v0 f) with (64 * (w + a)) by (unfold w, a; rewrite Em2; ring).
  assert (I0 : 0 < / INR m) by (apply Rinv_0_lt_compat; lra). assert (I1 : / INR m <= / 32) by (apply Rinv_le_contravar; lra).
  replace ((4 * ((INR m + 1) * rnorm (real_values x)) + 4 * ((INR m + 1) * (INR m * tiny f))) / INR m + tiny f)
    with (4 * rnorm (real_values x) + 4 * / INR m * rnorm (real_values x) + 4 * (INR m * tiny f) + 5 * tiny f) by (field; lra).
  assert (S5 : 4 * rnorm (real_values x) + 4 * / INR m * rnorm (real_values x) + 4 * (INR m * tiny f) + 5 * tiny f <= 4.125 * (rnorm (real_values x) + 2 * INR m * tiny f)) by nra.
  apply Rle_trans with (14.7 * (w + a) * (4.125 * (rnorm (real_values x) + 2 * INR m * tiny f))).
  - apply Rmult_le_compat; [lra| |lra|exact S5]. assert (0 <= / INR m * rnorm (real_values x)) by nra. lra.
  - assert (0 <= rnorm (real_values x) + 2 * INR m * tiny f) by nra. nra.
Qed.
Print Assumptions C95_ieee_roundtrip.

(* Representable spectrum, overflowing transform: the post-processing adds X_k and its mirror image before it halves the sum, so a bin
   above half the range is lost.  For every sin, cos, table literal, kernel and configuration, the f32 impulse 2^127, 0, 0, 0 has
   the exact spectrum 2^127, 2^127, 2^127, the complex transform of the same four samples is finite, and the real one is not. *)
Definition big : num B32 := norm B32 1 127.
Definition zer : num B32 := B754_zero false.
Lemma big_val : fin big /\ val big = bpow radix2 127.
Proof.
  unfold fin, val. rewrite <- SF2R_B2SF, <- is_finite_SF_B2SF. assert (E : B2SF big = SpecFloat.S754_finite false 8388608 104) by (vm_compute; reflexivity). rewrite E.
  split; [reflexivity|]. cbn -[bpow]. unfold F2R. cbn -[bpow]. change (IZR 8388608) with (bpow radix2 23). rewrite <- bpow_plus. reflexivity.
Qed.
Lemma fft2_ok {T} {F : Float T} (c : cfg) p a b : fft (F := F) c p [a; b] = Done (p, [cadd a b; csub a b], ROk).
Proof.
  unfold fft, FUEL. cbn [fft_fuel]. unfold fft_body at 1. cbn [length Nat.eqb Nat.leb andb]. change (is_pow2 2) with true. cbn [andb].
  destruct (@small_kernel_ok T F c p [a; b] eq_refl ltac:(cbn; lia)) as [E _]. rewrite E. reflexivity.
Qed.
Lemma fft4_ok {T} {F : Float T} (c : cfg) p a b d e : fft (F := F) c p [a; b; d; e] = Done (p, small_fft (F := F) c [a; b; d; e], ROk).
Proof.
  unfold fft, FUEL. cbn [fft_fuel]. unfold fft_body at 1. cbn [length Nat.eqb Nat.leb andb]. change (is_pow2 4) with true. cbn [andb].
  destruct (@small_kernel_ok T F c p [a; b; d; e] eq_refl ltac:(cbn; lia)) as [E _]. rewrite E. reflexivity.
Qed.
(* infinite or not a number: adding anything keeps it so, and so does halving *)
Lemma inf_plus (t : num B32) s : is_finite (Bplus mode_NE (B754_infinity s : num B32) t) = false.
Proof. destruct t as [? | [] | |]; destruct s; reflexivity. Qed.
Lemma nf_mul (r h : num B32) : is_finite r = false -> is_finite (Bmult mode_NE r h) = false.
Proof. destruct r, h; try discriminate; reflexivity. Qed.
Lemma big_spectrum : half_spectrum [bpow radix2 127; 0; 0; 0] = repeat (RtoC (bpow radix2 127)) 3.
Proof.
  unfold half_spectrum. cbn [length]. change (4 / 2 + 1)%nat with 3%nat.
  assert (K : forall k, csum 4 (fun j => RtoC (nth j [bpow radix2 127; 0; 0; 0] 0) *c W 4 (j * k)) = RtoC (bpow radix2 127)).
  { intros k. cbn [csum nth Nat.mul]. rewrite W_0. apply C_eq; cbn -[bpow]; ring. }
  unfold tab. cbn [seq map repeat]. rewrite !K. reflexivity.
Qed.
Theorem C95_early_overflow_refuted : forall (o : libm B32) (c : cfg) (v : rpath) un,
  exists (x : list (num B32)) (out : list (cx (num B32))), finite_reals x /\ length out = (length x / 2 + 1)%nat /\
    half_spectrum (real_values x) = repeat (RtoC (B2R big)) 3 /\ is_finite big = true /\
    (exists p z, fft (F := ieee o) c (new_planner (T := num B32)) (map (fun a => mkcx a zer) x) = Done (p, z, ROk) /\ finite_signal z) /\
    exists p z, trfft (F := ieee o) c (fft (F := ieee o) c) v un (new_planner (T := num B32)) x out = Done (p, z, ROk) /\ ~ finite_signal z.
Proof.
  intros o c v un. exists [big; zer; zer; zer], (repeat (mkcx zer zer) 3). destruct big_val as [BF BV].
  split. { intros a [<-|[<-|[<-|[<-|[]]]]]; [exact BF|reflexivity..]. } split; [reflexivity|].
  split. { change (real_values [big; zer; zer; zer]) with [val big; 0; 0; 0]. change (B2R big) with (val big). rewrite BV. apply big_spectrum. }
  split; [exact BF|]. split.
  - eexists _, _. split; [apply fft4_ok|]. intros z Hz.
    assert (A : forallb (fun z : cx (num B32) => is_finite (re z) && is_finite (im z)) (small_fft (F := ieee o) c [mkcx big zer; mkcx zer zer; mkcx zer zer; mkcx zer zer]) = true).
    { destruct c as [? ? [] ? ? ?]; vm_compute; reflexivity. }
    rewrite forallb_forall in A. apply A in Hz. apply andb_prop in Hz. exact Hz.
  - unfold trfft, trfft_with_scratch.
    destruct (rws_ok (fft (F := ieee o) c) v (new_planner (T := num B32)) [big; zer; zer; zer] (repeat (mkcx zer zer) 3) (tab (length [big; zer; zer; zer] / 2) un) (rinv_new (F := ieee o) c)) as (rp' & _ & _ & E1).
    rewrite E1. rewrite rfft_direct_ok; [|apply rcheck_none; rewrite ?tab_length; cbn; lia|rewrite rtable_length; lia|]; change (packed (F := ieee o) [big; zer; zer; zer]) with [mkcx big zer; mkcx zer zer]; rewrite fft2_ok.
    + cbn [bind]. eexists _, _. split; [reflexivity|]. intros H.
      set (w := build_twiddle_table _ _) in H. set (y := [_; _] : list (cx (num B32))) in H.
      specialize (H (post (F := ieee o) c v (nthc (F := ieee o) y 1) (nthc (F := ieee o) y 1) (nthc (F := ieee o) w 1))).
      destruct H as [H _]; [right; left; reflexivity|]. revert H.
      assert (Y : exists t, re (post (F := ieee o) c v (nthc (F := ieee o) y 1) (nthc (F := ieee o) y 1) (nthc (F := ieee o) w 1)) =
        Bmult mode_NE (Bplus mode_NE (Bplus mode_NE (re (nthc (F := ieee o) y 1)) (re (nthc (F := ieee o) y 1))) t) (@M_rfft.half _ (ieee o))).
      { destruct v; eexists; reflexivity. }
      destruct Y as [t ->]. assert (I : Bplus mode_NE (re (nthc (F := ieee o) y 1)) (re (nthc (F := ieee o) y 1)) = B754_infinity false) by (apply B2SF_inj; vm_compute; reflexivity).
      rewrite I, nf_mul; [discriminate|]. apply inf_plus.
    + intros ? ? [= _ <-]. reflexivity.
Qed.
Print Assumptions C95_early_overflow_refuted.

(* ---------- concrete cases: 1024 ones and 64 ones in f32, with correctly rounded sin and cos, on each kernel ---------- *)
Lemma real_ones (f : fmt) (o : libm f) (k : nat) : finite_reals (repeat (norm f 1 0) k) /\ rnorm (real_values (repeat (norm f 1 0) k)) = INR k.
Proof.
  destruct (one_ok o) as [F1 V1]. cbn [fone ieee] in F1, V1. split; [intros z Hz; apply repeat_spec in Hz; subst z; exact F1|].
  assert (E : real_values (repeat (norm f 1 0) k) = repeat 1 k). { unfold real_values. clear - V1. induction k; [reflexivity|]. cbn [repeat map]. rewrite IHk. f_equal. exact V1. }
  rewrite E. unfold rnorm. rewrite repeat_length, <- (Rmult_1_r (INR k)), <- rsum_const'. apply rsum_ext. intros i Hi.
  rewrite (nth_indep _ 0 1) by (rewrite repeat_length; exact Hi). rewrite nth_repeat. apply Rabs_R1.
Qed.
Definition ones1024 : list (num B32) := repeat (norm B32 1 0) 1024.
Lemma ones1024_facts : length ones1024 = 1024%nat /\ finite_reals ones1024 /\ rnorm (real_values ones1024) = 1024 /\ INR 1024 = 1024 /\ INR (Nat.log2 1024) = 10.
Proof.
  unfold ones1024. destruct (real_ones (exact_libm B32) 1024) as [F N]. split; [apply repeat_length|]. split; [exact F|]. rewrite N.
  assert (E1 : INR 1024 = 1024) by (rewrite INR_IZR_INZ; reflexivity). split; [exact E1|]. split; [exact E1|]. change (Nat.log2 1024) with 10%nat. rewrite INR_IZR_INZ. reflexivity.
Qed.
Example C95_f32_1024 : forall (v : rpath) un out, length out = 513%nat ->
  exists p z, trfft (F := ieee (exact_libm B32)) (cfg_std F32) (fft (F := ieee (exact_libm B32)) (cfg_std F32)) v un (new_planner (T := num B32)) ones1024 out = Done (p, z, ROk) /\
    finite_signal z /\ within 11 (values z) (half_spectrum (real_values ones1024)).
Proof.
  intros v un out Ho. destruct ones1024_facts as (Hx & F & N & E1 & E2). pose proof (tiny_1 B32) as T. pose proof (tiny_pos B32) as T0.
  destruct (@C95_ieee_rfft B32 (exact_libm B32) (cfg_std F32) v un ones1024 out (C89_library B32) (or_intror (C89_tables B32)) F) as (p & z & E & Z1 & Z2); rewrite ?Hx, ?N, ?E1, ?E2 in *.
  - lia.
  - reflexivity.
  - change (bpow radix2 (precf B32)) with 16777216. lra.
  - apply Rle_trans with (bpow radix2 10); [change (bpow radix2 10) with 1024; lra|apply bpow_le; cbn; lia].
  - exact Ho.
  - exists p, z. split; [exact E|]. split; [exact Z1|]. eapply within_le; [exact Z2|]. change (bpow radix2 (- precf B32)) with (/ 16777216). change (floor_size B32) with (tiny B32). lra.
Qed.
Definition ones64 : list (num B32) := repeat (norm B32 1 0) 64.
Example C95_f32_there_and_back : forall (v v' : rpath) un un' out out', length out = 33%nat -> length out' = 64%nat ->
  exists p y p' z, trfft (F := ieee (exact_libm B32)) (cfg_std F32) (fft (F := ieee (exact_libm B32)) (cfg_std F32)) v un (new_planner (T := num B32)) ones64 out = Done (p, y, ROk) /\
    tirfft (F := ieee (exact_libm B32)) (cfg_std F32) (ifft (F := ieee (exact_libm B32)) (cfg_std F32)) v' un' p y out' = Done (p', z, ROk) /\ finite_reals z /\
    rwithin (1 / 10) (real_values z) (real_values ones64).
Proof.
  intros v v' un un' out out' Ho Ho'. destruct (real_ones (exact_libm B32) 64) as [F N]. fold ones64 in F, N.
  assert (Hx : length ones64 = 64%nat) by apply repeat_length. assert (E1 : INR 64 = 64) by (rewrite INR_IZR_INZ; reflexivity).
  assert (E2 : INR (Nat.log2 64) = 6) by (change (Nat.log2 64) with 6%nat; rewrite INR_IZR_INZ; reflexivity). rewrite E1 in N. pose proof (tiny_1 B32) as T. pose proof (tiny_pos B32) as T0.
  destruct (@C95_ieee_roundtrip B32 (exact_libm B32) (cfg_std F32) v v' un un' ones64 out out' (C89_library B32) (or_intror (C89_tables B32)) F) as (p & y & p' & z & E & E' & Z1 & Z2); rewrite ?Hx, ?N, ?E1, ?E2 in *.
  - lia.
  - reflexivity.
  - change (bpow radix2 (precf B32)) with 16777216. lra.
  - apply Rle_trans with (bpow radix2 20); [change (bpow radix2 20) with 1048576; lra|apply bpow_le; cbn; lia].
  - exact Ho.
  - exact Ho'.
  - exists p, y, p', z. split; [exact E|]. split; [exact E'|]. split; [exact Z1|]. destruct Z2 as [L2 Z2]. split; [exact L2|]. intros k Hk. eapply Rle_trans; [apply Z2; exact Hk|].
    change (bpow radix2 (- precf B32)) with (/ 16777216). change (floor_size B32) with (tiny B32). lra.
Qed.

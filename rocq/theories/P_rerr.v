(* Property C85: rounding errors of the real transforms. *)
From Coq Require Import Reals Lra Lia.
From Flocq Require Import Core.
From Verif Require Import L_err L_flx L_rerr P_fft P_rfft P_err.
Set Implicit Arguments.
Open Scope R_scope.

(* ---------- specification ---------- *)
(* |x_0| + ... + |x_(n-1)| *)
Definition rnorm (x : list R) : R := rsum (length x) (fun j => Rabs (nth j x 0)).
(* the complex signal x_0 + i x_1, x_2 + i x_3, ... handed to the complex transform *)
Definition pairs (x : list R) : list C := tab (length x / 2) (fun i => mkcx (nth (2 * i) x 0) (nth (2 * i + 1) x 0)).
(* the table the planner hands out for half length m is accurate to d *)
Definition rtable_within (G : Float R) (c : cfg) (m : nat) (d : R) : Prop := forall rp t,
  rget_twiddles (F := G) c (rnew (F := G) c) m = Done (rp, t) -> forall k, (k < m)%nat -> Cabs (at_ t k -c W (2 * m) k) <= d.
(* error factor of the recombination of one bin *)
Definition recomb (u d : R) : R := (1 + d) * (1 + gamma u) * (1 + u) ^ 3.
(* distance of two real signals, largest sample *)
Definition rwithin (e : R) (y z : list R) : Prop := length y = length z /\ forall k, (k < length z)%nat -> Rabs (nth k y 0 - nth k z 0) <= e.

(* ---------- proofs ---------- *)
Section Lem.
Variables (G : Float R) (u d : R) (c : cfg).
Hypothesis (HG : rounded G u) (Hd : 0 <= d) (Hh : @flit R G (1 # 2) = / 2).
Lemma rtw m : rtable_within G c m d -> rtw_ok G c d m.
Proof. intros H k Hk. destruct (rget_ok m (rinv_new (F := G) c)) as (rp & E & _). exact (H _ _ E k Hk). Qed.
Lemma packed_pairs x : packed (F := G) x = pairs x.
Proof.
  unfold packed, pairs. apply tab_ext. intros i Hi. unfold nthf.
  assert (E : forall j, (j < length x)%nat -> nth j x (@fzero R G) = nth j x 0) by (intros; apply nth_indep; assumption).
  pose proof (Nat.mul_div_le (length x) 2 ltac:(lia)). rewrite !E by lia. reflexivity.
Qed.
Lemma norm1_pairs x : norm1 (pairs x) <= rnorm x.
Proof.
  unfold norm1, rnorm, pairs. rewrite tab_length. set (m := (length x / 2)%nat).
  apply Rle_trans with (rsum m (fun i => Rabs (nth (2 * i) x 0) + Rabs (nth (2 * i + 1) x 0))).
  - apply rsum_le'. intros i Hi. rewrite at_tab by exact Hi. apply Cabs_parts.
  - apply Rle_trans with (rsum (2 * m) (fun j => Rabs (nth j x 0))).
    + rewrite rsum_even_odd. right. clear. induction m as [|m IH]; cbn [rsum]; [ring|]. rewrite IH. ring.
    + assert (Hm : (2 * m <= length x)%nat) by (unfold m; apply Nat.mul_div_le; lia).
      replace (length x) with (2 * m + (length x - 2 * m))%nat at 1 by lia. rewrite rsum_split'.
      pose proof (@rsum_pos (length x - 2 * m)%nat (fun i => Rabs (nth (2 * m + i) x 0)) ltac:(intros; apply Rabs_pos)). lra.
Qed.
Lemma rnorm_pos x : 0 <= rnorm x.
Proof. apply rsum_pos. intros. apply Rabs_pos. Qed.
Lemma Cabs_csum n f : Cabs (csum n f) <= rsum n (fun i => Cabs (f i)).
Proof. induction n as [|n IH]; cbn [csum rsum]; [rewrite Cabs_0; lra|]. eapply Rle_trans; [apply Cabs_tri|]. lra. Qed.
Lemma DFT_bound x k : (k < length x)%nat -> Cabs (at_ (DFT x) k) <= norm1 x.
Proof.
  intros H. rewrite DFT_at by exact H. unfold dft. eapply Rle_trans; [apply Cabs_csum|]. apply rsum_le'. intros i _. rewrite Cabs_mul, Cabs_W. lra.
Qed.
Lemma recomb_PP : recomb u d = PP u d.
Proof. reflexivity. Qed.
(* the inverse: what is handed to the complex transform, and what comes out *)
Lemma ihand v m q S0 y yh : (0 < m)%nat -> rtable_within G c m d -> length y = (m + 1)%nat -> near_list q S0 y yh ->
  exists Z, length Z = m /\ IDFT Z = pairs (real_inverse y) /\
    near_list (q * recomb u d) (fun k => S0 k + S0 (m - k)%nat) Z (iclosed (F := G) c v m (build_twiddle_table (F := G) c m) yh).
Proof.
  intros Hm Ht Hy N. exists (iclosed (F := RF) c v m (build_twiddle_table (F := RF) c m) y). split; [apply tab_length|]. split.
  - rewrite iclosed_R by exact Hm. change (pairs (real_inverse y)) with (packed (F := RF) (real_inverse y)). f_equal. unfold real_inverse. replace (length y - 1)%nat with m by lia.
    apply tab_ext. intros j Hj. unfold hsig. f_equal. apply idft_ext. intros i Hi. unfold extension. replace (length y - 1)%nat with m by lia. reflexivity.
  - exact (@iclosed_near G u HG c d Hd Hh v m q S0 y yh Hm (rtw Ht) Hy N).
Qed.
Lemma unpacked_near q B (X : list R) w : Nat.Even (length X) -> near_list q (fun _ => B) (pairs X) w -> rwithin ((q - 1) * B) (unpacked (F := G) w) X.
Proof.
  intros [m Hm] [Hl H]. assert (Hx : (length X / 2 = m)%nat) by (rewrite Hm, Nat.mul_comm; apply Nat.div_mul; lia).
  assert (Lp : length (pairs X) = m) by (unfold pairs; rewrite tab_length; exact Hx). rewrite Lp in *.
  split; [rewrite unpacked_length; lia|]. intros k Hk.
  assert (Ek : (k / 2 < m)%nat) by (apply Nat.div_lt_upper_bound; lia).
  specialize (H _ Ek). unfold unpacked. rewrite nth_tab by lia. rewrite nthc_at by lia.
  assert (Ep : at_ (pairs X) (k / 2) = mkcx (nth (2 * (k / 2)) X 0) (nth (2 * (k / 2) + 1) X 0)) by (unfold pairs; rewrite at_tab by lia; reflexivity).
  rewrite Ep in H. destruct H as (_ & _ & H). pose proof (Nat.div_mod k 2 ltac:(lia)) as D.
  destruct (Nat.even k) eqn:Ev.
  - apply Nat.even_spec in Ev. destruct Ev as [j ->]. replace (2 * j / 2)%nat with j in * by (rewrite Nat.mul_comm, Nat.div_mul; lia).
    eapply Rle_trans; [|exact H]. eapply Rle_trans; [|apply Rabs_re]. apply Rle_refl.
  - assert (Eo : Nat.odd k = true) by (rewrite <- Nat.negb_even, Ev; reflexivity). apply Nat.odd_spec in Eo. destruct Eo as [j ->].
    replace ((2 * j + 1) / 2)%nat with j in *.
    + eapply Rle_trans; [|exact H]. eapply Rle_trans; [|apply Rabs_im]. apply Rle_refl.
    + replace (2 * j + 1)%nat with (1 + j * 2)%nat by lia. rewrite Nat.div_add by lia. reflexivity.
Qed.
Section Op.
Context {S : Type}.
Variable op : S -> list C -> exec (S * list C * rres).
Lemma rdirect_near v s s' x y out scr q B : rtable_within G c (length x / 2) d -> (0 < length x)%nat -> Nat.Even (length x) ->
  length out = (length x / 2 + 1)%nat -> (length x / 2 <= length scr)%nat ->
  op s (pairs x) = Done (s', y, ROk) -> near_list q (fun _ => B) (DFT (pairs x)) y ->
  exists z scr', rfft_direct (F := G) c op v s x out scr (build_twiddle_table (F := G) c (length x / 2)) = Done (s', z, scr', ROk) /\
    near_list (q * recomb u d) (fun _ => 2 * B) (half_spectrum x) z.
Proof.
  intros Ht Hn [m Hm] Ho Hs E N. assert (Hx : (length x / 2 = m)%nat) by (rewrite Hm, Nat.mul_comm; apply Nat.div_mul; lia). rewrite Hx in *.
  assert (Lp : length (pairs x) = m) by (unfold pairs; rewrite tab_length; exact Hx).
  assert (Ly : length y = m) by (destruct N as [Hl _]; rewrite Hl, DFT_length; exact Lp).
  exists (rclosed (F := G) (post (F := G) c v) m (build_twiddle_table (F := G) c m) y). eexists. split.
  - rewrite rfft_direct_ok.
    + rewrite packed_pairs, E, Hx. cbn [bind]. reflexivity.
    + apply rcheck_none. lia.
    + rewrite rtable_length. lia.
    + rewrite packed_pairs, E, Hx. intros ? ? [= _ <-]. exact Ly.
  - pose proof (@rclosed_near G u HG c d Hd Hh v m q B (DFT (pairs x)) y ltac:(lia) (rtw Ht) ltac:(rewrite DFT_length; exact Lp) N) as P.
    change (pairs x) with (packed (F := RF) x) in P. rewrite rclosed_R in P by lia. unfold half_spectrum. rewrite Hx, Hm. exact P.
Qed.
Lemma irdirect_near v s s' y yh w q2 B out scr : (0 < length out)%nat -> Nat.Even (length out) ->
  length yh = (length out / 2 + 1)%nat -> length y = (length out / 2 + 1)%nat -> (length out / 2 <= length scr)%nat ->
  op s (iclosed (F := G) c v (length out / 2) (build_twiddle_table (F := G) c (length out / 2)) yh) = Done (s', w, ROk) ->
  near_list q2 (fun _ => B) (pairs (real_inverse y)) w ->
  exists z scr', irfft_direct (F := G) c op v s yh out scr (build_twiddle_table (F := G) c (length out / 2)) = Done (s', z, scr', ROk) /\
    rwithin ((q2 - 1) * B) z (real_inverse y).
Proof.
  intros Hn [m Hm] Hyh Hy Hs E N. assert (Hx : (length out / 2 = m)%nat) by (rewrite Hm, Nat.mul_comm; apply Nat.div_mul; lia). rewrite Hx in *.
  assert (Lr : length (real_inverse y) = (2 * m)%nat) by (unfold real_inverse; rewrite tab_length; lia).
  assert (Lw : length w = m). { destruct N as [Hl _]. rewrite Hl. unfold pairs. rewrite tab_length, Lr, Nat.mul_comm. apply Nat.div_mul. lia. }
  exists (unpacked (F := G) w). eexists. split.
  - rewrite irfft_direct_ok; rewrite ?Hx.
    + rewrite E. cbn [bind]. reflexivity.
    + apply rcheck_none. lia.
    + rewrite rtable_length. lia.
    + rewrite E. intros ? ? [= _ <-]. exact Lw.
  - apply unpacked_near; [exists m; exact Lr|exact N].
Qed.
End Op.
Lemma rsum_first m (f : nat -> R) : rsum (S m) f = f 0%nat + rsum m (fun k => f (S k)).
Proof. change (S m) with (1 + m)%nat. rewrite rsum_split'. cbn [rsum]. rewrite Rplus_0_l. reflexivity. Qed.
Lemma rsum_reflect m (f : nat -> R) : rsum m (fun k => f (m - k)%nat) = rsum m (fun k => f (S k)).
Proof.
  revert f. induction m as [|m IH]; intros f; [reflexivity|]. rewrite rsum_first. cbn [rsum]. rewrite <- IH. rewrite Nat.sub_0_r, Rplus_comm.
  f_equal.
Qed.
Lemma spread m (f : nat -> R) : (forall k, (k <= m)%nat -> 0 <= f k) -> rsum m (fun k => f k + f (m - k)%nat) <= 2 * rsum (m + 1) f.
Proof.
  intros H. rewrite rsum_add, rsum_reflect. pose proof (rsum_first m f) as E. rewrite Nat.add_1_r. cbn [rsum] in *. pose proof (H 0%nat ltac:(lia)). pose proof (H m ltac:(lia)). lra.
Qed.
End Lem.

(* ---------- theorems ---------- *)
(* Any complex transform, planner state, kernel and scratch contents: if the complex transform of
   x_0 + i x_1, x_2 + i x_3, ... is off by at most (q-1) B, the half spectrum is off by at most
   (q (1+d)(1+gamma)(1+u)^3 - 1) 2B. *)
Theorem C85_rfft_any_provider : forall (G : Float R) (u d : R) (c : cfg) (v : rpath) (S : Type) (op : S -> list C -> exec (S * list C * rres)) s s' rp (x : list R) y out scr q B,
  rounded G u -> 0 <= d -> @flit R G (1 # 2) = / 2 -> rtable_within G c (length x / 2) d -> rreach (F := G) c rp ->
  (0 < length x)%nat -> Nat.Even (length x) -> length out = (length x / 2 + 1)%nat -> (length x / 2 <= length scr)%nat ->
  op s (pairs x) = Done (s', y, ROk) -> 1 <= q -> rnorm x <= B -> within ((q - 1) * B) y (DFT (pairs x)) ->
  exists rp' z scr', rfft_with_scratch (F := G) c op v rp s x out scr = Done (rp', s', z, scr', ROk) /\
    within ((q * recomb u d - 1) * (2 * B)) z (half_spectrum x).
Proof.
  intros G u d c v S op s s' rp x y out scr q B HG Hd Hh Ht Hr Hn He Ho Hs E Hq HB [Hl Hw].
  assert (N : near_list q (fun _ => B) (DFT (pairs x)) y).
  { split; [exact Hl|]. intros i Hi. split; [exact Hq|]. split; [|apply Hw; exact Hi]. rewrite DFT_length in Hi.
    eapply Rle_trans; [apply DFT_bound; exact Hi|]. pose proof (norm1_pairs x). lra. }
  destruct (rws_ok op v s x out scr (rreach_inv Hr)) as (rp' & _ & _ & E1).
  destruct (@rdirect_near G u d c HG Hd Hh S op v s s' x y out scr q B Ht Hn He Ho Hs E N) as (z & scr' & E2 & N2).
  exists rp', z, scr'. rewrite E1, E2. split; [reflexivity|]. apply near_within. exact N2.
Qed.
Print Assumptions C85_rfft_any_provider.

(* The scalar object, half length a power of two *)
Theorem C85_rfft_error : forall (G : Float R) (u d : R) (c : cfg) (v : rpath) uninit (x : list R) out,
  rounded G u -> 0 <= d -> @flit R G (1 # 2) = / 2 -> rtable_within G c (length x / 2) d ->
  constants_within G (length x / 2) d -> twiddles_within G c (length x / 2) d ->
  is_pow2 (length x / 2) = true -> Nat.Even (length x) -> length out = (length x / 2 + 1)%nat ->
  exists p z, trfft (F := G) c (fft (F := G) c) v uninit new_planner x out = Done (p, z, ROk) /\
    within ((bfly u d ^ Nat.log2 (length x / 2) * recomb u d - 1) * (2 * rnorm x)) z (half_spectrum x).
Proof.
  intros G u d c v un x out HG Hd Hh Ht HK Htw Hp He Ho.
  assert (Lp : length (pairs x) = (length x / 2)%nat) by apply tab_length.
  assert (Hn : (0 < length x)%nat). { destruct (length x); [discriminate Hp|lia]. }
  destruct (@fft_err G u d c HG Hd (pairs x)) as (p & y & E & N & _); [rewrite Lp; exact HK|rewrite Lp; exact Hp|rewrite Lp; exact Htw|].
  rewrite Lp, Rmult_1_l in N.
  assert (N' : near_list (bfly u d ^ Nat.log2 (length x / 2)) (fun _ => rnorm x) (DFT (pairs x)) y).
  { eapply near_list_mono; [exact N|apply Rle_refl|]. intros; apply norm1_pairs. }
  unfold trfft, trfft_with_scratch. destruct (rws_ok (fft (F := G) c) v new_planner x out (tab (length x / 2) un) (rinv_new (F := G) c)) as (rp' & _ & _ & E1).
  destruct (@rdirect_near G u d c HG Hd Hh _ (fft (F := G) c) v new_planner p x y out (tab (length x / 2) un) _ (rnorm x) Ht Hn He Ho ltac:(rewrite tab_length; lia) E N') as (z & scr' & E2 & N2).
  exists p, z. rewrite E1, E2. split; [reflexivity|]. apply near_within. exact N2.
Qed.
Print Assumptions C85_rfft_error.

(* any other even length, through the chirp transform of the half length *)
Theorem C85_rfft_other_error : forall (G : Float R) (u d e : R) (c : cfg) (v : rpath) uninit (x : list R) out (h m : nat),
  rounded G u -> 0 <= d -> 0 <= e -> @flit R G (1 # 2) = / 2 -> c_std c = true -> length x = (2 * h)%nat -> (0 < h)%nat -> is_pow2 h = false -> m = next_pow2 (2 * h - 1) ->
  rtable_within G c h d -> constants_within G m d -> twiddles_within G c m d -> chirp_within G h e -> @fofnat R G m = INR m -> length out = (h + 1)%nat ->
  exists p z, trfft (F := G) c (fft (F := G) c) v uninit new_planner x out = Done (p, z, ROk) /\
    within ((((1 + e) * (1 + gamma u)) ^ 3 * (bfly u d ^ Nat.log2 m) ^ 3 * (1 + u) ^ 2 * recomb u d - 1) * (2 * ((2 * INR h - 1) * rnorm x))) z (half_spectrum x).
Proof.
  intros G u d e c v un x out h m HG Hd He Hh Hs Hx Hh0 Hp Em Ht HK Htw Hc Hf Ho.
  assert (Hx2 : (length x / 2 = h)%nat) by (rewrite Hx, Nat.mul_comm; apply Nat.div_mul; lia).
  assert (Lp : length (pairs x) = h) by (unfold pairs; rewrite tab_length; exact Hx2).
  assert (Hb : (2 * h - 1 <= m)%nat) by (subst m; apply next_pow2_ge).
  destruct (@C65_bluestein_error G u d e c (pairs x) m HG Hd Hs) as (p & y & E & W); rewrite ?Lp; try assumption. rewrite Lp in W.
  set (q := ((1 + e) * (1 + gamma u)) ^ 3 * (bfly u d ^ Nat.log2 m) ^ 3 * (1 + u) ^ 2) in *.
  assert (HhR : 1 <= INR h) by (replace 1 with (INR 1) by reflexivity; apply le_INR; lia).
  pose proof (norm1_pairs x) as Hnp. pose proof (rnorm_pos x) as Hrp.
  assert (Hq : 1 <= q).
  { pose proof (u_pos HG). pose proof (gam_pos HG). unfold q. assert (1 <= bfly u d) by (apply (@QQ_ge1 G u HG d Hd)).
    assert (1 <= gamma u + 1) by (unfold gamma; unfold gam in *; lra).
    assert (A1 : 1 <= ((1 + e) * (1 + gamma u)) ^ 3) by (apply pow_ge1; nra).
    assert (A2 : 1 <= (bfly u d ^ Nat.log2 m) ^ 3) by (apply pow_ge1, pow_ge1; assumption).
    assert (A3 : 1 <= (1 + u) ^ 2) by (apply pow_ge1; lra). assert (1 <= ((1 + e) * (1 + gamma u)) ^ 3 * (bfly u d ^ Nat.log2 m) ^ 3) by nra. nra. }
  unfold trfft, trfft_with_scratch.
  destruct (@C85_rfft_any_provider G u d c v _ (fft (F := G) c) new_planner p (rnew (F := G) c) x y out (tab (length x / 2) un) q ((2 * INR h - 1) * rnorm x)) as (rp' & z & scr' & E2 & N2);
    rewrite ?Hx2; try assumption.
  - constructor.
  - lia.
  - exists h. exact Hx.
  - rewrite tab_length. lia.
  - nra.
  - destruct W as [W1 W2]. split; [exact W1|]. intros k Hk. eapply Rle_trans; [apply W2; exact Hk|]. apply Rmult_le_compat_l; [lra|]. apply Rmult_le_compat_l; lra.
  - exists p, z. rewrite Hx2 in E2. rewrite E2. split; [reflexivity|exact N2].
Qed.
Print Assumptions C85_rfft_other_error.

(* Inverse: any object whose planner is warmed up as by earlier calls of the same size *)
Lemma irfft_near (G : Float R) (u d0 d : R) (c : cfg) (v : rpath) un p q S0 (y yh : list C) out :
  rounded G u -> 0 <= d0 -> 0 <= d -> @flit R G (1 # 2) = / 2 -> rtable_within G c (length out / 2) d ->
  constants_within G (length out / 2) d0 -> twiddles_within G c (length out / 2) d0 -> @fofnat R G (length out / 2) = INR (length out / 2) ->
  is_pow2 (length out / 2) = true -> Nat.Even (length out) -> length y = (length out / 2 + 1)%nat ->
  Inv (F := G) c p -> ready c p (length out / 2) -> near_list q S0 y yh ->
  exists p' z, tirfft (F := G) c (ifft (F := G) c) v un p yh out = Done (p', z, ROk) /\
    rwithin ((q * recomb u d * bfly u d0 ^ Nat.log2 (length out / 2) * ((1 + u) * (1 + u)) - 1) * (2 * rsum (length out / 2 + 1) S0 / INR (length out / 2))) z (real_inverse y).
Proof.
  intros HG Hd0 Hd Hh Ht HK Htw Hf Hp He Hy HI Hr N. set (m := (length out / 2)%nat) in *.
  assert (Hm : (0 < m)%nat) by (destruct m; [discriminate Hp|lia]).
  assert (Hn : (0 < length out)%nat) by (destruct (length out); [cbn in Hm; lia|lia]).
  assert (HmR : 0 < INR m) by (apply lt_0_INR; exact Hm).
  destruct (@ihand G u d c HG Hd Hh v m q S0 y yh Hm Ht Hy N) as (Z & LZ & EZ & NZ).
  pose proof (fun q S => @ifft_err G u d0 c HG Hd0 p q S Z (iclosed (F := G) c v m (build_twiddle_table (F := G) c m) yh) HI) as P. rewrite LZ, EZ in P.
  destruct (P _ _ Hr HK Hp Htw Hf NZ) as (p' & w & E & Nw). clear P.
  assert (P0 : forall k, (k <= m)%nat -> 0 <= S0 k). { intros k Hk. destruct N as [_ N]. eapply near_pos. apply N. rewrite Hy. lia. }
  assert (Nw' : near_list (q * recomb u d * bfly u d0 ^ Nat.log2 m * ((1 + u) * (1 + u))) (fun _ => 2 * rsum (m + 1) S0 / INR m) (pairs (real_inverse y)) w).
  { eapply near_list_mono; [exact Nw|apply Rle_refl|]. intros i _. pose proof (@spread m S0 P0). unfold Rdiv. rewrite Rmult_comm.
    apply Rmult_le_compat_r; [left; apply Rinv_0_lt_compat; exact HmR|assumption]. }
  assert (Lyh : length yh = (m + 1)%nat) by (destruct N as [Hl _]; congruence).
  unfold tirfft, tirfft_with_scratch.
  destruct (irws_ok (ifft (F := G) c) v p yh out (tab (length out / 2) un) (rinv_new (F := G) c)) as (rp' & _ & _ & E1).
  destruct (@irdirect_near G c _ (ifft (F := G) c) v p p' y yh w _ _ out (tab (length out / 2) un) Hn He Lyh Hy ltac:(rewrite tab_length; lia) E Nw') as (z & scr' & E2 & N2).
  exists p', z. rewrite E1, E2. split; [reflexivity|exact N2].
Qed.
Theorem C85_irfft_error : forall (G : Float R) (u d : R) (c : cfg) (v : rpath) uninit (y : list C) out,
  rounded G u -> 0 <= d -> @flit R G (1 # 2) = / 2 -> rtable_within G c (length out / 2) d ->
  constants_within G (length out / 2) d -> twiddles_within G c (length out / 2) d -> @fofnat R G (length out / 2) = INR (length out / 2) ->
  is_pow2 (length out / 2) = true -> Nat.Even (length out) -> length y = (length out / 2 + 1)%nat ->
  exists p z, tirfft (F := G) c (ifft (F := G) c) v uninit new_planner y out = Done (p, z, ROk) /\
    rwithin ((bfly u d ^ Nat.log2 (length out / 2) * recomb u d * (1 + u) ^ 2 - 1) * (2 * norm1 y / INR (length out / 2))) z (real_inverse y).
Proof.
  intros G u d c v un y out HG Hd Hh Ht HK Htw Hf Hp He Hy.
  destruct (@irfft_near G u d d c v un new_planner 1 _ y y out HG Hd Hd Hh Ht HK Htw Hf Hp He Hy (@Inv_new R G c) (@ready_new R c _) (near_self y)) as (p & z & E & [N1 N2]).
  exists p, z. split; [exact E|]. split; [exact N1|]. intros k Hk. eapply Rle_trans; [apply N2; exact Hk|]. right. unfold norm1. rewrite Hy. cbn [pow]. ring.
Qed.
Print Assumptions C85_irfft_error.

(* Forward and back on one object *)
Lemma roundtrip_near : forall (G : Float R) (u d0 d : R) (c : cfg) (v v' : rpath) un un' (x : list R) out out',
  rounded G u -> 0 <= d0 -> 0 <= d -> @flit R G (1 # 2) = / 2 -> rtable_within G c (length x / 2) d ->
  constants_within G (length x / 2) d0 -> twiddles_within G c (length x / 2) d0 -> @fofnat R G (length x / 2) = INR (length x / 2) ->
  is_pow2 (length x / 2) = true -> Nat.Even (length x) -> length out = (length x / 2 + 1)%nat -> length out' = length x ->
  exists p y p' z, trfft (F := G) c (fft (F := G) c) v un new_planner x out = Done (p, y, ROk) /\
    tirfft (F := G) c (ifft (F := G) c) v' un' p y out' = Done (p', z, ROk) /\
    rwithin ((bfly u d0 ^ (2 * Nat.log2 (length x / 2)) * recomb u d ^ 2 * (1 + u) ^ 2 - 1) * (4 * (INR (length x / 2) + 1) / INR (length x / 2) * rnorm x)) z x.
Proof.
  intros G u d0 d c v v' un un' x out out' HG Hd0 Hd Hh Ht HK Htw Hf Hp He Ho Ho'.
  assert (Lp : length (pairs x) = (length x / 2)%nat) by apply tab_length.
  assert (Hn : (0 < length x)%nat). { destruct (length x); [discriminate Hp|lia]. }
  destruct (@fft_err G u d0 c HG Hd0 (pairs x)) as (p & y & E & N & HI & Hr); [rewrite Lp; exact HK|rewrite Lp; exact Hp|rewrite Lp; exact Htw|].
  rewrite Lp, Rmult_1_l in *.
  assert (N' : near_list (bfly u d0 ^ Nat.log2 (length x / 2)) (fun _ => rnorm x) (DFT (pairs x)) y).
  { eapply near_list_mono; [exact N|apply Rle_refl|]. intros; apply norm1_pairs. }
  unfold trfft, trfft_with_scratch. destruct (rws_ok (fft (F := G) c) v new_planner x out (tab (length x / 2) un) (rinv_new (F := G) c)) as (rp' & _ & _ & E1).
  destruct (@rdirect_near G u d c HG Hd Hh _ (fft (F := G) c) v new_planner p x y out (tab (length x / 2) un) _ (rnorm x) Ht Hn He Ho ltac:(rewrite tab_length; lia) E N') as (yh & scr' & E2 & N2).
  pose proof (fun q S => @irfft_near G u d0 d c v' un' p q S (half_spectrum x) yh out') as P. rewrite Ho' in P.
  destruct (P _ _ HG Hd0 Hd Hh Ht HK Htw Hf Hp He ltac:(unfold half_spectrum; apply tab_length) HI Hr N2) as (p' & z & E3 & N3).
  exists p, yh, p', z. rewrite E1, E2. split; [reflexivity|]. split; [exact E3|].
  rewrite half_spectrum_inverse in N3 by assumption. destruct N3 as [L3 N3]. split; [exact L3|]. intros k Hk. eapply Rle_trans; [apply N3; exact Hk|]. right.
  assert (HmR : 0 < INR (length x / 2)). { apply lt_0_INR. destruct (length x / 2)%nat; [discriminate Hp|lia]. }
  rewrite rsum_const', plus_INR. cbn [INR]. replace (2 * Nat.log2 (length x / 2))%nat with (Nat.log2 (length x / 2) + Nat.log2 (length x / 2))%nat by lia.
  rewrite pow_add. cbn [pow]. field. lra.
Qed.
Theorem C85_roundtrip_error : forall (G : Float R) (u d : R) (c : cfg) (v v' : rpath) un un' (x : list R) out out',
  rounded G u -> 0 <= d -> @flit R G (1 # 2) = / 2 -> rtable_within G c (length x / 2) d ->
  constants_within G (length x / 2) d -> twiddles_within G c (length x / 2) d -> @fofnat R G (length x / 2) = INR (length x / 2) ->
  is_pow2 (length x / 2) = true -> Nat.Even (length x) -> length out = (length x / 2 + 1)%nat -> length out' = length x ->
  exists p y p' z, trfft (F := G) c (fft (F := G) c) v un new_planner x out = Done (p, y, ROk) /\
    tirfft (F := G) c (ifft (F := G) c) v' un' p y out' = Done (p', z, ROk) /\
    rwithin ((bfly u d ^ (2 * Nat.log2 (length x / 2)) * recomb u d ^ 2 * (1 + u) ^ 2 - 1) * (4 * (INR (length x / 2) + 1) / INR (length x / 2) * rnorm x)) z x.
Proof. intros G u d c v v' un un' x out out' HG Hd. exact (@roundtrip_near G u d d c v v' un un' x out out' HG Hd Hd). Qed.
Print Assumptions C85_roundtrip_error.

(* The running product that fills the table *)
Theorem C85_table_error : forall (G : Float R) (u e : R) (c : cfg) m rp t k, rounded G u -> 0 <= e ->
  Cabs (expi (F := G) (@fdiv R G (@fneg R G (@fpi R G)) (@fofnat R G m)) -c W (2 * m) 1) <= e ->
  rget_twiddles (F := G) c (rnew (F := G) c) m = Done (rp, t) -> (k < m)%nat ->
  Cabs (at_ t k -c W (2 * m) k) <= ((1 + e) * (1 + gamma u)) ^ k - 1.
Proof.
  intros G u e c m rp t k HG He Hs E Hk. destruct (rget_ok m (rinv_new (F := G) c)) as (rp2 & E2 & _). rewrite E2 in E. injection E as _ <-.
  exact (@rtable_near G u HG c m e k He Hs Hk).
Qed.
Print Assumptions C85_table_error.

(* ---------- the inverse complex transform at other lengths (C65) ---------- *)
Theorem C65_ifft_bluestein_error : forall (G : Float R) (u d e : R) (c : cfg) (y : list C) (m : nat),
  rounded G u -> 0 <= d -> c_std c = true -> is_pow2 (length y) = false -> (0 < length y)%nat ->
  m = next_pow2 (2 * length y - 1) -> constants_within G m d -> twiddles_within G c m d -> 0 <= e -> chirp_within G (length y) e ->
  @fofnat R G m = INR m -> @fofnat R G (length y) = INR (length y) ->
  exists p z, ifft (F := G) c (new_planner (T := R)) y = Done (p, z, ROk) /\
    within ((((1 + e) * (1 + gamma u)) ^ 3 * (bfly u d ^ Nat.log2 m) ^ 3 * (1 + u) ^ 4 - 1) * ((2 - / INR (length y)) * norm1 y)) z (IDFT y).
Proof.
  intros G u d e c y m HG Hd Hs Hp Hn -> HK Ht He Hc Hf Hf2.
  assert (H1 : (1 < length y)%nat). { destruct (Nat.eq_dec (length y) 1) as [E|]; [rewrite E in Hp; discriminate Hp|lia]. }
  assert (HnR : 0 < INR (length y)) by (apply lt_0_INR; exact Hn).
  destruct (@ifft_cases R G c new_planner y (@Inv_new R G c)) as [[H _]|[(_ & H & _)|(_ & _ & p' & z & E & _ & _ & Hz)]].
  - lia.
  - exfalso. revert H. unfold supported. rewrite Hs. discriminate.
  - exists p', z. split; [exact E|]. rewrite (Hz (@ready_new R c _)). unfold ifft_fresh. destruct (Nat.eqb_spec (length y) 1); [lia|].
    unfold fft_fresh. rewrite map_length, Hp.
    pose proof (fun S => @bluefft_near G u HG c d Hd 1 S (map Cconj y) (map (cconj (F := G)) y) e) as P. rewrite map_length in P.
    specialize (P _ (kern HK) Hn He Hc (tws Ht) Hf (near_list_conj HG (near_self y))).
    pose proof (@ifft_of_near G u HG (length y) _ _ y _ _ H1 eq_refl Hf2 eq_refl P) as N.
    apply near_within in N. destruct N as [N1 N2]. split; [exact N1|]. intros k Hk. eapply Rle_trans; [apply N2; exact Hk|]. right.
    unfold norm1, bfly, QQ, gamma, gam, blue_m. cbn [pow]. field. lra.
Qed.
Print Assumptions C65_ifft_bluestein_error.

(* ---------- binary floating point ---------- *)
Section Flx.
Variable prec : Z.
Hypothesis Hprec : (24 <= prec)%Z.
Local Notation u := (uu prec).
Lemma flit_half : @flit R (flx prec) (1 # 2) = / 2.
Proof.
  cbn [flit flx]. replace (Q2R (1 # 2)) with (bpow radix2 (-1)) by (unfold Q2R; cbn; lra). rewrite r24_bpow. cbn. lra.
Qed.
Lemma rstep_err m : (16 <= m)%nat -> is_pow2 m = true -> Cabs (expi (F := flx prec) (rtw_angle (flx prec) m) -c W (2 * m) 1) <= 2 * u.
Proof.
  intros Hm Hp. assert (HmR : 16 <= INR m). { replace 16 with (INR 16) by (cbn; lra). apply le_INR. exact Hm. }
  replace (2 * u) with (u + u) by ring. unfold W. apply (@expi_err prec Hprec). unfold rtw_angle. rewrite fofnat_pow2 by assumption.
  cbn [fneg fdiv fpi flx]. pose proof (uu_pos prec) as Hu. pose proof (uu_small Hprec) as Hs.
  assert (P1 : Rabs (- rnd prec PI - - PI) <= (1 + u - 1) * Rabs (- PI)).
  { replace (- rnd prec PI - - PI) with (- (rnd prec PI - PI)) by ring. rewrite !Rabs_Ropp. exact (one_chain Hprec PI). }
  pose proof (@chain prec _ _ _ _ (@div_chain _ _ _ (INR m) ltac:(lra) P1) (rnd_err Hprec (- rnd prec PI / INR m))) as P2.
  replace (- (2 * PI * INR 1 / INR (2 * m))) with (- PI / INR m) by (rewrite mult_INR; cbn [INR]; field; lra).
  eapply Rle_trans; [exact P2|].
  assert (A : Rabs (- PI / INR m) <= / 4).
  { pose proof PI_RGT_0. pose proof PI_4. unfold Rdiv. rewrite Rabs_mult, Rabs_Ropp, (Rabs_pos_eq PI), (Rabs_pos_eq (/ INR m)) by (try lra; left; apply Rinv_0_lt_compat; lra).
    apply Rmult_le_reg_r with (INR m); [lra|]. rewrite Rmult_assoc, Rinv_l, Rmult_1_r by lra. lra. }
  pose proof (Rabs_pos (- PI / INR m)). nra.
Qed.
Lemma flx_rtable c m : (16 <= m)%nat -> is_pow2 m = true -> 10.2 * INR m * u <= 1 -> rtable_within (flx prec) c m (dd prec (2 * m)).
Proof.
  intros Hm Hp Hb rp t E k Hk. pose proof (uu_pos prec). pose proof (uu_small Hprec). pose proof (gam_small Hprec). pose proof (gam_pos (flx_rounded Hprec)). pose proof (pos_INR m).
  eapply Rle_trans; [eapply (@C85_table_error (flx prec) u (2 * u) c m rp t k (flx_rounded Hprec)); [lra|apply rstep_err; assumption|exact E|exact Hk]|].
  change (gamma u) with (gam u).
  assert (S1 : (1 + 2 * u) * (1 + gam u) <= 1 + 5.1 * u) by nra.
  assert (G1 : 1 <= (1 + 2 * u) * (1 + gam u)) by nra.
  assert (P : (1 + 5.1 * u) ^ m <= 1 + 2 * (INR m * (5.1 * u))) by (apply pow_linear; nra).
  assert (P2 : ((1 + 2 * u) * (1 + gam u)) ^ k <= (1 + 5.1 * u) ^ m).
  { apply Rle_trans with (((1 + 2 * u) * (1 + gam u)) ^ m); [apply Rle_pow; [exact G1|lia]|]. apply pow_incr. lra. }
  unfold dd. rewrite mult_INR. cbn [INR]. lra.
Qed.
Lemma recomb_small a : 64 * u <= a -> a <= 1 / 60 -> 1 <= recomb u (5.1 * a) <= 1 + 5.2 * a.
Proof.
  intros H1 H2. pose proof (uu_pos prec) as Hu. pose proof (uu_small Hprec). pose proof (gam_small Hprec) as Hg. pose proof (gam_pos (flx_rounded Hprec)) as Hg0.
  unfold recomb. change (gamma u) with (gam u).
  assert (C3 : (1 + u) ^ 3 <= 1 + 3.01 * u) by (cbn [pow]; nra). assert (C1 : 1 <= (1 + u) ^ 3) by (apply pow_ge1; lra).
  assert (B1 : 1 <= (1 + gam u) * (1 + u) ^ 3) by nra.
  assert (B2 : (1 + gam u) * (1 + u) ^ 3 <= 1 + 6.03 * u).
  { apply Rle_trans with ((1 + 3.01 * u) * (1 + 3.01 * u)); [apply Rmult_le_compat; lra|nra]. }
  rewrite Rmult_assoc. set (b := (1 + gam u) * (1 + u) ^ 3) in *. split; [nra|].
  apply Rle_trans with ((1 + 5.1 * a) * (1 + 6.03 * u)); [apply Rmult_le_compat_l; lra|nra].
Qed.
End Flx.
Lemma half_pow2 n : (64 <= n)%nat -> is_pow2 n = true ->
  exists m, n = (2 * m)%nat /\ (n / 2 = m)%nat /\ (32 <= m)%nat /\ is_pow2 m = true /\ Nat.log2 n = S (Nat.log2 m).
Proof.
  intros Hn Hp. apply is_pow2_iff in Hp. destruct Hp as [[|L] E]; [cbn in E; lia|]. exists (2 ^ L)%nat. rewrite Nat.pow_succ_r' in E.
  split; [exact E|]. split; [rewrite E, Nat.mul_comm; apply Nat.div_mul; lia|]. split; [lia|]. split; [apply is_pow2_iff; exists L; reflexivity|].
  rewrite E. apply Nat.log2_double. pose proof (pow2_pos L). lia.
Qed.

(* Floating-point real FFT of a power-of-two length n >= 64: every bin is within 12 n log2(n) 2^-prec (|x_0| + ... + |x_(n-1)|) *)
Theorem C85_float_rfft_error : forall (prec : Z) (c : cfg) (v : rpath) uninit (x : list R) out, (24 <= prec)%Z -> c_precomp c = false \/ prec = 24%Z \/ prec = 53%Z ->
  (64 <= length x)%nat -> is_pow2 (length x) = true -> 12 * INR (length x) * INR (Nat.log2 (length x)) <= bpow radix2 prec -> length out = (length x / 2 + 1)%nat ->
  exists p z, trfft (F := flx prec) c (fft (F := flx prec) c) v uninit new_planner x out = Done (p, z, ROk) /\
    within (12 * INR (length x) * INR (Nat.log2 (length x)) * bpow radix2 (- prec) * rnorm x) z (half_spectrum x).
Proof.
  intros prec c v un x out Hprec Hc Hn Hp Hb Ho. destruct (half_pow2 Hn Hp) as (m & Em & E2 & Hm & Hpm & EL).
  set (n := length x) in *. rewrite EL in *. rewrite E2 in Ho. assert (Lp : length (pairs x) = m) by (unfold pairs; rewrite tab_length; exact E2).
  pose proof (uu_pos prec) as Hu. fold (uu prec).
  assert (HnR : INR n = 2 * INR m) by (rewrite Em, mult_INR; cbn [INR]; ring).
  pose proof (nR Hm) as HmR. pose proof (log5 Hm) as HL. rewrite S_INR in *. set (L := INR (Nat.log2 m)) in *.
  assert (HB : 12 * INR n * (L + 1) * uu prec <= 1).
  { unfold uu. rewrite bpow_opp. pose proof (bpow_gt_0 radix2 prec). apply Rmult_le_reg_r with (bpow radix2 prec); [assumption|]. rewrite Rmult_assoc, Rinv_l by lra. lra. }
  assert (Hbm : 11 * INR m * L <= bpow radix2 prec) by nra.
  destruct (@C65_float_fft_error prec c (pairs x) Hprec Hc) as (p & y & E & W); rewrite ?Lp; try assumption. rewrite Lp in W. fold L in W. fold (uu prec) in W.
  set (a := INR n * uu prec). assert (Ha : 64 * uu prec <= a) by (unfold a; nra).
  assert (Ha2 : a <= 1 / 60). { unfold a. assert (72 * (INR n * uu prec) <= 1); [|lra]. assert (6 * (INR n * uu prec) <= (L + 1) * (INR n * uu prec)) by (apply Rmult_le_compat_r; nra). lra. }
  pose proof (@recomb_small prec Hprec a Ha Ha2) as [R1 R2].
  assert (Ed : dd prec (2 * m) = 5.1 * a) by (rewrite <- Em; unfold dd, a; ring).
  unfold trfft, trfft_with_scratch.
  destruct (@C85_rfft_any_provider (flx prec) (uu prec) (dd prec (2 * m)) c v _ (fft (F := flx prec) c) new_planner p (rnew (F := flx prec) c) x y out (tab (length x / 2) un) (1 + 5.5 * (a * L)) (rnorm x)) as (rp' & z & scr' & E3 & N3);
    try assumption.
  - apply flx_rounded. exact Hprec.
  - rewrite Ed. lra.
  - apply flit_half.
  - fold n. rewrite E2. apply flx_rtable; try assumption; [lia|]. unfold a in Ha2. nra.
  - constructor.
  - fold n. lia.
  - exists m. exact Em.
  - fold n. rewrite E2. exact Ho.
  - rewrite tab_length. lia.
  - nra.
  - apply Rle_refl.
  - destruct W as [W1 W2]. split; [exact W1|]. intros k Hk. eapply Rle_trans; [apply W2; exact Hk|].
    pose proof (norm1_pairs x). replace (11 * INR m * L * uu prec) with (1 + 5.5 * (a * L) - 1) by (unfold a; rewrite HnR; lra). apply Rmult_le_compat_l; [nra|assumption].
  - exists p, z. unfold n in E3. rewrite E3. split; [reflexivity|]. destruct N3 as [L3 N3]. split; [exact L3|]. intros k Hk. eapply Rle_trans; [apply N3; exact Hk|].
    pose proof (rnorm_pos x). rewrite Ed. set (r := recomb (uu prec) (5.1 * a)) in *.
    replace (12 * INR n * (L + 1) * uu prec) with (12 * (a * (L + 1))) in * by (unfold a; ring).
    replace (12 * (a * (L + 1)) * rnorm x) with (6 * (a * (L + 1)) * (2 * rnorm x)) by ring. apply Rmult_le_compat_r; [lra|].
    assert (A0 : 0 <= a) by (unfold a; nra). assert (AL : 5 * a <= a * L) by nra. assert (HW : 12 * (a * L) <= 1) by nra.
    set (w := a * L) in *. replace (a * (L + 1)) with (w + a) by (unfold w; ring).
    apply Rle_trans with ((1 + 5.5 * w) * (1 + 5.2 * a) - 1); [|nra]. apply Rplus_le_compat_r. apply Rmult_le_compat_l; nra.
Qed.
Print Assumptions C85_float_rfft_error.

(* and back: every sample returns within 50 n log2(n) 2^-prec (|x_0| + ... + |x_(n-1)|) *)
Theorem C85_float_roundtrip_error : forall (prec : Z) (c : cfg) (v v' : rpath) un un' (x : list R) out out', (24 <= prec)%Z -> c_precomp c = false \/ prec = 24%Z \/ prec = 53%Z ->
  (64 <= length x)%nat -> is_pow2 (length x) = true -> 50 * INR (length x) * INR (Nat.log2 (length x)) <= bpow radix2 prec ->
  length out = (length x / 2 + 1)%nat -> length out' = length x ->
  exists p y p' z, trfft (F := flx prec) c (fft (F := flx prec) c) v un new_planner x out = Done (p, y, ROk) /\
    tirfft (F := flx prec) c (ifft (F := flx prec) c) v' un' p y out' = Done (p', z, ROk) /\
    rwithin (50 * INR (length x) * INR (Nat.log2 (length x)) * bpow radix2 (- prec) * rnorm x) z x.
Proof.
  intros prec c v v' un un' x out out' Hprec Hc Hn Hp Hb Ho Ho'. destruct (half_pow2 Hn Hp) as (m & Em & E2 & Hm & Hpm & EL).
  set (n := length x) in *. rewrite EL in *. 
  pose proof (uu_pos prec) as Hu. pose proof (uu_small Hprec) as Hus. fold (uu prec).
  assert (HnR : INR n = 2 * INR m) by (rewrite Em, mult_INR; cbn [INR]; ring).
  pose proof (nR Hm) as HmR. pose proof (log5 Hm) as HL. rewrite S_INR in *. set (L := INR (Nat.log2 m)) in *.
  assert (HB : 50 * INR n * (L + 1) * uu prec <= 1).
  { unfold uu. rewrite bpow_opp. pose proof (bpow_gt_0 radix2 prec). apply Rmult_le_reg_r with (bpow radix2 prec); [assumption|]. rewrite Rmult_assoc, Rinv_l by lra. lra. }
  assert (Hbm : 11 * INR m * L <= bpow radix2 prec) by nra.
  set (a := INR n * uu prec). assert (Ha : 64 * uu prec <= a) by (unfold a; nra).
  assert (A0 : 0 <= a) by (unfold a; nra).
  replace (50 * INR n * (L + 1) * uu prec) with (50 * (a * (L + 1))) in * by (unfold a; ring).
  assert (Ha2 : a <= 1 / 60) by nra.
  pose proof (@recomb_small prec Hprec a Ha Ha2) as [R1 R2].
  assert (Ed : dd prec (2 * m) = 5.1 * a) by (rewrite <- Em; unfold dd, a; ring).
  destruct (@roundtrip_near (flx prec) (uu prec) (dd prec m) (dd prec (2 * m)) c v v' un un' x out out') as (p & y & p' & z & E & E' & N); fold n; rewrite ?E2; try assumption.
  - apply flx_rounded. exact Hprec.
  - unfold dd. nra.
  - rewrite Ed. lra.
  - apply flit_half.
  - apply flx_rtable; try assumption; [lia|]. unfold a in Ha2. nra.
  - intros H. lia.
  - apply flx_tw; assumption.
  - apply fofnat_pow2; assumption.
  - exists m. exact Em.
  - rewrite Ho. rewrite E2. reflexivity.
  - exists p, y, p', z. split; [exact E|]. split; [exact E'|]. fold n in N. rewrite E2 in N. destruct N as [N1 N2]. split; [exact N1|]. intros k Hk. eapply Rle_trans; [apply N2; exact Hk|].
    pose proof (rnorm_pos x) as Hr. rewrite Ed. set (r := recomb (uu prec) (5.1 * a)) in *.
    assert (EM : INR (2 * Nat.log2 m) = 2 * L) by (rewrite mult_INR; cbn [INR]; unfold L; ring).
    pose proof (@flx_bfly prec Hprec m Hm Hbm (2 * Nat.log2 m)%nat) as Q. rewrite EM in Q.
    replace (11 * INR m * (2 * L) * uu prec) with (11 * (a * L)) in Q by (unfold a; rewrite HnR; lra).
    replace (10.8 * INR m * (2 * L) * uu prec) with (10.8 * (a * L)) in Q by (unfold a; rewrite HnR; lra).
    assert (AL : 5 * a <= a * L) by nra. assert (HW : 50 * (a * L) <= 1) by nra. specialize (Q ltac:(lra)).
    replace (a * (L + 1)) with (a * L + a) in * by ring. set (w := a * L) in *.
    set (B := bfly (uu prec) (dd prec m) ^ (2 * Nat.log2 m)) in *.
    assert (S2 : (1 + uu prec) ^ 2 <= 1 + 0.04 * a) by (cbn [pow]; nra). assert (S1 : 1 <= (1 + uu prec) ^ 2) by (apply pow_ge1; lra).
    assert (R3 : r ^ 2 <= 1 + 10.9 * a) by (cbn [pow]; nra). assert (R4 : 1 <= r ^ 2) by (apply pow_ge1; lra).
    assert (T : r ^ 2 * (1 + uu prec) ^ 2 <= 1 + 11 * a).
    { apply Rle_trans with ((1 + 10.9 * a) * (1 + 0.04 * a)); [apply Rmult_le_compat; lra|nra]. }
    assert (T1 : 1 <= r ^ 2 * (1 + uu prec) ^ 2) by nra. rewrite (Rmult_assoc B). set (t := r ^ 2 * (1 + uu prec) ^ 2) in *.
    assert (K : B * t - 1 <= 12 * (w + a)).
    { apply Rle_trans with ((1 + 10.8 * w) * (1 + 11 * a) - 1); [|nra]. apply Rplus_le_compat_r. apply Rmult_le_compat; try lra.
      unfold B. apply pow_le. unfold bfly, gamma, dd. assert (0 <= 5.1 * INR m * uu prec) by nra. apply Rmult_le_pos; [apply Rmult_le_pos; nra|lra]. }
    assert (F : 4 * (INR m + 1) / INR m <= 50 / 12).
    { apply Rmult_le_reg_r with (INR m); [lra|]. unfold Rdiv. rewrite Rmult_assoc, Rinv_l by lra. lra. }
    assert (F0 : 0 <= 4 * (INR m + 1) / INR m) by (unfold Rdiv; apply Rmult_le_pos; [lra|left; apply Rinv_0_lt_compat; lra]).
    apply Rle_trans with (12 * (w + a) * (50 / 12 * rnorm x)); [|right; field].
    apply Rle_trans with (12 * (w + a) * (4 * (INR m + 1) / INR m * rnorm x)).
    + apply Rmult_le_compat_r; [apply Rmult_le_pos; assumption|exact K].
    + apply Rmult_le_compat_l; [lra|]. apply Rmult_le_compat_r; assumption.
Qed.
Print Assumptions C85_float_roundtrip_error.

(* f32, 1024 samples: the hypotheses hold and every bin is within 0.8 % of |x_0| + ... *)
Example C85_f32_1024 : forall v un (x : list R) out, length x = 1024%nat -> length out = 513%nat ->
  exists p z, trfft (F := flx 24) {| c_std := true; c_parallel := false; c_fma := true; c_precomp := false; c_kind := F32; c_lanes := 8 |} (fft (F := flx 24) {| c_std := true; c_parallel := false; c_fma := true; c_precomp := false; c_kind := F32; c_lanes := 8 |})
    v un new_planner x out = Done (p, z, ROk) /\ within (8 / 1000 * rnorm x) z (half_spectrum x).
Proof.
  intros v un x out Hx Ho. assert (HL : Nat.log2 (length x) = 10%nat) by (rewrite Hx; reflexivity).
  assert (E1 : INR (length x) = 1024). { rewrite Hx, INR_IZR_INZ. reflexivity. }
  assert (E2 : INR (Nat.log2 (length x)) = 10). { rewrite HL, INR_IZR_INZ. reflexivity. }
  assert (EB : bpow radix2 24 = 16777216) by reflexivity.
  match goal with |- exists p z, trfft ?c _ _ _ _ _ _ = _ /\ _ => destruct (@C85_float_rfft_error 24 c v un x out ltac:(lia) (or_introl eq_refl)) as (p & z & E & N) end.
  - rewrite Hx. lia.
  - rewrite Hx. reflexivity.
  - rewrite E1, E2, EB. lra.
  - rewrite Ho, Hx. reflexivity.
  - exists p, z. split; [exact E|]. destruct N as [N1 N2]. split; [exact N1|]. intros k Hk. eapply Rle_trans; [apply N2; exact Hk|].
    apply Rmult_le_compat_r; [apply rnorm_pos|]. rewrite E1, E2, bpow_opp, EB. lra.
Qed.

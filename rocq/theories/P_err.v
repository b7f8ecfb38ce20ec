(* Property C65: rounding errors of the FFT and its inverse. *)
From Coq Require Import Reals Lra Lia.
From Flocq Require Import Core.
From Verif Require Import L_err L_flx P_fft.
Set Implicit Arguments.
Open Scope R_scope.

(* ---------- specification ---------- *)
(* "every operation is off by a relative error of at most u": `rounded` of L_err.v.
   Error factor of a complex product, and of one butterfly whose twiddle is accurate to d *)
Definition gamma (u : R) : R := 3 / 2 * (2 * u + u * u).
Definition bfly (u d : R) : R := (1 + d) * (1 + gamma u) * (1 + u).
(* |x_0| + ... + |x_(n-1)| *)
Definition norm1 (x : list C) : R := rsum (length x) (fun j => Cabs (at_ x j)).
(* what a transform of size n reads - the literals of the small kernels up to 16, the twiddle table
   above, the chirp - is accurate to d *)
Definition constants_within (G : Float R) (n : nat) (d : R) : Prop := (n <= 16)%nat ->
  Rabs (@fk707 R G - cos (PI / 4)) <= d / 2 /\ Rabs (@fk924 R G - cos (PI / 8)) <= d / 2 /\ Rabs (@fk383 R G - sin (PI / 8)) <= d / 2.
Definition twiddles_within (G : Float R) (c : cfg) (n : nat) (d : R) : Prop :=
  (16 < n)%nat -> forall k, (k < n / 2)%nat -> Cabs (at_ (snd (get_twiddles (F := G) c (new_planner (T := R)) n)) k -c W n k) <= d.
Definition chirp_within (G : Float R) (n : nat) (e : R) : Prop := forall i, (i < n)%nat ->
  Cabs (expi (F := G) (blue_angle (F := G) n i) -c cis (PI * (INR i * INR i) / INR n)) <= e /\
  Cabs (expi (F := G) (@fneg R G (blue_angle (F := G) n i)) -c cis (- (PI * (INR i * INR i) / INR n))) <= e.
(* distance of two signals, largest component *)
Definition within (e : R) (y z : list C) : Prop := length y = length z /\ forall k, (k < length z)%nat -> Cabs (at_ y k -c at_ z k) <= e.

(* ---------- proofs ---------- *)
Section Lem.
Variables (G : Float R) (u d : R) (c : cfg).
Hypothesis (HG : rounded G u) (Hd : 0 <= d).
Lemma kern n : constants_within G n d -> (n <= 16)%nat -> kern_ok G d.
Proof. intros HK Hn. destruct (HK Hn) as (H1 & H2 & H3). split; assumption. Qed.
Lemma get_tw n : snd (get_twiddles (F := G) c (new_planner (T := R)) n) = twf (F := G) c n.
Proof. unfold get_twiddles, twf, new_planner. destruct (lookup_pre c n); reflexivity. Qed.
Lemma tws n : twiddles_within G c n d -> (16 < n)%nat -> tw_ok G c d n.
Proof. intros H Hn k Hk. specialize (H Hn k Hk). rewrite get_tw in H. exact H. Qed.
Lemma near_self x : near_list 1 (fun i => Cabs (at_ x i)) x x.
Proof. split; [reflexivity|]. intros i Hi. apply near_refl. apply Rle_refl. Qed.
Lemma near_within q S x y : near_list q (fun _ => S) x y -> within ((q - 1) * S) y x.
Proof. intros [Hl H]. split; [exact Hl|]. intros k Hk. apply H. exact Hk. Qed.
Lemma fft_err x : constants_within G (length x) d -> is_pow2 (length x) = true -> twiddles_within G c (length x) d ->
  exists p y, fft (F := G) c (new_planner (T := R)) x = Done (p, y, ROk) /\
    near_list (1 * bfly u d ^ Nat.log2 (length x)) (fun _ => norm1 x) (DFT x) y /\ Inv (F := G) c p /\ ready c p (length x).
Proof.
  intros HK Hp Ht. assert (Hn : (0 < length x)%nat). { apply is_pow2_iff in Hp. destruct Hp as [L ->]. apply pow2_pos. }
  destruct (@fft_fresh_ok R G c x Hn (or_intror Hp)) as [p E]. exists p, (fft_fresh c x). split; [exact E|]. split.
  - unfold fft_fresh. rewrite Hp. exact (@pow2fft_near G u HG c d Hd 1 _ x x (kern HK) Hp (tws Ht) (near_self x)).
  - assert (ER : run_calls (F := G) c (new_planner (T := R)) [CFft x] = Done p) by (cbn [run_calls run_call]; unfold forget; rewrite E; reflexivity).
    split; [eapply (@run_calls_Inv R G c); [apply Inv_new|exact ER]|].
    eapply (@history_ready R G c); [exact ER|]. intros k [<-|[]]. apply Nat.le_refl.
Qed.
Lemma ifft_err p q S y yh : Inv (F := G) c p -> ready c p (length y) -> constants_within G (length y) d -> is_pow2 (length y) = true -> twiddles_within G c (length y) d ->
  @fofnat R G (length y) = INR (length y) -> near_list q S y yh ->
  exists p' z, ifft (F := G) c p yh = Done (p', z, ROk) /\
    near_list (q * bfly u d ^ Nat.log2 (length y) * ((1 + u) * (1 + u))) (fun _ => / INR (length y) * rsum (length y) S) (IDFT y) z.
Proof.
  intros HI Hr HK Hp Ht Hf Hy. assert (Hn : (0 < length y)%nat). { apply is_pow2_iff in Hp. destruct Hp as [L ->]. apply pow2_pos. }
  assert (Hl : length yh = length y) by apply Hy.
  destruct (@ifft_cases R G c p yh HI) as [[H _]|[(_ & H & _)|(_ & _ & p' & z & E & _ & _ & Hz)]]; rewrite Hl in *.
  - lia.
  - exfalso. revert H. unfold supported. rewrite Hp, orb_true_r. discriminate.
  - exists p', z. split; [exact E|]. rewrite (Hz Hr). exact (@ifft_near G u HG c d Hd q S y yh (kern HK) Hp (tws Ht) Hf Hy).
Qed.
End Lem.

(* ---------- theorems ---------- *)
(* Forward transform, power-of-two length: each output is within ((1+d)(1+gamma)(1+u))^(log2 n) - 1
   times |x_0| + ... + |x_(n-1)| of the exact DFT, whatever the (relative) rounding of the number type. *)
Theorem C65_fft_error : forall (G : Float R) (u d : R) (c : cfg) (x : list C),
  rounded G u -> 0 <= d -> constants_within G (length x) d -> is_pow2 (length x) = true -> twiddles_within G c (length x) d ->
  exists p y, fft (F := G) c (new_planner (T := R)) x = Done (p, y, ROk) /\
    within ((bfly u d ^ Nat.log2 (length x) - 1) * norm1 x) y (DFT x).
Proof.
  intros G u d c x HG Hd HK Hp Ht. destruct (@fft_err G u d c HG Hd x HK Hp Ht) as (p & y & E & N & _).
  exists p, y. split; [exact E|]. apply near_within in N. rewrite Rmult_1_l in N. exact N.
Qed.
Print Assumptions C65_fft_error.

(* Inverse transform *)
Theorem C65_ifft_error : forall (G : Float R) (u d : R) (c : cfg) (y : list C),
  rounded G u -> 0 <= d -> constants_within G (length y) d -> is_pow2 (length y) = true -> twiddles_within G c (length y) d ->
  @fofnat R G (length y) = INR (length y) ->
  exists p z, ifft (F := G) c (new_planner (T := R)) y = Done (p, z, ROk) /\
    within ((bfly u d ^ Nat.log2 (length y) * (1 + u) ^ 2 - 1) * (norm1 y / INR (length y))) z (IDFT y).
Proof.
  intros G u d c y HG Hd HK Hp Ht Hf.
  destruct (@ifft_err G u d c HG Hd new_planner 1 _ y y (@Inv_new R G c) (@ready_new R c _) HK Hp Ht Hf (near_self y)) as (p & z & E & N).
  exists p, z. split; [exact E|]. apply near_within in N. destruct N as [N1 N2]. split; [exact N1|]. intros k Hk.
  eapply Rle_trans; [apply N2; exact Hk|]. right. unfold norm1. cbn [pow]. unfold Rdiv. ring.
Qed.
Print Assumptions C65_ifft_error.

(* Forward then inverse: every sample comes back within the bound *)
Theorem C65_roundtrip_error : forall (G : Float R) (u d : R) (c : cfg) (x : list C),
  rounded G u -> 0 <= d -> constants_within G (length x) d -> is_pow2 (length x) = true -> twiddles_within G c (length x) d ->
  @fofnat R G (length x) = INR (length x) ->
  exists p y p' z, fft (F := G) c (new_planner (T := R)) x = Done (p, y, ROk) /\ ifft (F := G) c p y = Done (p', z, ROk) /\
    within ((bfly u d ^ (2 * Nat.log2 (length x)) * (1 + u) ^ 2 - 1) * norm1 x) z x.
Proof.
  intros G u d c x HG Hd HK Hp Ht Hf. assert (Hn : (0 < length x)%nat). { apply is_pow2_iff in Hp. destruct Hp as [L ->]. apply pow2_pos. }
  destruct (@fft_err G u d c HG Hd x HK Hp Ht) as (p & y & E & N & HI & Hr).
  pose proof (fun q S => @ifft_err G u d c HG Hd p q S (DFT x) y HI) as P. rewrite DFT_length in P.
  destruct (P _ _ Hr HK Hp Ht Hf N) as (p' & z & E2 & N2). exists p, y, p', z. split; [exact E|]. split; [exact E2|].
  rewrite IDFT_DFT in N2. apply near_within in N2. destruct N2 as [N1 N2]. split; [exact N1|]. intros k Hk.
  eapply Rle_trans; [apply N2; exact Hk|]. right. rewrite rsum_const', Rmult_1_l.
  replace (2 * Nat.log2 (length x))%nat with (Nat.log2 (length x) + Nat.log2 (length x))%nat by lia. rewrite pow_add. cbn [pow].
  rewrite Rmult_1_r. rewrite <- (Rmult_assoc (/ INR (length x))), Rinv_l, Rmult_1_l; [reflexivity|]. apply not_0_INR. lia.
Qed.
Print Assumptions C65_roundtrip_error.

(* The running product that fills the twiddle table: entry k is off by at most ((1+e)(1+gamma))^k - 1
   if the first step is off by e. *)
Theorem C65_twiddle_error : forall (G : Float R) (u e : R) (c : cfg) n k,
  rounded G u -> 0 <= e -> c_precomp c = false ->
  Cabs (expi (F := G) (@fdiv R G (@fmul R G (@fneg R G (@flit R G 2%Q)) (@fpi R G)) (@fofnat R G n)) -c W n 1) <= e -> (k < n / 2)%nat ->
  Cabs (at_ (snd (get_twiddles (F := G) c (new_planner (T := R)) n)) k -c W n k) <= ((1 + e) * (1 + gamma u)) ^ k - 1.
Proof.
  intros G u e c n k HG He Hc Hs Hk. rewrite get_tw. unfold twf, lookup_pre. rewrite Hc. cbn [andb].
  exact (@tw_table_near G u HG n e k He Hs Hk).
Qed.
Print Assumptions C65_twiddle_error.

(* Any other length: the chirp transform through a power of two m = next_pow2 (2n - 1) *)
Theorem C65_bluestein_error : forall (G : Float R) (u d e : R) (c : cfg) (x : list C) (m : nat),
  rounded G u -> 0 <= d -> c_std c = true -> is_pow2 (length x) = false -> (0 < length x)%nat ->
  m = next_pow2 (2 * length x - 1) -> constants_within G m d -> twiddles_within G c m d -> 0 <= e -> chirp_within G (length x) e -> @fofnat R G m = INR m ->
  exists p y, fft (F := G) c (new_planner (T := R)) x = Done (p, y, ROk) /\
    within ((((1 + e) * (1 + gamma u)) ^ 3 * (bfly u d ^ Nat.log2 m) ^ 3 * (1 + u) ^ 2 - 1) * ((2 * INR (length x) - 1) * norm1 x)) y (DFT x).
Proof.
  intros G u d e c x m HG Hd Hs Hp Hn -> HK Ht He Hc Hf.
  destruct (@fft_fresh_ok R G c x Hn (or_introl Hs)) as [p E]. exists p, (fft_fresh c x). split; [exact E|].
  unfold fft_fresh. rewrite Hp. 
  pose proof (@bluefft_near G u HG c d Hd 1 _ x x e (kern HK) Hn He Hc (tws Ht) Hf (near_self x)) as N.
  apply near_within in N. destruct N as [N1 N2]. split; [exact N1|]. intros k Hk.
  eapply Rle_trans; [apply N2; exact Hk|]. right. unfold norm1, bfly, QQ, gamma, gam, blue_m. cbn [pow]. ring.
Qed.
Print Assumptions C65_bluestein_error.

(* ---------- binary floating point ---------- *)
(* prec-bit round-to-nearest-even arithmetic (L_flx.v): 24 for f32, 53 for f64. *)
Section FlxLem.
Variable prec : Z.
Hypothesis Hprec : (24 <= prec)%Z.
Variables (c : cfg) (n : nat).
Hypothesis (Hc : c_precomp c = false \/ prec = 24%Z \/ prec = 53%Z) (Hn : (32 <= n)%nat) (Hp : is_pow2 n = true).
Hypothesis Hb : 11 * INR n * INR (Nat.log2 n) <= bpow radix2 prec.
Local Notation u := (uu prec).
Lemma Hb' : 11 * INR n * INR (Nat.log2 n) * u <= 1.
Proof.
  unfold uu. rewrite bpow_opp. pose proof (bpow_gt_0 radix2 prec).
  apply Rmult_le_reg_r with (bpow radix2 prec); [assumption|]. rewrite Rmult_assoc, Rinv_l by lra. lra.
Qed.
Lemma nR : 32 <= INR n.
Proof. replace 32 with (INR 32) by (cbn; lra). apply le_INR. exact Hn. Qed.
Lemma log5 : 5 <= INR (Nat.log2 n).
Proof. replace 5 with (INR 5) by (cbn; lra). apply le_INR. change 5%nat with (Nat.log2 32). apply Nat.log2_le_mono. exact Hn. Qed.
Lemma flx_tw : twiddles_within (flx prec) c n (dd prec n).
Proof.
  intros _ k Hk. rewrite get_tw. apply (@twid_err prec Hprec c n Hc Hn Hp); [|exact Hk].
  pose proof Hb'. pose proof nR. pose proof log5. pose proof (uu_pos prec). nra.
Qed.
Lemma flx_bfly m : 11 * INR n * INR m * u <= 1 -> bfly u (dd prec n) ^ m <= 1 + 10.8 * INR n * INR m * u.
Proof.
  intros Hs. pose proof nR. pose proof log5. pose proof (uu_pos prec) as Hu. pose proof Hb' as HB. pose proof (pos_INR m).
  assert (A : bfly u (dd prec n) <= 1 + 5.4 * INR n * u) by (apply (@QQ_small prec Hprec n Hn);  nra).
  assert (B : 1 <= bfly u (dd prec n)). { apply (@QQ_ge1 (flx prec) (uu prec) (flx_rounded Hprec)). unfold dd. nra. }
  apply Rle_trans with ((1 + 5.4 * INR n * u) ^ m); [apply pow_incr; lra|].
  assert (0 <= INR n * u) by nra. assert (0 <= INR m * (INR n * u)) by nra.
  eapply Rle_trans; [apply pow_linear; nra|]. nra.
Qed.
End FlxLem.

(* Floating-point FFT of a power-of-two length n >= 32 with the running product or the printed tables: the error of every
   output is at most 11 n log2(n) 2^-prec (|x_0| + ... + |x_(n-1)|). *)
Theorem C65_float_fft_error : forall (prec : Z) (c : cfg) (x : list C), (24 <= prec)%Z -> c_precomp c = false \/ prec = 24%Z \/ prec = 53%Z ->
  (32 <= length x)%nat -> is_pow2 (length x) = true -> 11 * INR (length x) * INR (Nat.log2 (length x)) <= bpow radix2 prec ->
  exists p y, fft (F := flx prec) c (new_planner (T := R)) x = Done (p, y, ROk) /\
    within (11 * INR (length x) * INR (Nat.log2 (length x)) * bpow radix2 (- prec) * norm1 x) y (DFT x).
Proof.
  intros prec c x Hprec Hc Hn Hp Hb. set (n := length x) in *.
  assert (Hd : 0 <= dd prec n). { unfold dd. pose proof (pos_INR n). pose proof (uu_pos prec). nra. }
  destruct (@C65_fft_error (flx prec) (uu prec) (dd prec n) c x (flx_rounded Hprec) Hd) as (p & y & E & N).
  - intros H. fold n in H. lia.
  - exact Hp.
  - apply flx_tw; assumption.
  - exists p, y. split; [exact E|]. destruct N as [N1 N2]. split; [exact N1|]. intros k Hk. eapply Rle_trans; [apply N2; exact Hk|].
    assert (P : 0 <= norm1 x) by (unfold norm1; apply rsum_pos; intros; apply Cabs_nonneg).
    apply Rmult_le_compat_r; [exact P|]. fold n. pose proof (@flx_bfly prec Hprec n Hn Hb (Nat.log2 n) (@Hb' prec n Hb)) as Q.
    pose proof (pos_INR n). pose proof (pos_INR (Nat.log2 n)). pose proof (uu_pos prec). fold (uu prec).
    assert (0 <= INR n * INR (Nat.log2 n)) by nra. nra.
Qed.
Print Assumptions C65_float_fft_error.

(* and there and back *)
Theorem C65_float_roundtrip_error : forall (prec : Z) (c : cfg) (x : list C), (24 <= prec)%Z -> c_precomp c = false \/ prec = 24%Z \/ prec = 53%Z ->
  (32 <= length x)%nat -> is_pow2 (length x) = true -> 22 * INR (length x) * INR (Nat.log2 (length x)) <= bpow radix2 prec ->
  exists p y p' z, fft (F := flx prec) c (new_planner (T := R)) x = Done (p, y, ROk) /\ ifft (F := flx prec) c p y = Done (p', z, ROk) /\
    within (22 * INR (length x) * INR (Nat.log2 (length x)) * bpow radix2 (- prec) * norm1 x) z x.
Proof.
  intros prec c x Hprec Hc Hn Hp Hb22. set (n := length x) in *.
  pose proof (nR Hn) as HnR. pose proof (log5 Hn) as HL.
  assert (Hb : 11 * INR n * INR (Nat.log2 n) <= bpow radix2 prec) by nra.
  assert (Hd : 0 <= dd prec n). { unfold dd. pose proof (uu_pos prec). nra. }
  destruct (@C65_roundtrip_error (flx prec) (uu prec) (dd prec n) c x (flx_rounded Hprec) Hd) as (p & y & p' & z & E & E2 & N).
  - intros H. fold n in H. lia.
  - exact Hp.
  - apply flx_tw; assumption.
  - apply fofnat_pow2; assumption.
  - exists p, y, p', z. split; [exact E|]. split; [exact E2|]. destruct N as [N1 N2]. split; [exact N1|]. intros k Hk. eapply Rle_trans; [apply N2; exact Hk|].
    assert (P : 0 <= norm1 x) by (unfold norm1; apply rsum_pos; intros; apply Cabs_nonneg).
    apply Rmult_le_compat_r; [exact P|]. fold n. pose proof (uu_pos prec) as Hu. fold (uu prec).
    assert (HB : 22 * INR n * INR (Nat.log2 n) * uu prec <= 1).
    { unfold uu. rewrite bpow_opp. pose proof (bpow_gt_0 radix2 prec).
      apply Rmult_le_reg_r with (bpow radix2 prec); [assumption|]. rewrite Rmult_assoc, Rinv_l by lra. lra. }
    assert (EM : INR (2 * Nat.log2 n) = 2 * INR (Nat.log2 n)) by (rewrite mult_INR; cbn [INR]; ring).
    pose proof (@flx_bfly prec Hprec n Hn Hb (2 * Nat.log2 n)%nat) as Q. rewrite EM in Q. specialize (Q ltac:(lra)).
    set (B := bfly (uu prec) (dd prec n) ^ (2 * Nat.log2 n)) in *. set (v := uu prec) in *.
    assert (V : 160 <= INR n * INR (Nat.log2 n)) by nra. set (w := INR n * INR (Nat.log2 n)) in *.
    replace (10.8 * INR n * (2 * INR (Nat.log2 n)) * v) with (21.6 * w * v) in Q by (unfold w; lra).
    replace (22 * INR n * INR (Nat.log2 n) * v) with (22 * w * v) in * by (unfold w; ring).
    assert (S2 : (1 + v) ^ 2 <= 1 + 2.1 * v) by (cbn [pow]; nra).
    assert (B1 : 0 <= 1 + v) by lra.
    apply Rle_trans with ((1 + 21.6 * w * v) * (1 + 2.1 * v) - 1).
    + apply Rplus_le_compat_r. apply Rle_trans with ((1 + 21.6 * w * v) * (1 + v) ^ 2); [apply Rmult_le_compat_r; [apply pow_le; exact B1|exact Q]|].
      apply Rmult_le_compat_l; [nra|exact S2].
    + nra.
Qed.
Print Assumptions C65_float_roundtrip_error.

(* f32, 1024 points: the hypotheses hold and the error stays below 0.7 % of |x_0| + ... *)
Example C65_f32_1024 : forall (x : list C), length x = 1024%nat ->
  exists p y, fft (F := flx 24) {| c_std := true; c_parallel := false; c_fma := true; c_precomp := false; c_kind := F32; c_lanes := 8 |} (new_planner (T := R)) x = Done (p, y, ROk) /\
    within (7 / 1000 * norm1 x) y (DFT x).
Proof.
  intros x Hx. assert (HL : Nat.log2 (length x) = 10%nat) by (rewrite Hx; reflexivity).
  assert (E1 : INR (length x) = 1024). { rewrite Hx, INR_IZR_INZ. reflexivity. }
  assert (E2 : INR (Nat.log2 (length x)) = 10). { rewrite HL, INR_IZR_INZ. reflexivity. }
  assert (EB : bpow radix2 24 = 16777216) by reflexivity.
  destruct (@C65_float_fft_error 24 {| c_std := true; c_parallel := false; c_fma := true; c_precomp := false; c_kind := F32; c_lanes := 8 |} x ltac:(lia) (or_introl eq_refl)) as (p & y & E & N).
  - rewrite Hx. lia.
  - rewrite Hx. reflexivity.
  - rewrite E1, E2, EB. lra.
  - exists p, y. split; [exact E|]. destruct N as [N1 N2]. split; [exact N1|]. intros k Hk. eapply Rle_trans; [apply N2; exact Hk|].
    assert (P : 0 <= norm1 x) by (unfold norm1; apply rsum_pos; intros; apply Cabs_nonneg).
    apply Rmult_le_compat_r; [exact P|]. rewrite E1, E2, bpow_opp, EB. lra.
Qed.

(* the numbers behind the bound for other lengths *)
Lemma blue_num (prec : Z) (n m : nat) : (24 <= prec)%Z -> (32 <= m)%nat -> 17 <= INR n -> 2 * INR n - 1 <= INR m ->
  100 * INR m * INR (Nat.log2 m) <= bpow radix2 prec ->
  ((1 + 21 * INR n * uu prec) * (1 + gamma (uu prec))) ^ 3 * (bfly (uu prec) (dd prec m) ^ Nat.log2 m) ^ 3 * (1 + uu prec) ^ 2 - 1
    <= 52 * INR m * INR (Nat.log2 m) * uu prec.
Proof.
  intros Hprec Hm HnR Hnm Hb100. pose proof (nR Hm) as HmR. pose proof (log5 Hm) as HL. pose proof (uu_pos prec) as Hu.
  assert (Hb : 11 * INR m * INR (Nat.log2 m) <= bpow radix2 prec) by nra.
  assert (Hd : 0 <= dd prec m). { unfold dd. nra. }
  assert (HB : 100 * INR m * INR (Nat.log2 m) * uu prec <= 1).
  { unfold uu. rewrite bpow_opp. pose proof (bpow_gt_0 radix2 prec).
    apply Rmult_le_reg_r with (bpow radix2 prec); [assumption|]. rewrite Rmult_assoc, Rinv_l by lra. lra. }
  assert (EM : INR (Nat.log2 m * 3) = 3 * INR (Nat.log2 m)) by (rewrite mult_INR; cbn [INR]; ring).
  pose proof (@flx_bfly prec Hprec m Hm Hb (Nat.log2 m * 3)%nat) as Q. rewrite EM in Q. specialize (Q ltac:(nra)). rewrite <- pow_mult.
  set (B := bfly (uu prec) (dd prec m) ^ (Nat.log2 m * 3)) in *.
  assert (B1 : 0 <= B). { unfold B. apply pow_le. unfold bfly, gamma. unfold dd in Hd |- *. assert (0 <= 3 / 2 * (2 * uu prec + uu prec * uu prec)) by nra. apply Rmult_le_pos; [apply Rmult_le_pos; lra|lra]. }
  assert (G1 : 1 + gamma (uu prec) <= 1 + 3.01 * uu prec) by (pose proof (gam_small Hprec) as GS; unfold gam in GS; unfold gamma; lra).
  assert (G0 : 0 <= gamma (uu prec)) by (unfold gamma; nra).
  set (v := uu prec) in *.
  assert (V5 : 5 * INR m <= INR m * INR (Nat.log2 m)) by nra. set (w := INR m * INR (Nat.log2 m)) in *.
  replace (10.8 * INR m * (3 * INR (Nat.log2 m)) * v) with (32.4 * (w * v)) in Q by (unfold w; lra).
  replace (52 * INR m * INR (Nat.log2 m) * v) with (52 * (w * v)) by (unfold w; ring).
  replace (100 * INR m * INR (Nat.log2 m) * v) with (100 * (w * v)) in HB by (unfold w; ring).
  assert (V6 : 5 * (INR m * v) <= w * v) by nra. assert (V7 : v <= INR m * v / 32) by nra.
  set (t := w * v) in *.
  assert (C3 : ((1 + 21 * INR n * v) * (1 + gamma v)) ^ 3 <= 1 + 13.2 * t).
  { assert (S1 : (1 + 21 * INR n * v) * (1 + gamma v) <= 1 + 11 * (INR m * v)).
    { assert (A1 : 21 * INR n * v <= 10.83 * (INR m * v)) by nra. assert (A2 : 0 <= 21 * INR n * v) by nra.
      apply Rle_trans with ((1 + 10.83 * (INR m * v)) * (1 + 3.01 * v)); [apply Rmult_le_compat; lra|].
      assert (INR m * v <= 1 / 500) by lra. nra. }
    apply Rle_trans with ((1 + 11 * (INR m * v)) ^ 3); [apply pow_incr; split; [apply Rmult_le_pos; nra|exact S1]|].
    eapply Rle_trans; [apply pow_linear; [nra|cbn [INR]; lra]|]. cbn [INR]. lra. }
  assert (C30 : 0 <= ((1 + 21 * INR n * v) * (1 + gamma v)) ^ 3) by (apply pow_le; apply Rmult_le_pos; nra).
  assert (S2 : (1 + v) ^ 2 <= 1 + t / 60) by (cbn [pow]; nra).
  assert (S20 : 0 <= (1 + v) ^ 2) by (apply pow_le; lra).
  set (X := ((1 + 21 * INR n * v) * (1 + gamma v)) ^ 3) in *. set (Z := (1 + v) ^ 2) in *.
  assert (T0 : 0 <= t) by (unfold t, w; nra).
  apply Rle_trans with ((1 + 13.2 * t) * (1 + 32.4 * t) * (1 + t / 60) - 1).
  + apply Rplus_le_compat_r. apply Rmult_le_compat; [apply Rmult_le_pos; assumption|assumption| |exact S2]. apply Rmult_le_compat; assumption.
  + assert (t <= 1 / 100) by lra. clear - T0 H. assert (t * t <= t / 100) by nra. assert (0 <= t * t) by nra. nra.
Qed.
Lemma blue_m32 n : (17 <= n)%nat -> (32 <= next_pow2 (2 * n - 1))%nat.
Proof.
  intros Hn. pose proof (next_pow2_pow2 (2 * n - 1)) as Hmp. pose proof (next_pow2_ge (2 * n - 1)) as Hmn. set (m := next_pow2 (2 * n - 1)) in *.
  apply is_pow2_iff in Hmp. destruct Hmp as [L EL]. destruct (Nat.le_gt_cases 5 L) as [HL|HL].
  - rewrite EL. change 32%nat with (2 ^ 5)%nat. apply Nat.pow_le_mono_r; lia.
  - assert (m <= 2 ^ 4)%nat by (rewrite EL; apply Nat.pow_le_mono_r; lia). cbn in *. lia.
Qed.
Lemma blue_nm n : (17 <= n)%nat -> 2 * INR n - 1 <= INR (next_pow2 (2 * n - 1)) /\ 17 <= INR n.
Proof.
  intros Hn. pose proof (next_pow2_ge (2 * n - 1)) as Hmn. split.
  - replace (2 * INR n - 1) with (INR (2 * n - 1)); [apply le_INR; exact Hmn|]. rewrite minus_INR, mult_INR by lia. cbn [INR]. ring.
  - replace 17 with (INR 17) by (rewrite INR_IZR_INZ; reflexivity). apply le_INR. exact Hn.
Qed.
(* Any other length n >= 17, through m = next_pow2 (2n - 1). The chirp takes i*i through f32 whatever the type,
   so beyond 4096 points (i*i > 2^24) this is for f32 only. *)
Theorem C65_float_bluestein_error : forall (prec : Z) (c : cfg) (x : list C) (m : nat), (24 <= prec)%Z -> c_precomp c = false \/ prec = 24%Z \/ prec = 53%Z -> c_std c = true ->
  prec = 24%Z \/ (length x <= 4096)%nat ->
  (17 <= length x)%nat -> is_pow2 (length x) = false -> m = next_pow2 (2 * length x - 1) ->
  100 * INR m * INR (Nat.log2 m) <= bpow radix2 prec ->
  exists p y, fft (F := flx prec) c (new_planner (T := R)) x = Done (p, y, ROk) /\
    within (52 * INR m * INR (Nat.log2 m) * bpow radix2 (- prec) * ((2 * INR (length x) - 1) * norm1 x)) y (DFT x).
Proof.
  intros prec c x m Hprec Hc Hs Hl Hn Hp Em Hb100. set (n := length x) in *.
  assert (Hmp : is_pow2 m = true) by (rewrite Em; apply next_pow2_pow2).
  pose proof (blue_m32 Hn) as Hm. pose proof (blue_nm Hn) as [Hnm HnR]. rewrite <- Em in Hm, Hnm.
  pose proof (nR Hm) as HmR. pose proof (log5 Hm) as HL. pose proof (uu_pos prec) as Hu.
  assert (Hb : 11 * INR m * INR (Nat.log2 m) <= bpow radix2 prec) by nra.
  assert (Hd : 0 <= dd prec m). { unfold dd. nra. }
  assert (Hl' : prec = 24%Z \/ INR n <= 4096).
  { destruct Hl as [Hl|Hl]; [left; exact Hl|right]. replace 4096 with (INR 4096) by (rewrite INR_IZR_INZ; reflexivity). apply le_INR. exact Hl. }
  assert (Hnb : INR n <= bpow radix2 prec) by nra.
  destruct (@C65_bluestein_error (flx prec) (uu prec) (dd prec m) (21 * INR n * uu prec) c x m (flx_rounded Hprec) Hd Hs Hp ltac:(fold n; lia) Em) as (p & y & E & N).
  - intros H. lia.
  - apply flx_tw; assumption.
  - nra.
  - apply (@flx_chirp prec Hprec n Hn Hnb Hl'). destruct Hl' as [E|Hl']; [|lra]. rewrite E in Hnb. exact Hnb.
  - apply fofnat_pow2; assumption.
  - exists p, y. split; [exact E|]. destruct N as [N1 N2]. split; [exact N1|]. intros k Hk. eapply Rle_trans; [apply N2; exact Hk|].
    assert (P : 0 <= norm1 x) by (unfold norm1; apply rsum_pos; intros; apply Cabs_nonneg). fold n.
    apply Rmult_le_compat_r; [nra|]. fold (uu prec). apply (@blue_num prec n m Hprec Hm HnR Hnm Hb100).
Qed.
Print Assumptions C65_float_bluestein_error.

(* Lengths up to 16 use the f32 literals 0.70710677, 0.9238795, 0.38268343 *)
Theorem C65_float_small_error : forall (prec : Z) (c : cfg) (x : list C), (24 <= prec)%Z -> (length x <= 16)%nat -> is_pow2 (length x) = true ->
  exists p y, fft (F := flx prec) c (new_planner (T := R)) x = Done (p, y, ROk) /\
    within (INR (Nat.log2 (length x)) / 1000000 * norm1 x) y (DFT x).
Proof.
  intros prec c x Hprec Hn Hp.
  destruct (@C65_fft_error (flx prec) (uu prec) (/ 10000000) c x (flx_rounded Hprec) ltac:(lra)) as (p & y & E & N).
  - intros _. cbn [fk707 fk924 fk383 flx]. pose proof cos4_lit. pose proof cos8_lit. pose proof sin8_lit. repeat split; lra.
  - exact Hp.
  - intros H. lia.
  - exists p, y. split; [exact E|]. destruct N as [N1 N2]. split; [exact N1|]. intros k Hk. eapply Rle_trans; [apply N2; exact Hk|].
    assert (P : 0 <= norm1 x) by (unfold norm1; apply rsum_pos; intros; apply Cabs_nonneg).
    apply Rmult_le_compat_r; [exact P|]. pose proof (uu_pos prec) as Hu. pose proof (uu_small Hprec) as Hs.
    assert (B : bfly (uu prec) (/ 10000000) <= 1 + 5 / 10000000). { unfold bfly, gamma. set (v := uu prec) in *. nra. }
    assert (B0 : 0 <= bfly (uu prec) (/ 10000000)) by (unfold bfly, gamma; set (v := uu prec) in *; apply Rmult_le_pos; [apply Rmult_le_pos; nra|lra]).
    assert (L4 : INR (Nat.log2 (length x)) <= 4). { replace 4 with (INR 4) by (cbn; lra). apply le_INR. change 4%nat with (Nat.log2 16). apply Nat.log2_le_mono. exact Hn. }
    pose proof (pos_INR (Nat.log2 (length x))).
    assert (Q : bfly (uu prec) (/ 10000000) ^ Nat.log2 (length x) <= (1 + 5 / 10000000) ^ Nat.log2 (length x)) by (apply pow_incr; lra).
    pose proof (@pow_linear (5 / 10000000) (Nat.log2 (length x)) ltac:(lra) ltac:(nra)) as Q2. lra.
Qed.
Print Assumptions C65_float_small_error.

(* So double precision is not reached on lengths 8 and 16: there is an 8-point f64 transform whose error
   is more than 2^26 roundoff units, while the bound for n >= 32 would allow 11 * 8 * 3 = 264 of them. *)
Lemma rnd53_lit : rnd 53 (11863283 / 16777216) = 11863283 / 16777216.
Proof.
  unfold rnd. apply round_generic; [typeclasses eauto|]. apply (@generic_format_FLX radix2 53).
  exists (Flocq.Core.Defs.Float radix2 11863283 (-24)); [|cbn; lia].
  unfold F2R. cbn [Fnum Fexp]. change (-24)%Z with (- (24))%Z. rewrite bpow_opp. change (bpow radix2 24) with 16777216. reflexivity.
Qed.
Lemma rnd53_opp x : rnd 53 (- x) = - rnd 53 x.
Proof. unfold rnd. apply round_NE_opp. Qed.
Lemma rnd53_0 : rnd 53 0 = 0.
Proof. unfold rnd. apply round_0. typeclasses eauto. Qed.
Lemma rnd53_1 : rnd 53 1 = 1.
Proof. change 1 with (bpow radix2 0). apply (@rnd_bpow 53). lia. Qed.
Definition impulse : list C := [C0; C1; C0; C0; C0; C0; C0; C0].
Theorem C65_f64_small_refuted : forall c : cfg, exists x p y,
  length x = 8%nat /\ norm1 x = 1 /\ fft (F := flx 53) c (new_planner (T := R)) x = Done (p, y, ROk) /\
  exists k, (k < 8)%nat /\ bpow radix2 26 * bpow radix2 (- (53)) < Cabs (at_ y k -c at_ (DFT x) k).
Proof.
  intros c. exists impulse. destruct (@fft_fresh_ok R (flx 53) c impulse ltac:(cbn; lia) (or_intror eq_refl)) as [p E].
  exists p, (fft_fresh (F := flx 53) c impulse). split; [reflexivity|]. split; [|split; [exact E|]].
  - unfold norm1, impulse, at_. cbn [length rsum nth]. rewrite Cabs_0. change (Cabs C1) with (Cabs (RtoC 1)). rewrite Cabs_R, Rabs_R1. ring.
  - exists 1%nat. split; [lia|]. rewrite DFT_at by (cbn; lia).
    assert (D : dft (length impulse) (at_ impulse) 1 = W 8 1).
    { cbn [length impulse]. unfold dft, at_, impulse. cbn [csum nth Nat.mul Nat.add]. rewrite W_0. creal; ring. }
    rewrite D, W_8_1.
    assert (Y : at_ (fft_fresh (F := flx 53) c impulse) 1 = mkcx (11863283 / 16777216) (- (11863283 / 16777216))).
    { change (at_ (small_fft (F := flx 53) c impulse) 1 = mkcx (11863283 / 16777216) (- (11863283 / 16777216))).
      unfold small_fft, small_kernel, impulse. cbn [length Nat.eqb fft8 bind]. unfold at_. cbn [nth].
      cbv zeta. unfold cmul, cmul_fma, cmul_plain, cadd, csub, C0, C1.
      destruct (c_fma c); cbn [re im fadd fsub fmul fmul_add fneg fzero fone fk707 flx];
      set (s := 11863283 / 16777216);
      repeat match goal with |- context [rnd 53 ?e] => first
        [ replace e with 0 by ring; rewrite rnd53_0 | replace e with 1 by ring; rewrite rnd53_1 | replace e with (- (1)) by ring; rewrite rnd53_opp, rnd53_1
        | replace e with s by ring; unfold s; rewrite rnd53_lit; fold s | replace e with (- s) by ring; rewrite rnd53_opp; unfold s; rewrite rnd53_lit; fold s ] end; reflexivity. }
    rewrite Y. unfold Cabs.
    apply Rlt_le_trans with (12 / 1000000000).
    + change (- (53))%Z with (- (53))%Z. rewrite <- bpow_plus. change (26 + - (53))%Z with (- (27))%Z. rewrite bpow_opp. change (bpow radix2 27) with 134217728. lra.
    + rewrite <- (sqrt_square (12 / 1000000000)) by lra. apply sqrt_le_1_alt. unfold Cnorm2. cbn [Csub re im]. pose proof cos4_gap. nra.
Qed.
Print Assumptions C65_f64_small_refuted.
Example C65_f64_1000 : forall (x : list C), length x = 1000%nat ->
  exists p y, fft (F := flx 53) {| c_std := true; c_parallel := false; c_fma := false; c_precomp := true; c_kind := F64; c_lanes := 4 |} (new_planner (T := R)) x = Done (p, y, ROk) /\
    within (/ 1000000 * norm1 x) y (DFT x).
Proof.
  intros x Hx. assert (HL4 : (length x <= 4096)%nat) by (rewrite Hx; lia).
  assert (E1 : INR (length x) = 1000). { rewrite Hx, INR_IZR_INZ. reflexivity. }
  assert (EM : (2048 = next_pow2 (2 * length x - 1))%nat) by (rewrite Hx; vm_compute; reflexivity).
  assert (E2 : INR 2048 = 2048) by (rewrite INR_IZR_INZ; reflexivity).
  assert (E3 : INR (Nat.log2 2048) = 11) by (change (Nat.log2 2048) with 11%nat; rewrite INR_IZR_INZ; reflexivity).
  assert (EB : bpow radix2 53 = 9007199254740992) by reflexivity.
  destruct (@C65_float_bluestein_error 53 {| c_std := true; c_parallel := false; c_fma := false; c_precomp := true; c_kind := F64; c_lanes := 4 |} x 2048 ltac:(lia) (or_intror (or_intror eq_refl)) eq_refl (or_intror HL4)) as (p & y & E & N).
  - rewrite Hx. lia.
  - rewrite Hx. vm_compute. reflexivity.
  - exact EM.
  - rewrite E2, E3, EB. lra.
  - exists p, y. split; [exact E|]. destruct N as [N1 N2]. split; [exact N1|]. intros k Hk. eapply Rle_trans; [apply N2; exact Hk|].
    assert (P : 0 <= norm1 x) by (unfold norm1; apply rsum_pos; intros; apply Cabs_nonneg).
    rewrite E1, E2, E3, bpow_opp, EB. nra.
Qed.

(* With the printed tables (f32 or f64, up to 1024 points) the error no longer grows with n but with log2(n) *)
Theorem C65_float_precomputed_error : forall (prec : Z) (c : cfg) (x : list C), prec = 24%Z \/ prec = 53%Z -> c_precomp c = true -> c_kind c <> OtherT ->
  (32 <= length x <= 1024)%nat -> is_pow2 (length x) = true ->
  exists p y, fft (F := flx prec) c (new_planner (T := R)) x = Done (p, y, ROk) /\
    within (25 * INR (Nat.log2 (length x)) * bpow radix2 (- prec) * norm1 x) y (DFT x).
Proof.
  intros prec c x HP Hc Hk [Hn Hn2] Hp. set (n := length x) in *.
  assert (Hprec : (24 <= prec)%Z) by (destruct HP; lia). pose proof (uu_pos prec) as Hu. pose proof (uu_small Hprec) as Hs.
  assert (HB : INR n <= 1024). { replace 1024 with (INR 1024) by (rewrite INR_IZR_INZ; reflexivity). apply le_INR. exact Hn2. }
  destruct (@C65_fft_error (flx prec) (uu prec) (20 * uu prec) c x (flx_rounded Hprec) ltac:(lra)) as (p & y & E & N).
  - intros H. fold n in H. lia.
  - exact Hp.
  - intros _ k Hk'. fold n in Hk' |- *. rewrite get_tw. unfold twf. rewrite (pre_size_in c Hc Hk Hp Hn Hn2).
    apply (@twid_pre prec Hprec n k HP Hn Hp HB Hk').
  - exists p, y. split; [exact E|]. destruct N as [N1 N2]. split; [exact N1|]. intros k Hk'. eapply Rle_trans; [apply N2; exact Hk'|].
    assert (P : 0 <= norm1 x) by (unfold norm1; apply rsum_pos; intros; apply Cabs_nonneg).
    apply Rmult_le_compat_r; [exact P|]. fold n. fold (uu prec). set (v := uu prec) in *.
    assert (L10 : INR (Nat.log2 n) <= 10). { replace 10 with (INR 10) by (cbn; lra). apply le_INR. change 10%nat with (Nat.log2 1024). apply Nat.log2_le_mono. exact Hn2. }
    assert (B : bfly v (20 * v) <= 1 + 24.1 * v) by (unfold bfly, gamma; nra).
    assert (B0 : 0 <= bfly v (20 * v)) by (unfold bfly, gamma; apply Rmult_le_pos; [apply Rmult_le_pos; nra|lra]).
    assert (Q : bfly v (20 * v) ^ Nat.log2 n <= (1 + 24.1 * v) ^ Nat.log2 n) by (apply pow_incr; lra).
    assert (Q2 : (1 + 24.1 * v) ^ Nat.log2 n <= 1 + 25 * INR (Nat.log2 n) * v).
    { clear - Hu Hs L10. induction (Nat.log2 n) as [|L IH]; [cbn [pow INR]; lra|]. rewrite S_INR in *. cbn [pow]. specialize (IH ltac:(lra)).
      pose proof (pos_INR L). apply Rle_trans with ((1 + 24.1 * v) * (1 + 25 * INR L * v)); [apply Rmult_le_compat_l; lra|].
      assert (25 * INR L * v * (24.1 * v) <= 0.9 * v) by (assert (25 * INR L * 24.1 * v <= 0.9) by nra; nra). nra. }
    lra.
Qed.
Print Assumptions C65_float_precomputed_error.
Example C65_precomputed_1024 : forall x : list C, length x = 1024%nat ->
  exists p y, fft (F := flx 24) {| c_std := true; c_parallel := false; c_fma := true; c_precomp := true; c_kind := F32; c_lanes := 8 |} (new_planner (T := R)) x = Done (p, y, ROk) /\
    within (15 / 1000000 * norm1 x) y (DFT x).
Proof.
  intros x Hx.
  destruct (@C65_float_precomputed_error 24 {| c_std := true; c_parallel := false; c_fma := true; c_precomp := true; c_kind := F32; c_lanes := 8 |} x (or_introl eq_refl) eq_refl ltac:(discriminate)) as (p & y & E & N).
  - rewrite Hx. lia.
  - rewrite Hx. vm_compute. reflexivity.
  - exists p, y. split; [exact E|]. destruct N as [N1 N2]. split; [exact N1|]. intros k Hk. eapply Rle_trans; [apply N2; exact Hk|].
    assert (P : 0 <= norm1 x) by (unfold norm1; apply rsum_pos; intros; apply Cabs_nonneg).
    assert (E3 : INR (Nat.log2 (length x)) = 10) by (rewrite Hx; change (Nat.log2 1024) with 10%nat; rewrite INR_IZR_INZ; reflexivity).
    rewrite E3, bpow_opp. change (bpow radix2 24) with 16777216. nra.
Qed.

(* Every other length, whatever the precision: the accuracy of f32 *)
Theorem C65_float_bluestein_f32 : forall (prec : Z) (c : cfg) (x : list C) (m : nat), (24 <= prec)%Z -> c_precomp c = false \/ prec = 24%Z \/ prec = 53%Z -> c_std c = true ->
  (17 <= length x)%nat -> is_pow2 (length x) = false -> m = next_pow2 (2 * length x - 1) ->
  100 * INR m * INR (Nat.log2 m) <= bpow radix2 24 ->
  exists p y, fft (F := flx prec) c (new_planner (T := R)) x = Done (p, y, ROk) /\
    within (52 * INR m * INR (Nat.log2 m) * bpow radix2 (- (24)) * ((2 * INR (length x) - 1) * norm1 x)) y (DFT x).
Proof.
  intros prec c x m Hprec Hc Hs Hn Hp Em Hb100. set (n := length x) in *.
  assert (Hmp : is_pow2 m = true) by (rewrite Em; apply next_pow2_pow2).
  pose proof (blue_m32 Hn) as Hm. pose proof (blue_nm Hn) as [Hnm HnR]. rewrite <- Em in Hm, Hnm.
  pose proof (nR Hm) as HmR. pose proof (log5 Hm) as HL. pose proof (uu_pos 24) as Hu. pose proof (uu_24 Hprec) as H24. pose proof (uu_pos prec) as Hup.
  assert (Hb24 : bpow radix2 24 <= bpow radix2 prec) by (apply bpow_le; exact Hprec).
  assert (Hb : 11 * INR m * INR (Nat.log2 m) <= bpow radix2 prec) by nra.
  assert (Hd : 0 <= dd 24 m). { unfold dd. nra. }
  assert (Hnb : INR n <= bpow radix2 24) by nra.
  destruct (@C65_bluestein_error (flx prec) (uu 24) (dd 24 m) (21 * INR n * uu 24) c x m (rounded_mono H24 (flx_rounded Hprec)) Hd Hs Hp ltac:(fold n; lia) Em) as (p & y & E & N).
  - intros H. lia.
  - intros H k Hk. eapply Rle_trans; [apply (@flx_tw prec Hprec c m Hc Hm Hmp Hb H k Hk)|]. unfold dd. nra.
  - nra.
  - apply flx_chirp24; [exact Hprec|exact Hn|exact Hnb].
  - apply fofnat_pow2; assumption.
  - exists p, y. split; [exact E|]. destruct N as [N1 N2]. split; [exact N1|]. intros k Hk. eapply Rle_trans; [apply N2; exact Hk|].
    assert (P : 0 <= norm1 x) by (unfold norm1; apply rsum_pos; intros; apply Cabs_nonneg). fold n.
    apply Rmult_le_compat_r; [nra|]. fold (uu 24). apply (@blue_num 24 n m ltac:(lia) Hm HnR Hnm Hb100).
Qed.
Print Assumptions C65_float_bluestein_f32.

(* and not better: for every length between 4098 and 8191 the f64 transform of the unit impulse at 1 is off by
   more than 2^41 roundoff units, since 4097 * 4097 is rounded to an f32 on the way into the chirp *)
Lemma rsum_only n k f : (k < n)%nat -> (forall i, (i < n)%nat -> i <> k -> f i = 0) -> rsum n f = f k.
Proof.
  induction n as [|n IH]; intros Hk H; [lia|]. cbn [rsum]. destruct (Nat.eq_dec k n) as [->|E].
  - rewrite rsum_0 by (intros i Hi; apply H; lia). ring.
  - rewrite IH, (H n) by (try lia; intros; apply H; lia). ring.
Qed.
Lemma csum_only n k f : (k < n)%nat -> (forall i, (i < n)%nat -> i <> k -> f i = C0) -> csum n f = f k.
Proof.
  induction n as [|n IH]; intros Hk H; [lia|]. cbn [csum]. destruct (Nat.eq_dec k n) as [->|E].
  - rewrite csum_0 by (intros i Hi; apply H; lia). ring.
  - rewrite IH, (H n) by (try lia; intros; apply H; lia). ring.
Qed.
(* 4097^2 = 2^24 + 8193 lies half-way between two f32 numbers *)
Lemma r24_4097 : r24 16785409 = 16785408.
Proof.
  unfold r24, round, scaled_mantissa, cexp. rewrite (@mag_unique radix2 16785409 25).
  2:{ rewrite Rabs_pos_eq by lra. change (25 - 1)%Z with 24%Z. change (bpow radix2 24) with 16777216. change (bpow radix2 25) with 33554432. lra. }
  unfold FLX_exp. change (25 - 24)%Z with 1%Z. unfold F2R. cbn [Fnum Fexp]. rewrite bpow_opp. change (bpow radix2 1) with 2.
  assert (E : ZnearestE (16785409 * / 2) = 8392704%Z).
  { unfold Znearest. assert (EF : Zfloor (16785409 * / 2) = 8392704%Z) by (apply Zfloor_imp; change (8392704 + 1)%Z with 8392705%Z; lra).
    rewrite EF. rewrite Rcompare_Eq by lra. reflexivity. }
  rewrite E. lra.
Qed.
Lemma sin_lower t : 0 <= t <= 1 -> t - t * t * t / 6 <= sin t.
Proof.
  intros Ht. destruct (pre_sin_bound t 0 (proj1 Ht) ltac:(lra)) as [H _]. eapply Rle_trans; [|exact H].
  unfold sin_approx, sin_term. cbn [sum_f_R0 Nat.mul Nat.add pow]. rewrite !INR_IZR_INZ. cbn. lra.
Qed.
Lemma R53 : rounded (flx 53) (uu 53).
Proof. apply flx_rounded. lia. Qed.
Definition delta1 (n : nat) : list C := tab n (fun i => if (i =? 1)%nat then C1 else C0).
Theorem C65_f64_long_refuted : forall (c : cfg) (n : nat), c_std c = true -> (4097 < n)%nat -> (n < 2 ^ 13)%nat -> exists p y,
  fft (F := flx 53) c (new_planner (T := R)) (delta1 n) = Done (p, y, ROk) /\ norm1 (delta1 n) = 1 /\
  exists k, (k < n)%nat /\ bpow radix2 41 * bpow radix2 (- (53)) < Cabs (at_ y k -c at_ (DFT (delta1 n)) k).
Proof.
  intros c n Hs H1 H2. set (x := delta1 n). assert (Hx : length x = n) by apply tab_length.
  assert (Hnp : is_pow2 n = false).
  { destruct (is_pow2 n) eqn:E; [|reflexivity]. apply is_pow2_iff in E. destruct E as [L EL]. exfalso.
    destruct (Nat.le_gt_cases L 12) as [HL|HL].
    - assert (2 ^ L <= 2 ^ 12)%nat by (apply Nat.pow_le_mono_r; lia). change (2 ^ 12)%nat with 4096%nat in *. lia.
    - assert (2 ^ 13 <= 2 ^ L)%nat by (apply Nat.pow_le_mono_r; lia). lia. }
  assert (Em : blue_m n = (2 ^ 14)%nat).
  { unfold blue_m. pose proof (next_pow2_pow2 (2 * n - 1)) as Hp. pose proof (next_pow2_ge (2 * n - 1)) as Hge.
    apply is_pow2_iff in Hp. destruct Hp as [L EL]. pose proof (@next_pow2_lt (2 * n - 1) ltac:(lia)) as Hle.
    assert (E12 : (2 ^ 12 = 4096)%nat) by reflexivity. assert (E13 : (2 ^ 13 = 2 * 2 ^ 12)%nat) by reflexivity. assert (E14 : (2 ^ 14 = 2 * 2 ^ 13)%nat) by reflexivity.
    rewrite EL in *. f_equal. destruct (Nat.lt_trichotomy L 14) as [H|[H|H]]; [|exact H|].
    - assert (2 ^ L <= 2 ^ 13)%nat by (apply Nat.pow_le_mono_r; lia). lia.
    - assert (2 ^ 15 <= 2 ^ L)%nat by (apply Nat.pow_le_mono_r; lia). assert (2 ^ 15 = 2 * 2 ^ 14)%nat by reflexivity. lia. }
  assert (HnR : 4098 <= INR n <= 8191).
  { split; [replace 4098 with (INR 4098) by (rewrite INR_IZR_INZ; reflexivity); apply le_INR; lia|].
    assert (INR (S n) <= INR (2 ^ 13)) as Q by (apply le_INR; lia). rewrite S_INR, INR_pow2 in Q. change (bpow radix2 (Z.of_nat 13)) with 8192 in Q. lra. }
  assert (EmR : INR (blue_m n) = 16384). { rewrite Em, INR_pow2. reflexivity. }
  assert (El : INR (Nat.log2 (blue_m n)) = 14). { rewrite Em, Nat.log2_pow2 by lia. cbn [INR]. ring. }
  assert (H32 : (32 <= blue_m n)%nat). { rewrite Em. change 32%nat with (2 ^ 5)%nat. apply Nat.pow_le_mono_r; lia. }
  assert (Hmp : is_pow2 (blue_m n) = true) by apply blue_m_pow2.
  pose proof (uu_pos 53) as Hu. assert (EU : uu 53 = / 9007199254740992) by reflexivity.
  assert (Hbp : bpow radix2 53 = 9007199254740992) by reflexivity.
  assert (Hb11 : 11 * INR (blue_m n) * INR (Nat.log2 (blue_m n)) <= bpow radix2 53) by (rewrite EmR, El, Hbp; lra).
  assert (Hd : 0 <= dd 53 (blue_m n)). { unfold dd. rewrite EmR. lra. }
  destruct (@fft_fresh_ok R (flx 53) c x ltac:(lia) (or_introl Hs)) as [p E]. exists p, (fft_fresh (F := flx 53) c x). split; [exact E|].
  assert (N1 : norm1 x = 1).
  { unfold norm1. rewrite Hx. rewrite (@rsum_only n 1).
    3:{ intros i Hi Hi1. unfold x, delta1. rewrite at_tab by exact Hi. destruct (Nat.eqb_spec i 1); [lia|apply Cabs_0]. }
    2:{ lia. }
    unfold x, delta1. rewrite at_tab by lia. cbn [Nat.eqb]. change C1 with (RtoC 1). rewrite Cabs_R. apply Rabs_R1. }
  split; [exact N1|]. exists 4097%nat. split; [exact H1|].
  (* rounding *)
  assert (Hn17 : (17 <= length x)%nat) by lia.
  pose proof (@bluefft_near_gen (flx 53) (uu 53) R53 c (dd 53 (blue_m n)) Hd (th24 n) 1 (fun j => Cabs (at_ x j)) x x (14 * INR n * uu 53)) as N.
  rewrite Hx in N. specialize (N ltac:(intros; lia) ltac:(lia) ltac:(nra) (@flx_chirp_any 53 ltac:(lia) n ltac:(lia) ltac:(lra))).
  specialize (N ltac:(intros _; apply (@twid_err 53); [lia|right; right; reflexivity|exact H32|exact Hmp|rewrite EmR, EU; lra])).
  specialize (N ltac:(apply fofnat_pow2; exact Hmp) (near_self x)).
  assert (NK : Cabs (at_ (bluefft (F := flx 53) c x) 4097 -c at_ (chirpz (th24 n) x) 4097) <= 5 / 100000).
  { destruct N as [_ N]. specialize (N 4097%nat ltac:(unfold chirpz; rewrite tab_length; lia)). destruct N as (_ & _ & N).
    eapply Rle_trans; [exact N|]. change (rsum n (fun j => Cabs (at_ x j))) with (rsum n (fun j => Cabs (at_ x j))).
    replace (rsum n (fun j => Cabs (at_ x j))) with 1 by (rewrite <- N1; unfold norm1; rewrite Hx; reflexivity).
    pose proof (@flx_bfly 53 ltac:(lia) (blue_m n) H32 Hb11 (Nat.log2 (blue_m n) * 3)%nat) as Q.
    assert (E42 : INR (Nat.log2 (blue_m n) * 3) = 42) by (rewrite mult_INR, El; cbn [INR]; ring).
    rewrite E42, EmR in Q. specialize (Q ltac:(rewrite EU; lra)). rewrite <- pow_mult.
    change (bfly (uu 53) (dd 53 (blue_m n))) with (QQ (uu 53) (dd 53 (blue_m n))) in Q.
    set (B := QQ (uu 53) (dd 53 (blue_m n)) ^ (Nat.log2 (blue_m n) * 3)) in *.
    assert (G3 : ((1 + 14 * INR n * uu 53) * (1 + gam (uu 53))) ^ 3 <= 1 + / 1000000000).
    { pose proof (@gam_small 53 ltac:(lia)) as GS. pose proof (@gam_pos (flx 53) (uu 53) R53) as G0.
      assert (S1 : (1 + 14 * INR n * uu 53) * (1 + gam (uu 53)) <= 1 + / 10000000000).
      { apply Rle_trans with ((1 + 14 * 8191 * uu 53) * (1 + 3.01 * uu 53)); [|rewrite EU; lra]. apply Rmult_le_compat; try nra. }
      apply Rle_trans with ((1 + / 10000000000) ^ 3); [apply pow_incr; split; [|exact S1]|cbn [pow]; lra].
      apply Rmult_le_pos; nra. }
    set (X := ((1 + 14 * INR n * uu 53) * (1 + gam (uu 53))) ^ 3) in *.
    assert (X0 : 0 <= X). { unfold X. apply pow_le. pose proof (@gam_pos (flx 53) (uu 53) R53) as G0. apply Rmult_le_pos; nra. }
    assert (B0 : 0 <= B). { unfold B. apply pow_le. pose proof (@QQ_ge1 (flx 53) (uu 53) R53 _ Hd). lra. }
    assert (BB : B <= 1 + / 1000000000) by (rewrite EU in Q; lra).
    assert (U2 : (1 + uu 53) * (1 + uu 53) <= 1 + / 1000000000) by (rewrite EU; lra).
    apply Rle_trans with ((1 * (1 + / 1000000000) * (1 + / 1000000000) * (1 + / 1000000000) - 1) * ((2 * INR n - 1) * 1)).
    - apply Rmult_le_compat_r; [lra|]. apply Rplus_le_compat_r. rewrite !Rmult_1_l.
      apply Rmult_le_compat; [apply Rmult_le_pos; assumption|nra| |exact U2]. apply Rmult_le_compat; assumption.
    - nra. }
  (* what the wrong angle does *)
  assert (EZ : at_ (chirpz (th24 n) x) 4097 = cis (- (8193 * PI / INR n))).
  { unfold chirpz. rewrite Hx, at_tab by exact H1. rewrite (@csum_only n 1).
    3:{ intros i Hi Hi1. unfold x, delta1. rewrite at_tab by exact Hi. destruct (Nat.eqb_spec i 1); [lia|ring]. }
    2:{ lia. }
    unfold x, delta1. rewrite at_tab by lia. cbn [Nat.eqb].
    assert (Eg : gap 4097 1 = 4096%nat) by reflexivity. rewrite Eg.
    assert (T1 : th24 n 1 = PI / INR n). { unfold th24. cbn [Nat.mul Nat.add]. rewrite r24_INR by (cbn [INR]; lra). cbn [INR]. field. lra. }
    assert (T2 : th24 n 4096 = PI * 16777216 / INR n).
    { unfold th24. rewrite mult_INR. replace (INR 4096) with 4096 by (rewrite INR_IZR_INZ; reflexivity).
      replace (4096 * 4096) with (bpow radix2 24) by (change (bpow radix2 24) with 16777216; lra). rewrite r24_bpow. reflexivity. }
    assert (T3 : th24 n 4097 = PI * 16785408 / INR n).
    { unfold th24. rewrite mult_INR. replace (INR 4097) with 4097 by (rewrite INR_IZR_INZ; reflexivity).
      replace (4097 * 4097) with 16785409 by lra. rewrite r24_4097. reflexivity. }
    rewrite T1, T2, T3. replace (- (PI / INR n) + PI * 16777216 / INR n - PI * 16785408 / INR n) with (- (8193 * PI / INR n)) by (field; lra). ring. }
  assert (ED : at_ (DFT x) 4097 = cis (- (8193 * PI / INR n)) *c cis (- (PI / INR n))).
  { rewrite DFT_at by lia. unfold dft. rewrite Hx, (@csum_only n 1).
    3:{ intros i Hi Hi1. unfold x, delta1. rewrite at_tab by exact Hi. destruct (Nat.eqb_spec i 1); [lia|ring]. }
    2:{ lia. }
    unfold x, delta1. rewrite at_tab by lia. cbn [Nat.eqb]. rewrite <- cis_add. unfold W. rewrite Nat.mul_1_l.
    replace (INR 4097) with 4097 by (rewrite INR_IZR_INZ; reflexivity).
    replace (- (2 * PI * 4097 / INR n)) with (- (8193 * PI / INR n) + - (PI / INR n)) by (field; lra). ring. }
  set (t := PI / INR n) in *.
  assert (Ht : 366 / 1000000 <= t <= 1 / 1000).
  { pose proof PI_4. pose proof PI2_3_2. assert (3 < PI) by lra. assert (Et : t * INR n = PI) by (unfold t; field; lra).
    split; apply Rmult_le_reg_r with (INR n); lra. }
  assert (GAP : 365 / 1000000 <= Cabs (at_ (chirpz (th24 n) x) 4097 -c at_ (DFT x) 4097)).
  { rewrite EZ, ED. replace (cis (- (8193 * PI / INR n)) -c cis (- (8193 * PI / INR n)) *c cis (- t)) with (cis (- (8193 * PI / INR n)) *c (C1 -c cis (- t))) by ring.
    rewrite Cabs_mul, Cabs_cis, Rmult_1_l. unfold Cabs. rewrite <- (sqrt_square (365 / 1000000)) by lra. apply sqrt_le_1_alt.
    unfold Cnorm2, cis. cbn [Csub C1 re im]. rewrite sin_neg. pose proof (@sin_lower t ltac:(lra)) as S.
    assert (S2 : 365 / 1000000 <= sin t). { eapply Rle_trans; [|exact S]. assert (t * t * t <= / 1000000000) by (assert (0 <= t * t <= / 1000000) by nra; nra). lra. }
    pose proof (Rle_0_sqr (1 - cos (- t))) as SQ. unfold Rsqr in SQ. assert (S3 : 365 / 1000000 * (365 / 1000000) <= sin t * sin t) by nra.
    lra. }
  assert (EF : fft_fresh (F := flx 53) c x = bluefft (F := flx 53) c x) by (unfold fft_fresh; rewrite Hx, Hnp; reflexivity).
  rewrite EF. set (Y := at_ (bluefft (F := flx 53) c x) 4097) in *. set (Z := at_ (chirpz (th24 n) x) 4097) in *. set (V := at_ (DFT x) 4097) in *.
  assert (TRI : Cabs (Z -c V) <= Cabs (Y -c Z) + Cabs (Y -c V)).
  { replace (Z -c V) with ((Y -c V) -c (Y -c Z)) by ring. eapply Rle_trans; [apply Cabs_sub|]. lra. }
  rewrite <- bpow_plus. change (41 + - (53))%Z with (- (12))%Z. rewrite bpow_opp. change (bpow radix2 12) with 4096. lra.
Qed.
Print Assumptions C65_f64_long_refuted.
Example C65_f64_4100 : exists p y, fft (F := flx 53) (cfg_std F64) (new_planner (T := R)) (delta1 4100) = Done (p, y, ROk) /\
  exists k, (k < 4100)%nat /\ bpow radix2 41 * bpow radix2 (- (53)) < Cabs (at_ y k -c at_ (DFT (delta1 4100)) k).
Proof.
  destruct (@C65_f64_long_refuted (cfg_std F64) 4100 eq_refl) as (p & y & E & _ & H); [lia| |exists p, y; split; assumption].
  apply Nat.lt_trans with (4096 + 5)%nat; [lia|]. replace (2 ^ 13)%nat with (4096 + 4096)%nat by reflexivity. lia.
Qed.

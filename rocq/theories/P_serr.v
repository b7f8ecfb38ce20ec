(* Property C86: rounding errors of the short-time Fourier transform and its inverse. *)
From Coq Require Import Reals Lra Lia ZArith ZifyBool ZifyNat.
From Flocq Require Import Core.
From Verif Require Import L_err L_rerr L_flx L_stft P_fft P_err P_rerr P_stft RX.
Set Implicit Arguments.
Open Scope R_scope.

(* ---------- specification ---------- *)
(* A transform f of n points computes D with error factor q and gain a: when every input is off by at
   most (r-1) S_i and at most S_i large, every output is off by at most (r q - 1) a (S_0 + ... + S_(n-1)). *)
Definition accurate (n : nat) (f D : list C -> list C) (q a : R) : Prop := forall r S x xh, length x = n -> length xh = n ->
  (forall i, (i < n)%nat -> 1 <= r /\ Cabs (at_ x i) <= S i /\ Cabs (at_ xh i -c at_ x i) <= (r - 1) * S i) ->
  length (f xh) = n /\ forall i, (i < n)%nat -> 1 <= r * q /\ Cabs (at_ (D x) i) <= a * rsum n S /\
    Cabs (at_ (f xh) i -c at_ (D x) i) <= (r * q - 1) * (a * rsum n S).
(* frame k covers sample p *)
Definition covers (hop wl k p : nat) : bool := (k * hop <=? p)%nat && (p <? k * hop + wl)%nat.
(* no sample lies in more than this many frames *)
Definition overlaps (hop wl : nat) : nat := ((wl + hop - 1) / hop)%nat.
(* size of what is added up at sample p: over the frames covering it, the window value there times the
   sum of |signal * window| over the frame *)
Definition mass (signal window : list R) (hop K p : nat) : R := rsum K (fun k =>
  if covers hop (length window) k p then norm1 (windowed signal window (k * hop)) * Rabs (nth (p - k * hop) window 0) else 0).
(* exact comparison *)
Definition compares (X : FloatX R) : Prop := forall a b, @fltb R X a b = true <-> a < b.

(* ---------- proofs ---------- *)
Lemma covered_count hop wl p : (0 < hop)%nat -> forall K, (length (filter (fun k => covers hop wl k p) (seq 0 K)) <= overlaps hop wl)%nat.
Proof.
  intros Hh K. set (lo := ((p + 1 - wl + hop - 1) / hop)%nat). set (hi := (p / hop + 1)%nat).
  assert (H : (length (filter (fun k => covers hop wl k p) (seq 0 K)) <= Nat.min K hi - lo)%nat).
  { induction K as [|K IH]; [apply Nat.le_0_l|]. rewrite seq_S, filter_app, app_length. cbn [filter plus Nat.add].
    destruct (covers hop wl K p) eqn:Ec; cbn [length]; [|lia].
    unfold covers in Ec. apply andb_true_iff in Ec. destruct Ec as [E1 E2]. apply Nat.leb_le in E1. apply Nat.ltb_lt in E2.
    assert (K < hi)%nat. { unfold hi. pose proof (Nat.div_le_lower_bound p hop K ltac:(lia) ltac:(lia)). lia. }
    assert (lo <= K)%nat. { unfold lo. assert ((p + 1 - wl + hop - 1) / hop < K + 1)%nat; [|lia]. apply Nat.div_lt_upper_bound; nia. }
    lia. }
  eapply Nat.le_trans; [exact H|]. assert (hi - lo <= overlaps hop wl)%nat; [|lia].
  unfold hi, lo, overlaps. clear H.
  pose proof (Nat.div_mod p hop ltac:(lia)). pose proof (Nat.mod_upper_bound p hop ltac:(lia)).
  pose proof (Nat.div_mod (p + 1 - wl + hop - 1) hop ltac:(lia)). pose proof (Nat.mod_upper_bound (p + 1 - wl + hop - 1) hop ltac:(lia)).
  pose proof (Nat.div_mod (wl + hop - 1) hop ltac:(lia)). pose proof (Nat.mod_upper_bound (wl + hop - 1) hop ltac:(lia)).
  set (a := (p / hop)%nat) in *. set (b := ((p + 1 - wl + hop - 1) / hop)%nat) in *. set (e := ((wl + hop - 1) / hop)%nat) in *.
  destruct (Nat.le_gt_cases wl (p + 1)).
  - assert (hop * a < hop * (b + e))%nat by lia. nia.
  - assert (hop * a < hop * e)%nat by lia. nia.
Qed.

Section Lem.
Variables (G : Float R) (X : FloatX R) (u : R).
Hypothesis (HG : rounded G u).
Lemma pu n : 1 <= (1 + u) ^ n.
Proof. apply pow_R1_Rle. pose proof (r_u HG). lra. Qed.
Lemma rnear_mono q q' S S' x xh : rnear q S x xh -> q <= q' -> S <= S' -> rnear q' S' x xh.
Proof. intros (H1 & H2 & H3) Hq HS. pose proof (Rabs_pos x). split; [lra|]. split; [lra|]. eapply Rle_trans; [exact H3|]. nra. Qed.
Lemma rnear_mul_r q S x xh w : rnear q S x xh -> rnear (q * (1 + u)) (S * Rabs w) (x * w) (@fmul R G xh w).
Proof.
  intros (Hq & H1 & H2). pose proof (r_u HG). pose proof (Rabs_pos w). pose proof (Rabs_pos x).
  pose proof (r_mul HG xh w) as E. rewrite !Rabs_mult in E. split; [nra|]. split; [rewrite Rabs_mult; nra|].
  assert (A : Rabs xh <= q * S). { replace xh with (x + (xh - x)) by ring. eapply Rle_trans; [apply Rabs_triang|]. lra. }
  replace (@fmul R G xh w - x * w) with ((@fmul R G xh w - xh * w) + (xh - x) * w) by ring.
  eapply Rle_trans; [apply Rabs_triang|]. rewrite (Rabs_mult (xh - x)).
  apply Rle_trans with (u * (q * S * Rabs w) + (q - 1) * S * Rabs w).
  - apply Rplus_le_compat; [eapply Rle_trans; [exact E|]; apply Rmult_le_compat_l; [lra|]; apply Rmult_le_compat_r; lra|].
    apply Rmult_le_compat_r; lra.
  - right. ring.
Qed.
(* adding up the frames covering a sample *)
Lemma ola_near (g gh : nat -> nat -> R) (S : nat -> nat -> R) wl hop p q Km : 1 <= q ->
  (forall k, (k < Km)%nat -> covers hop wl k p = true -> rnear q (S k (p - k * hop)%nat) (g k (p - k * hop)%nat) (gh k (p - k * hop)%nat)) -> forall K, (K <= Km)%nat ->
  rnear (q * (1 + u) ^ length (filter (fun k => covers hop wl k p) (seq 0 K)))
    (rsum K (fun k => if covers hop wl k p then S k (p - k * hop)%nat else 0))
    (rsum K (fun k => if covers hop wl k p then g k (p - k * hop)%nat else 0)) (ola (F := G) gh wl hop p K 0).
Proof.
  intros Hq H. induction K as [|K IH]; intros HK; [|specialize (IH ltac:(lia))].
  - cbn [seq filter length pow rsum ola]. unfold rnear. rewrite Rminus_0_r, Rabs_R0, Rmult_0_r, Rmult_1_r. repeat split; lra.
  - rewrite seq_S, filter_app, app_length. cbn [filter rsum ola plus Nat.add]. change ((K * hop <=? p)%nat && (p <? K * hop + wl)%nat) with (covers hop wl K p).
    destruct (covers hop wl K p) eqn:Ec; cbn [length].
    + rewrite Nat.add_1_r. cbn [pow].
      replace (q * ((1 + u) * (1 + u) ^ length (filter (fun k => covers hop wl k p) (seq 0 K)))) with
        (q * (1 + u) ^ length (filter (fun k => covers hop wl k p) (seq 0 K)) * (1 + u)) by ring.
      apply (rnear_add HG); [exact IH|]. eapply rnear_mono; [apply H; [lia|exact Ec]| |apply Rle_refl].
      pose proof (pu (length (filter (fun k => covers hop wl k p) (seq 0 K)))). nra.
    + rewrite Nat.add_0_r, !Rplus_0_r. exact IH.
Qed.
Lemma wframe_near signal window start i : (i < length window)%nat ->
  near (1 + u) (Cabs (at_ (windowed signal window start) i)) (at_ (windowed signal window start) i) (at_ (wframe (F := G) signal window start) i).
Proof.
  intros Hi. pose proof (r_u HG). unfold at_, windowed, wframe. rewrite !nth_tab by exact Hi. rewrite (r_zero HG).
  split; [lra|]. split; [apply Rle_refl|]. replace (1 + u - 1) with u by ring. rewrite Cabs_R.
  destruct (Nat.ltb_spec (start + i) (length signal)).
  - match goal with |- Cabs (?a -c _) <= _ => replace a with (RtoC (@fmul R G (nth (start + i) signal 0) (nth i window 0))) by reflexivity end.
    replace (RtoC (@fmul R G (nth (start + i) signal 0) (nth i window 0)) -c RtoC (nth i window 0 * nth (start + i) signal 0))
      with (RtoC (@fmul R G (nth (start + i) signal 0) (nth i window 0) - nth (start + i) signal 0 * nth i window 0)) by (unfold RtoC, Csub; cbn [re im]; f_equal; ring).
    rewrite Cabs_R, (Rmult_comm (nth i window 0)). apply (r_mul HG).
  - rewrite (nth_overflow signal) by lia. rewrite Rmult_0_r, Rabs_R0, Rmult_0_r.
    replace (mkcx 0 0 -c RtoC 0) with C0 by (unfold RtoC, Csub, C0; cbn [re im]; f_equal; ring). rewrite Cabs_0. apply Rle_refl.
Qed.
Lemma acc_near n f D q a r S x xh : accurate n f D q a -> length x = n -> length (D x) = n -> near_list r S x xh -> near_list (r * q) (fun _ => a * rsum n S) (D x) (f xh).
Proof.
  intros H Hx HD [Hl Hn]. rewrite Hx in *. destruct (H r S x xh Hx Hl Hn) as [H1 H2]. split; [congruence|]. rewrite HD. exact H2.
Qed.
Lemma acc_of n f D q a : (forall r S x xh, length x = n -> near_list r S x xh -> near_list (r * q) (fun _ => a * rsum n S) (D x) (f xh)) ->
  (forall x, length x = n -> length (D x) = n) -> accurate n f D q a.
Proof.
  intros H HD r S x xh Hx Hxh Hn. destruct (H r S x xh Hx) as [H1 H2]; [split; [congruence|rewrite Hx; exact Hn]|].
  rewrite (HD x Hx) in *. split; [exact H1|exact H2].
Qed.

Section Prov.
Variables (f1 f2 : list C -> list C) (q1 a1 q2 a2 : R) (signal window : list R) (hop : nat).
Let n := length window.
Hypothesis (A1 : accurate n f1 DFT q1 a1) (A2 : accurate n f2 IDFT q2 a2).
Lemma frame_near k : near_list ((1 + u) * q1) (fun _ => a1 * norm1 (windowed signal window (k * hop))) (DFT (windowed signal window (k * hop))) (f1 (wframe (F := G) signal window (k * hop))).
Proof.
  pose proof (@acc_near n f1 DFT q1 a1 (1 + u) (fun i => Cabs (at_ (windowed signal window (k * hop)) i)) (windowed signal window (k * hop)) (wframe (F := G) signal window (k * hop)) A1) as P.
  unfold norm1. rewrite windowed_length in *. apply P; [reflexivity|rewrite DFT_length; apply windowed_length|].
  split; [rewrite wframe_length, windowed_length; reflexivity|]. rewrite windowed_length. intros i Hi. apply wframe_near. exact Hi.
Qed.
Lemma frame_back k : near_list ((1 + u) * q1 * q2) (fun _ => a2 * (INR n * a1) * norm1 (windowed signal window (k * hop))) (windowed signal window (k * hop)) (f2 (f1 (wframe (F := G) signal window (k * hop)))).
Proof.
  pose proof (fun r S => @acc_near n f2 IDFT q2 a2 r S (DFT (windowed signal window (k * hop))) (f1 (wframe (F := G) signal window (k * hop))) A2) as P.
  specialize (P _ _ ltac:(rewrite DFT_length; apply windowed_length) ltac:(rewrite IDFT_length, DFT_length; apply windowed_length) (frame_near k)).
  rewrite IDFT_DFT, rsum_const' in P. destruct P as [P1 P2]. split; [exact P1|]. intros i Hi. specialize (P2 i Hi). cbn beta in *.
  replace (a2 * (INR n * a1) * norm1 (windowed signal window (k * hop))) with (a2 * (INR n * (a1 * norm1 (windowed signal window (k * hop))))) by ring. exact P2.
Qed.
Lemma sum_near K p : (0 < hop)%nat -> 1 <= (1 + u) * q1 * q2 ->
  rnear ((1 + u) * q1 * q2 * (1 + u) * (1 + u) ^ overlaps hop n) (a2 * (INR n * a1) * mass signal window hop K p) (nth p signal 0 * energy window hop K p)
    (ola (F := G) (gsig (F := G) window (tab K (fun k => f2 (f1 (wframe (F := G) signal window (k * hop)))))) n hop p K 0).
Proof.
  intros Hh Hq. pose proof (r_u HG) as Hu.
  - pose proof (@ola_near (fun k j => nth j window 0 * nth (k * hop + j) signal 0 * nth j window 0) (gsig (F := G) window (tab K (fun k => f2 (f1 (wframe (F := G) signal window (k * hop))))))
      (fun k j => a2 * (INR n * a1) * norm1 (windowed signal window (k * hop)) * Rabs (nth j window 0)) n hop p ((1 + u) * q1 * q2 * (1 + u)) K ltac:(nra)) as P.
    assert (P1 : forall k, (k < K)%nat -> covers hop n k p = true -> rnear ((1 + u) * q1 * q2 * (1 + u))
       (a2 * (INR n * a1) * norm1 (windowed signal window (k * hop)) * Rabs (nth (p - k * hop) window 0))
       (nth (p - k * hop) window 0 * nth (k * hop + (p - k * hop)) signal 0 * nth (p - k * hop) window 0)
       (gsig (F := G) window (tab K (fun k => f2 (f1 (wframe (F := G) signal window (k * hop))))) k (p - k * hop)%nat)).
    { intros k Hk Hc. unfold covers in Hc. apply andb_true_iff in Hc. destruct Hc as [E1 E2]. apply Nat.leb_le in E1. apply Nat.ltb_lt in E2.
      assert (Hj : (p - k * hop < n)%nat) by lia. unfold gsig. rewrite nth_tab by exact Hk. rewrite (r_zero HG).
      apply rnear_mul_r. destruct (frame_back k) as [L1 L2]. rewrite windowed_length in L2. specialize (L2 _ Hj). apply near_re in L2.
      unfold at_ in L2. unfold windowed at 2 in L2. rewrite nth_tab in L2 by exact Hj.
      rewrite (nth_indep _ (czero (F := G)) C0); [exact L2|]. rewrite L1, windowed_length. exact Hj. }
    specialize (P P1 K (Nat.le_refl _)). cbn beta in P.
    assert (E1 : rsum K (fun k => if covers hop n k p then nth (p - k * hop) window 0 * nth (k * hop + (p - k * hop)) signal 0 * nth (p - k * hop) window 0 else 0) = nth p signal 0 * energy window hop K p).
    { unfold energy. rewrite <- rsum_scal. apply rsum_ext. intros k Hk. unfold covers. fold n.
      destruct (Nat.leb_spec (k * hop) p), (Nat.ltb_spec p (k * hop + n)); cbn [andb]; try ring. replace (k * hop + (p - k * hop))%nat with p by lia. ring. }
    assert (E2 : rsum K (fun k => if covers hop n k p then a2 * (INR n * a1) * norm1 (windowed signal window (k * hop)) * Rabs (nth (p - k * hop) window 0) else 0) = a2 * (INR n * a1) * mass signal window hop K p).
    { unfold mass. rewrite <- rsum_scal. apply rsum_ext. intros k Hk. fold n. destruct (covers hop n k p); ring. }
    rewrite E1, E2 in P. eapply rnear_mono; [exact P| |apply Rle_refl].
    apply Rmult_le_compat_l; [nra|]. apply Rle_pow; [lra|]. apply covered_count. exact Hh.
Qed.
End Prov.
Lemma energy_near window hop K p : (0 < hop)%nat ->
  rnear ((1 + u) * (1 + u) ^ overlaps hop (length window)) (energy window hop K p) (energy window hop K p) (ola (F := G) (gwin (F := G) window) (length window) hop p K 0).
Proof.
  intros Hh. pose proof (r_u HG) as Hu.
  pose proof (@ola_near (fun _ j => nth j window 0 * nth j window 0) (gwin (F := G) window) (fun _ j => nth j window 0 * nth j window 0) (length window) hop p (1 + u) K ltac:(lra)) as P.
  eapply rnear_mono; [apply P; [|apply Nat.le_refl]| |apply Rle_refl].
  - intros k Hk _. unfold gwin. rewrite (r_zero HG). set (w := nth (p - k * hop) window 0). split; [lra|].
    assert (Hw : Rabs (w * w) = w * w) by (apply Rabs_pos_eq, Rle_0_sqr). split; [lra|]. pose proof (r_mul HG w w) as Q. rewrite Hw in Q. lra.
  - apply Rmult_le_compat_l; [lra|]. apply Rle_pow; [lra|]. apply covered_count. exact Hh.
Qed.
(* the quotient *)
Lemma quot_near v vh e eh x Q S E : rnear Q S v vh -> rnear E e e eh -> v = x * e -> 0 < e * (2 - E) ->
  Rabs (@fdiv R G vh eh - x) <= (1 + u) * (((Q - 1) * S + (E - 1) * Rabs x * e) / (e * (2 - E))) + u * Rabs x.
Proof.
  intros (HQ & Hv1 & Hv2) (HE & He1 & He2) -> Hpos. pose proof (r_u HG) as Hu. pose proof (Rabs_pos e). pose proof (Rabs_pos x).
  assert (Heh : e * (2 - E) <= eh). { pose proof (Rle_abs (- (eh - e))) as P. rewrite Rabs_Ropp in P. lra. }
  assert (Hd : Rabs (vh / eh - x) <= ((Q - 1) * S + (E - 1) * Rabs x * e) / (e * (2 - E))).
  { replace (vh / eh - x) with ((vh - x * e - x * (eh - e)) / eh) by (field; lra).
    unfold Rdiv. rewrite Rabs_mult, (Rabs_pos_eq (/ eh)) by (left; apply Rinv_0_lt_compat; lra).
    assert (N : Rabs (vh - x * e - x * (eh - e)) <= (Q - 1) * S + (E - 1) * Rabs x * e).
    { eapply Rle_trans; [apply Rabs_triang|]. rewrite Rabs_Ropp, Rabs_mult. apply Rplus_le_compat; [exact Hv2|].
      replace ((E - 1) * Rabs x * e) with (Rabs x * ((E - 1) * e)) by ring. apply Rmult_le_compat_l; [assumption|exact He2]. }
    apply Rmult_le_compat; [apply Rabs_pos|left; apply Rinv_0_lt_compat; lra|exact N|]. apply Rinv_le_contravar; assumption. }
  pose proof (r_div HG vh (b := eh) ltac:(lra)) as Hq.
  assert (A : Rabs (vh / eh) <= Rabs x + Rabs (vh / eh - x)). { replace (vh / eh) with (x + (vh / eh - x)) at 1 by ring. apply Rabs_triang. }
  replace (@fdiv R G vh eh - x) with ((@fdiv R G vh eh - vh / eh) + (vh / eh - x)) by ring.
  eapply Rle_trans; [apply Rabs_triang|]. set (D := ((Q - 1) * S + (E - 1) * Rabs x * e) / (e * (2 - E))) in *. nra.
Qed.
End Lem.

(* ---------- theorems ---------- *)
(* Any transform of stated accuracy (steady2: it keeps computing f1 and f2): every frame is within
   ((1+u) q1 - 1) a1 sum |signal * window| of the exact DFT of the windowed samples. *)
Theorem C86_stft_error : forall (G : Float R) (u : R) (S : Type) (op : S -> list C -> exec (S * list C * rres)) s (f : list C -> list C) q a signal window hop frames,
  rounded G u -> (0 < hop)%nat -> (length signal <= hop * length frames)%nat -> steady op f (length window) s -> accurate (length window) f DFT q a ->
  exists s' ys, stft (F := G) op s signal window hop frames = Done (s', ys, ROk) /\ length ys = length frames /\
    forall k, (k < length frames)%nat -> within (((1 + u) * q - 1) * (a * norm1 (windowed signal window (k * hop)))) (nth k ys []) (DFT (windowed signal window (k * hop))).
Proof.
  intros G u S op s f q a signal window hop frames HG Hh Hf Hop A.
  destruct (@steady_runs R S op f (length window) s (tab (length frames) (fun k => wframe (F := G) signal window (k * hop))) Hop) as [s' H].
  - intros z Hz. destruct (A 1 (fun i => Cabs (at_ z i)) z z Hz Hz) as [A1 _]; [|exact A1]. intros i Hi. split; [lra|]. split; [apply Rle_refl|].
    replace (at_ z i -c at_ z i) with C0 by (unfold Csub, C0; f_equal; ring). rewrite Cabs_0. lra.
  - intros z Hz. unfold tab in Hz. apply in_map_iff in Hz. destruct Hz as (k & <- & _). apply wframe_length.
  - exists s'. rewrite map_tab in H. eexists. split; [apply stft_ok; [exact Hh|apply ceil_le; assumption|exact H]|]. rewrite tab_length. split; [reflexivity|].
    intros k Hk. rewrite nth_tab by exact Hk. apply near_within. apply (@frame_near G u HG f q a signal window hop A).
Qed.
Print Assumptions C86_stft_error.
(* Analysis followed by synthesis on the same object: where the exact window energy e clears the 1e-8
   threshold by the rounding of its computation, the output sample is the input sample up to
   (1+u) ((Q-1) A mass + (E-1) |x| e) / (e (2-E)) + u |x|
   with E = (1+u)^(m+1), Q = q1 q2 (1+u)^(m+2), m the overlap count and A = n a1 a2. *)
Theorem C86_roundtrip_error : forall (G : Float R) (X : FloatX R) (u : R) (S : Type) (op1 op2 : S -> list C -> exec (S * list C * rres)) s (f1 f2 : list C -> list C) q1 a1 q2 a2 signal window hop frames L scr,
  rounded G u -> compares X -> 0 <= eps8 (F := G) -> (0 < hop)%nat -> (length signal <= hop * length frames)%nat -> length scr = L -> steady2 op1 op2 f1 f2 (length window) s ->
  accurate (length window) f1 DFT q1 a1 -> accurate (length window) f2 IDFT q2 a2 ->
  exists s1 ys s2 fs o scr', stft (F := G) op1 s signal window hop frames = Done (s1, ys, ROk) /\
    istft (F := G) (X := X) op2 s1 ys window hop (repeat 0 L) scr = Done (s2, fs, o, scr', ROk) /\ length o = L /\
    forall p, (p < L)%nat ->
      let m := overlaps hop (length window) in let e := energy window hop (length frames) p in let E := (1 + u) ^ (m + 1) in let Q := q1 * q2 * (1 + u) ^ (m + 2) in
      eps8 (F := G) < e * (2 - E) ->
      Rabs (nth p o 0 - nth p signal 0) <= (1 + u) * (((Q - 1) * (INR (length window) * a1 * a2 * mass signal window hop (length frames) p) + (E - 1) * Rabs (nth p signal 0) * e) / (e * (2 - E))) + u * Rabs (nth p signal 0).
Proof.
  intros G X u S op1 op2 s f1 f2 q1 a1 q2 a2 signal window hop frames L scr HG HX H8 Hh Hf Hscr (P & Hs & HP) A1 A2.
  assert (Lf : forall f D q a z, accurate (length window) f D q a -> length z = length window -> length (f z) = length window).
  { intros f D q a z A Hz. destruct (A 1 (fun i => Cabs (at_ z i)) z z Hz Hz) as [L1 _]; [|exact L1]. intros i Hi. split; [lra|]. split; [apply Rle_refl|].
    replace (at_ z i -c at_ z i) with C0 by (unfold Csub, C0; f_equal; ring). rewrite Cabs_0. lra. }
  assert (Hrun : forall zs s, P s -> (forall z, In z zs -> length z = length window) ->
     (exists s', runs op1 s zs s' (map f1 zs) /\ P s') /\ (exists s', runs op2 s zs s' (map f2 zs) /\ P s')).
  { clear s Hs. induction zs as [|z zs IH]; intros s Hs Hz; cbn [map].
    - split; exists s; (split; [constructor|exact Hs]).
    - assert (Hlz : length z = length window) by (apply Hz; left; reflexivity). destruct (HP s z Hs Hlz) as [(s1 & E1 & H1) (s2 & E2 & H2)]. split.
      + destruct (IH s1 H1 (fun z Hi => Hz z (or_intror Hi))) as [(s' & Hr & Hp) _]. exists s'. split; [|exact Hp]. econstructor; [exact E1|rewrite Hlz; eapply Lf; eassumption|exact Hr].
      + destruct (IH s2 H2 (fun z Hi => Hz z (or_intror Hi))) as [_ (s' & Hr & Hp)]. exists s'. split; [|exact Hp]. econstructor; [exact E2|rewrite Hlz; eapply Lf; eassumption|exact Hr]. }
  set (zs := tab (length frames) (fun k => wframe (F := G) signal window (k * hop))).
  assert (Hzs : forall z, In z zs -> length z = length window).
  { intros z Hz. unfold zs, tab in Hz. apply in_map_iff in Hz. destruct Hz as (k & <- & _). apply wframe_length. }
  assert (Hz1 : forall z, In z (map f1 zs) -> length z = length window).
  { intros z Hz. apply in_map_iff in Hz. destruct Hz as (z0 & <- & Hz0). eapply Lf; [exact A1|apply Hzs, Hz0]. }
  destruct (Hrun zs s Hs Hzs) as [(s1 & H1 & P1) _].
  destruct (Hrun (map f1 zs) s1 P1 Hz1) as [_ (s2 & H2 & P2)].
  destruct (@istft_ok R G X S op2 window hop (map f1 zs) s1 s2 (map f2 (map f1 zs)) (repeat 0 L) scr Hh) as (scr' & Ei); [rewrite repeat_length; exact Hscr|exact H2|exact Hz1|].
  exists s1, (map f1 zs), s2, (map f2 (map f1 zs)). do 2 eexists. split; [|split; [exact Ei|split]].
  - apply stft_ok; [exact Hh|apply ceil_le; assumption|exact H1].
  - unfold istft_out. rewrite tab_length, repeat_length. reflexivity.
  - intros p Hp m e E Q He. unfold istft_out. rewrite repeat_length, nth_tab by exact Hp. rewrite (r_zero HG), nth_repeat.
    assert (EZ : map f2 (map f1 zs) = tab (length frames) (fun k => f2 (f1 (wframe (F := G) signal window (k * hop))))) by (unfold zs; rewrite !map_tab; reflexivity).
    rewrite EZ, tab_length.
    pose proof (@energy_near G u HG window hop (length frames) p Hh) as NE. fold e in NE.
    assert (EE : (1 + u) * (1 + u) ^ overlaps hop (length window) = E) by (unfold E; fold m; rewrite Nat.add_1_r; cbn [pow]; ring). rewrite EE in NE.
    assert (Hq : 1 <= (1 + u) * q1 * q2).
    { assert (F := @frame_back G u HG f1 f2 q1 a1 q2 a2 signal window hop A1 A2 0). destruct F as [_ F]. rewrite windowed_length in F.
      destruct (Nat.eq_0_gt_0_cases (length window)) as [E0|E0]; [|apply (F 0%nat E0)].
      exfalso. revert He. unfold e, energy. rewrite E0. assert (Z : rsum (length frames) (fun k => if (k * hop <=? p)%nat && (p <? k * hop + 0)%nat then nth (p - k * hop) window 0 * nth (p - k * hop) window 0 else 0) = rsum (length frames) (fun _ => 0)).
      { apply rsum_ext. intros k _. destruct (Nat.leb_spec (k * hop) p), (Nat.ltb_spec p (k * hop + 0)); cbn [andb]; try reflexivity; lia. }
      rewrite Z, rsum_const'. lra. }
    pose proof (@sum_near G u HG f1 f2 q1 a1 q2 a2 signal window hop A1 A2 (length frames) p Hh Hq) as NS.
    unfold normed.
    assert (Hlt : @fltb R X (eps8 (F := G)) (ola (F := G) (gwin (F := G) window) (length window) hop p (length frames) 0) = true).
    { apply HX. destruct NE as (_ & _ & NE). pose proof (Rle_abs (- (ola (F := G) (gwin (F := G) window) (length window) hop p (length frames) 0 - e))) as P3. rewrite Rabs_Ropp in P3. lra. }
    rewrite Hlt. pose proof (@quot_near G u HG _ _ _ _ (nth p signal 0) _ _ _ NS NE eq_refl ltac:(lra)) as F.
    eapply Rle_trans; [exact F|]. right. fold m. unfold Q. rewrite pow_add.
    replace (a2 * (INR (length window) * a1) * mass signal window hop (length frames) p) with (INR (length window) * a1 * a2 * mass signal window hop (length frames) p) by ring.
    replace ((1 + u) * q1 * q2 * (1 + u) * (1 + u) ^ m) with (q1 * q2 * ((1 + u) ^ m * (1 + u) ^ 2)) by ring. reflexivity.
Qed.
Print Assumptions C86_roundtrip_error.

(* ---------- the crate's transforms ---------- *)
Lemma IDFT_len n x : length x = n -> length (IDFT x) = n.
Proof. intros <-. apply IDFT_length. Qed.
Lemma DFT_len n x : length x = n -> length (DFT x) = n.
Proof. intros <-. apply DFT_length. Qed.
Section Acc.
Variables (G : Float R) (u d e : R) (c : cfg) (n : nat).
Hypothesis (HG : rounded G u) (Hd : 0 <= d).
Lemma acc_fft : is_pow2 n = true -> constants_within G n d -> twiddles_within G c n d ->
  accurate n (fft_fresh (F := G) c) DFT (bfly u d ^ Nat.log2 n) 1.
Proof.
  intros Hp HK Ht. apply acc_of; [|apply DFT_len]. intros r S x xh Hx N. subst n. assert (Hl : length xh = length x) by apply N.
  unfold fft_fresh. rewrite Hl, Hp. pose proof (@pow2fft_near G u HG c d Hd r S x xh (kern HK) Hp (tws Ht) N) as P. rewrite Rmult_1_l. exact P.
Qed.
Lemma acc_ifft : is_pow2 n = true -> constants_within G n d -> twiddles_within G c n d -> @fofnat R G n = INR n ->
  accurate n (ifft_fresh (F := G) c) IDFT (bfly u d ^ Nat.log2 n * (1 + u) ^ 2) (/ INR n).
Proof.
  intros Hp HK Ht Hf. apply acc_of; [|apply IDFT_len]. intros r S x xh Hx N. subst n.
  pose proof (@ifft_near G u HG c d Hd r S x xh (kern HK) Hp (tws Ht) Hf N) as P.
  cbn [pow]. rewrite Rmult_1_r, <- Rmult_assoc. exact P.
Qed.
Variable m : nat.
Hypothesis (Hs : c_std c = true) (Hn : (0 < n)%nat) (Hp : is_pow2 n = false) (Em : m = next_pow2 (2 * n - 1)) (HK : constants_within G m d) (Ht : twiddles_within G c m d)
  (He : 0 <= e) (Hc : chirp_within G n e) (Hf : @fofnat R G m = INR m).
Lemma acc_blue : accurate n (fft_fresh (F := G) c) DFT (((1 + e) * (1 + gamma u)) ^ 3 * (bfly u d ^ Nat.log2 m) ^ 3 * (1 + u) ^ 2) (2 * INR n - 1).
Proof.
  apply acc_of; [|apply DFT_len]. intros r S x xh Hx N. subst n m. assert (Hl : length xh = length x) by apply N.
  unfold fft_fresh. rewrite Hl, Hp. pose proof (@bluefft_near G u HG c d Hd r S x xh e (kern HK) Hn He Hc (tws Ht) Hf N) as P.
  eapply near_list_mono; [exact P|right; unfold bfly, QQ, gamma, gam, blue_m; ring|intros; apply Rle_refl].
Qed.
Lemma acc_iblue : @fofnat R G n = INR n ->
  accurate n (ifft_fresh (F := G) c) IDFT (((1 + e) * (1 + gamma u)) ^ 3 * (bfly u d ^ Nat.log2 m) ^ 3 * (1 + u) ^ 4) (2 - / INR n).
Proof.
  intros Hf2. apply acc_of; [|apply IDFT_len]. intros r S x xh Hx N. subst n m. assert (Hl : length xh = length x) by apply N.
  assert (H1 : (1 < length x)%nat). { destruct (Nat.eq_dec (length x) 1) as [E|]; [rewrite E in Hp; discriminate Hp|lia]. }
  assert (HnR : 0 < INR (length x)) by (apply lt_0_INR; exact Hn).
  unfold ifft_fresh. rewrite Hl. destruct (Nat.eqb_spec (length x) 1); [lia|]. unfold fft_fresh. rewrite map_length, Hl, Hp.
  pose proof (@bluefft_near G u HG c d Hd r S (map Cconj x) (map (cconj (F := G)) xh) e) as P. rewrite map_length in P.
  specialize (P (kern HK) Hn He Hc (tws Ht) Hf (near_list_conj HG N)).
  pose proof (@ifft_of_near G u HG (length x) _ _ x _ _ H1 eq_refl Hf2 eq_refl P) as P2.
  eapply near_list_mono; [exact P2|right; unfold bfly, QQ, gamma, gam, blue_m; ring|].
  intros i _. right. field. lra.
Qed.
End Acc.
(* scalar object after any calls no larger than the window, window a power of two long *)
Theorem C86_scalar_pow2 : forall (G : Float R) (X : FloatX R) (u d : R) (c : cfg) p signal window hop frames L scr,
  rounded G u -> compares X -> 0 <= eps8 (F := G) -> 0 <= d -> (0 < hop)%nat -> (length signal <= hop * length frames)%nat -> length scr = L -> upto (F := G) c (length window) p ->
  is_pow2 (length window) = true -> constants_within G (length window) d -> twiddles_within G c (length window) d -> @fofnat R G (length window) = INR (length window) ->
  exists s1 ys s2 fs o scr', stft (F := G) (fft (F := G) c) p signal window hop frames = Done (s1, ys, ROk) /\
    (forall k, (k < length frames)%nat -> within (((1 + u) * bfly u d ^ Nat.log2 (length window) - 1) * norm1 (windowed signal window (k * hop))) (nth k ys []) (DFT (windowed signal window (k * hop)))) /\
    istft (F := G) (X := X) (ifft (F := G) c) s1 ys window hop (repeat 0 L) scr = Done (s2, fs, o, scr', ROk) /\ length o = L /\
    forall p, (p < L)%nat ->
      let m := overlaps hop (length window) in let e := energy window hop (length frames) p in let E := (1 + u) ^ (m + 1) in let Q := bfly u d ^ (2 * Nat.log2 (length window)) * (1 + u) ^ (m + 4) in
      eps8 (F := G) < e * (2 - E) ->
      Rabs (nth p o 0 - nth p signal 0) <= (1 + u) * (((Q - 1) * mass signal window hop (length frames) p + (E - 1) * Rabs (nth p signal 0) * e) / (e * (2 - E))) + u * Rabs (nth p signal 0).
Proof.
  intros G X u d c p signal window hop frames L scr HG HX H8 Hd Hh Hf Hscr Hu Hp HK Ht Hi. set (n := length window) in *.
  assert (Hn : (0 < n)%nat). { destruct n; [discriminate Hp|lia]. }
  assert (HnR : 0 < INR n) by (apply lt_0_INR; exact Hn).
  pose proof (@scalar_steady2 R G c n p Hn (or_intror Hp) Hu) as S2.
  pose proof (@acc_fft G u d c n HG Hd Hp HK Ht) as A1. pose proof (@acc_ifft G u d c n HG Hd Hp HK Ht Hi) as A2.
  destruct (@C86_stft_error G u _ (fft (F := G) c) p _ _ _ signal window hop frames HG Hh Hf (steady2_l S2) A1) as (s' & ys' & E1 & _ & N1).
  destruct (@C86_roundtrip_error G X u _ (fft (F := G) c) (ifft (F := G) c) p _ _ _ _ _ _ signal window hop frames L scr HG HX H8 Hh Hf Hscr S2 A1 A2) as (s1 & ys & s2 & fs & o & scr' & E2 & E3 & Lo & N2).
  rewrite E1 in E2. injection E2 as <- <-. exists s', ys', s2, fs, o, scr'. split; [exact E1|]. split; [|split; [exact E3|split; [exact Lo|]]].
  - intros k Hk. specialize (N1 k Hk). rewrite Rmult_1_l in N1. exact N1.
  - intros q Hq m e E Q He. specialize (N2 q Hq He). fold n m e E in N2. unfold Q.
    replace (INR n * 1 * / INR n * mass signal window hop (length frames) q) with (mass signal window hop (length frames) q) in N2 by (field; lra).
    replace (bfly u d ^ Nat.log2 n * (bfly u d ^ Nat.log2 n * (1 + u) ^ 2) * (1 + u) ^ (m + 2)) with (bfly u d ^ (2 * Nat.log2 n) * (1 + u) ^ (m + 4)) in N2; [exact N2|].
    replace (2 * Nat.log2 n)%nat with (Nat.log2 n + Nat.log2 n)%nat by lia. replace (m + 4)%nat with (2 + (m + 2))%nat by lia. rewrite !pow_add. ring.
Qed.
Print Assumptions C86_scalar_pow2.
(* the same for windows of any other length (Bluestein) *)
Theorem C86_scalar_other : forall (G : Float R) (X : FloatX R) (u d e0 : R) (c : cfg) p signal window hop frames L scr (M : nat),
  rounded G u -> compares X -> 0 <= eps8 (F := G) -> 0 <= d -> 0 <= e0 -> (0 < hop)%nat -> (length signal <= hop * length frames)%nat -> length scr = L -> upto (F := G) c (length window) p ->
  c_std c = true -> (0 < length window)%nat -> is_pow2 (length window) = false -> M = next_pow2 (2 * length window - 1) -> constants_within G M d -> twiddles_within G c M d -> chirp_within G (length window) e0 ->
  @fofnat R G M = INR M -> @fofnat R G (length window) = INR (length window) ->
  exists s1 ys s2 fs o scr', stft (F := G) (fft (F := G) c) p signal window hop frames = Done (s1, ys, ROk) /\
    istft (F := G) (X := X) (ifft (F := G) c) s1 ys window hop (repeat 0 L) scr = Done (s2, fs, o, scr', ROk) /\ length o = L /\
    forall p, (p < L)%nat ->
      let m := overlaps hop (length window) in let e := energy window hop (length frames) p in let E := (1 + u) ^ (m + 1) in
      let Q := (((1 + e0) * (1 + gamma u)) ^ 3 * (bfly u d ^ Nat.log2 M) ^ 3) ^ 2 * (1 + u) ^ (m + 8) in
      eps8 (F := G) < e * (2 - E) ->
      Rabs (nth p o 0 - nth p signal 0) <= (1 + u) * (((Q - 1) * ((2 * INR (length window) - 1) ^ 2 * mass signal window hop (length frames) p) + (E - 1) * Rabs (nth p signal 0) * e) / (e * (2 - E))) + u * Rabs (nth p signal 0).
Proof.
  intros G X u d e0 c p signal window hop frames L scr M HG HX H8 Hd He0 Hh Hf Hscr Hu Hs Hn Hp EM HK Ht Hc HfM Hi. set (n := length window) in *.
  assert (HnR : 0 < INR n) by (apply lt_0_INR; exact Hn).
  pose proof (@scalar_steady2 R G c n p Hn (or_introl Hs) Hu) as S2.
  pose proof (@acc_blue G u d e0 c n HG Hd M Hn Hp EM HK Ht He0 Hc HfM) as A1. pose proof (@acc_iblue G u d e0 c n HG Hd M Hn Hp EM HK Ht He0 Hc HfM Hi) as A2.
  destruct (@C86_roundtrip_error G X u _ (fft (F := G) c) (ifft (F := G) c) p _ _ _ _ _ _ signal window hop frames L scr HG HX H8 Hh Hf Hscr S2 A1 A2) as (s1 & ys & s2 & fs & o & scr' & E2 & E3 & Lo & N2).
  exists s1, ys, s2, fs, o, scr'. split; [exact E2|]. split; [exact E3|]. split; [exact Lo|].
  intros q Hq m e E Q He. specialize (N2 q Hq He). fold n m e E in N2. unfold Q.
  replace (INR n * (2 * INR n - 1) * (2 - / INR n) * mass signal window hop (length frames) q) with ((2 * INR n - 1) ^ 2 * mass signal window hop (length frames) q) in N2 by (field; lra).
  match type of N2 with context [?a * (1 + u) ^ (m + 2)] => replace (a * (1 + u) ^ (m + 2)) with ((((1 + e0) * (1 + gamma u)) ^ 3 * (bfly u d ^ Nat.log2 M) ^ 3) ^ 2 * (1 + u) ^ (m + 8)) in N2; [exact N2|] end.
  replace (m + 8)%nat with (2 + (4 + (m + 2)))%nat by lia. rewrite !(pow_add (1 + u)). ring.
Qed.
Print Assumptions C86_scalar_other.

(* ---------- binary floating point ---------- *)
Lemma compares_RX : compares RX.
Proof. intros a b. cbn [fltb RX]. destruct (Rlt_dec a b); split; intros; congruence || assumption. Qed.
Lemma eps8_flx prec : threshold * (1 - / 16777216) <= eps8 (F := flx prec) <= threshold * (1 + / 16777216).
Proof.
  unfold eps8. cbn [flit flx]. replace (Q2R (1 # 100000000)) with threshold by (unfold Q2R, threshold; cbn; lra).
  pose proof (r24_err threshold) as P. rewrite (Rabs_pos_eq threshold) in P by (unfold threshold; lra).
  pose proof (Rle_abs (r24 threshold - threshold)). pose proof (Rle_abs (- (r24 threshold - threshold))) as P2. rewrite Rabs_Ropp in P2. lra.
Qed.
Lemma overlaps_le hop wl : (0 < hop)%nat -> (overlaps hop wl <= wl)%nat.
Proof.
  intros H. unfold overlaps. destruct wl as [|w]; [rewrite Nat.div_small by lia; lia|].
  assert ((S w + hop - 1) / hop < S w + 1)%nat; [|lia]. apply Nat.div_lt_upper_bound; nia.
Qed.
Lemma energy_pos window hop K p : 0 <= energy window hop K p.
Proof. unfold energy. apply rsum_pos. intros k _. destruct (_ && _); [apply Rle_0_sqr|lra]. Qed.
Lemma mass_pos signal window hop K p : 0 <= mass signal window hop K p.
Proof.
  unfold mass. apply rsum_pos. intros k _. destruct (covers _ _ _ _); [|lra]. apply Rmult_le_pos; [|apply Rabs_pos].
  unfold norm1. apply rsum_pos. intros; apply Cabs_nonneg.
Qed.
(* f32 and f64, every window a power of two from 32 long, every hop: wherever the window energy is 1%
   above the threshold, analysis followed by synthesis returns the sample up to
   23 n log2 n 2^-prec (mass / energy + |sample|); every frame is within 11 n log2 n 2^-prec of its DFT *)
Theorem C86_float_roundtrip_error : forall (prec : Z) (c : cfg) pl signal window hop frames L scr, (24 <= prec)%Z -> c_precomp c = false \/ prec = 24%Z \/ prec = 53%Z ->
  (32 <= length window)%nat -> is_pow2 (length window) = true -> 100 * INR (length window) * INR (Nat.log2 (length window)) <= bpow radix2 prec ->
  (0 < hop)%nat -> (length signal <= hop * length frames)%nat -> length scr = L -> upto (F := flx prec) c (length window) pl ->
  exists s1 ys s2 fs o scr', stft (F := flx prec) (fft (F := flx prec) c) pl signal window hop frames = Done (s1, ys, ROk) /\
    (forall k, (k < length frames)%nat -> within (11 * INR (length window) * INR (Nat.log2 (length window)) * bpow radix2 (- prec) * norm1 (windowed signal window (k * hop))) (nth k ys []) (DFT (windowed signal window (k * hop)))) /\
    istft (F := flx prec) (X := RX) (ifft (F := flx prec) c) s1 ys window hop (repeat 0 L) scr = Done (s2, fs, o, scr', ROk) /\ length o = L /\
    forall p, (p < L)%nat -> 101 / 100 * threshold <= energy window hop (length frames) p ->
      Rabs (nth p o 0 - nth p signal 0) <= 23 * INR (length window) * INR (Nat.log2 (length window)) * bpow radix2 (- prec) *
        (mass signal window hop (length frames) p / energy window hop (length frames) p + Rabs (nth p signal 0)).
Proof.
  intros prec c pl signal window hop frames L scr Hprec Hc Hn Hp Hb100 Hh Hf Hscr Hu. set (n := length window) in *.
  pose proof (nR Hn) as HnR. pose proof (log5 Hn) as HL.
  assert (Hb : 11 * INR n * INR (Nat.log2 n) <= bpow radix2 prec) by nra.
  pose proof (uu_pos prec) as Hv. pose proof (uu_small Hprec) as Hv2.
  assert (Hd : 0 <= dd prec n) by (unfold dd; nra).
  assert (HB : 100 * INR n * INR (Nat.log2 n) * uu prec <= 1).
  { unfold uu. rewrite bpow_opp. pose proof (bpow_gt_0 radix2 prec).
    apply Rmult_le_reg_r with (bpow radix2 prec); [assumption|]. rewrite Rmult_assoc, Rinv_l by lra. lra. }
  assert (H8 : 0 <= eps8 (F := flx prec)). { pose proof (eps8_flx prec). unfold threshold in *. lra. }
  assert (HK : constants_within (flx prec) n (dd prec n)) by (intros H; lia).
  destruct (@C86_scalar_pow2 (flx prec) RX (uu prec) (dd prec n) c pl signal window hop frames L scr (flx_rounded Hprec) compares_RX H8 Hd Hh Hf Hscr Hu Hp HK
     (@flx_tw prec Hprec c n Hc Hn Hp Hb) (@fofnat_pow2 prec n Hp)) as (s1 & ys & s2 & fs & o & scr' & E1 & N1 & E2 & Lo & N2).
  fold n in N1, N2. exists s1, ys, s2, fs, o, scr'. split; [exact E1|]. fold (uu prec). set (v := uu prec) in *.
  set (w := INR n * INR (Nat.log2 n)) in *. assert (V : 160 <= w) by (unfold w; nra). assert (Wn : 5 * INR n <= w) by (unfold w; nra).
  replace (11 * INR n * INR (Nat.log2 n) * v) with (11 * w * v) by (unfold w; ring).
  replace (23 * INR n * INR (Nat.log2 n) * v) with (23 * w * v) by (unfold w; ring).
  replace (100 * INR n * INR (Nat.log2 n) * v) with (100 * (w * v)) in HB by (unfold w; ring).
  assert (HVw : 160 * v <= w * v) by nra.
  split; [|split; [exact E2|split; [exact Lo|]]].
  - intros k Hk. destruct (N1 k Hk) as [L1 N]. split; [exact L1|]. intros i Hi. eapply Rle_trans; [apply N; exact Hi|].
    apply Rmult_le_compat_r; [unfold norm1; apply rsum_pos; intros; apply Cabs_nonneg|].
    pose proof (@flx_bfly prec Hprec n Hn Hb (Nat.log2 n)) as Q. fold v in Q.
    replace (11 * INR n * INR (Nat.log2 n) * v) with (11 * (w * v)) in Q by (unfold w; ring).
    replace (10.8 * INR n * INR (Nat.log2 n) * v) with (10.8 * (w * v)) in Q by (unfold w; lra). specialize (Q ltac:(lra)).
    set (B := bfly v (dd prec n) ^ Nat.log2 n) in *. replace (11 * w * v) with (11 * (w * v)) by ring. set (t := w * v) in *.
    apply Rle_trans with ((1 + v) * (1 + 10.8 * t) - 1); [apply Rplus_le_compat_r; apply Rmult_le_compat_l; lra|].
    assert (v * t <= v * / 100) by (apply Rmult_le_compat_l; lra). lra.
  - intros p Hp2 He. specialize (N2 p Hp2). cbv zeta in N2.
    set (m := overlaps hop n) in *. set (e := energy window hop (length frames) p) in *. set (E := (1 + v) ^ (m + 1)) in *.
    set (Q := bfly v (dd prec n) ^ (2 * Nat.log2 n) * (1 + v) ^ (m + 4)) in *. set (M := mass signal window hop (length frames) p) in *. set (x := nth p signal 0) in *.
    assert (Hm : INR m <= INR n) by (apply le_INR, overlaps_le; exact Hh). pose proof (pos_INR m) as Hm0.
    assert (PE : forall k, (k <= 4)%nat -> (1 + v) ^ (m + k) <= 1 + 0.45 * (w * v)).
    { intros k Hk. assert (HkR : INR k <= 4) by (replace 4 with (INR 4) by (cbn; lra); apply le_INR; exact Hk).
      assert (A : INR (m + k) <= 0.225 * w) by (rewrite plus_INR; lra).
      assert (A2 : INR (m + k) * v <= 0.225 * (w * v)) by nra.
      eapply Rle_trans; [apply pow_linear; lra|]. lra. }
    pose proof (PE 1%nat ltac:(lia)) as HE. fold E in HE. pose proof (PE 4%nat ltac:(lia)) as HE4.
    assert (EM : INR (2 * Nat.log2 n) = 2 * INR (Nat.log2 n)) by (rewrite mult_INR; cbn [INR]; ring).
    pose proof (@flx_bfly prec Hprec n Hn Hb (2 * Nat.log2 n)%nat) as HQ. rewrite EM in HQ. fold v in HQ.
    replace (11 * INR n * (2 * INR (Nat.log2 n)) * v) with (22 * (w * v)) in HQ by (unfold w; ring).
    replace (10.8 * INR n * (2 * INR (Nat.log2 n)) * v) with (21.6 * (w * v)) in HQ by (unfold w; lra). specialize (HQ ltac:(lra)).
    replace (23 * w * v) with (23 * (w * v)) by ring. set (t := w * v) in *. assert (Ht : 0 < t) by lra.
    assert (HBf : 1 <= bfly v (dd prec n)) by (apply (@QQ_ge1 (flx prec) v (flx_rounded Hprec) (dd prec n) Hd)).
    assert (HQt : Q <= 1 + 22.2 * t).
    { unfold Q. apply Rle_trans with ((1 + 21.6 * t) * (1 + 0.45 * t)).
      - apply Rmult_le_compat; [apply pow_le; lra|apply pow_le; lra|exact HQ|exact HE4].
      - assert (t * t <= t * / 100) by (apply Rmult_le_compat_l; lra). lra. }
    assert (HE1 : 1 <= E) by (apply pow_R1_Rle; lra).
    assert (HQ1 : 1 <= Q).
    { unfold Q. pose proof (pow_R1_Rle _ (2 * Nat.log2 n) HBf). pose proof (pow_R1_Rle (1 + v) (m + 4) ltac:(lra)). nra. }
    assert (He0 : 0 < e) by (unfold threshold in He; lra).
    assert (HM : 0 <= M) by apply mass_pos.
    pose proof (Rabs_pos x) as Hx.
    assert (H2E : 0.995 <= 2 - E) by lra.
    eapply Rle_trans; [apply N2|].
    + pose proof (eps8_flx prec). assert (e * 0.995 <= e * (2 - E)) by (apply Rmult_le_compat_l; lra). unfold threshold in *. lra.
    + assert (EQ : ((Q - 1) * M + (E - 1) * Rabs x * e) / (e * (2 - E)) = ((Q - 1) * (M / e) + (E - 1) * Rabs x) / (2 - E)) by (field; lra). rewrite EQ.
      assert (HMe : 0 <= M / e) by (apply Rmult_le_pos; [exact HM|left; apply Rinv_0_lt_compat; exact He0]). set (r := M / e) in *. set (y := Rabs x) in *.
      assert (D1 : ((Q - 1) * r + (E - 1) * y) / (2 - E) <= (22.2 * t * r + 0.45 * t * y) * 1.006).
      { unfold Rdiv. apply Rmult_le_compat.
        - apply Rplus_le_le_0_compat; apply Rmult_le_pos; lra.
        - left. apply Rinv_0_lt_compat. lra.
        - apply Rplus_le_compat; apply Rmult_le_compat_r; lra.
        - apply Rle_trans with (/ 0.995); [apply Rinv_le_contravar; lra|lra]. }
      apply Rle_trans with ((1 + v) * ((22.2 * t * r + 0.45 * t * y) * 1.006) + v * y).
      { apply Rplus_le_compat_r. apply Rmult_le_compat_l; [lra|exact D1]. }
      assert (R1 : 0 <= t * r) by nra. assert (R2 : 0 <= t * y) by nra. assert (R3 : 160 * (v * y) <= t * y) by nra.
      assert (R4 : v * (t * r) <= / 16777216 * (t * r)) by (apply Rmult_le_compat_r; lra).
      assert (R5 : v * (t * y) <= / 16777216 * (t * y)) by (apply Rmult_le_compat_r; lra).
      lra.
Qed.
Print Assumptions C86_float_roundtrip_error.
(* f32, 512-point windows: the condition of the theorem holds *)
Example C86_f32_512 : forall signal window frames L scr, length window = 512%nat -> (length signal <= 128 * length frames)%nat -> length scr = L ->
  exists s1 ys s2 fs o scr', stft (F := flx 24) (fft (F := flx 24) (cfg_std F32)) new_planner signal window 128 frames = Done (s1, ys, ROk) /\
    istft (F := flx 24) (X := RX) (ifft (F := flx 24) (cfg_std F32)) s1 ys window 128 (repeat 0 L) scr = Done (s2, fs, o, scr', ROk) /\
    forall p, (p < L)%nat -> 101 / 100 * threshold <= energy window 128 (length frames) p ->
      Rabs (nth p o 0 - nth p signal 0) <= 7 / 1000 * (mass signal window 128 (length frames) p / energy window 128 (length frames) p + Rabs (nth p signal 0)).
Proof.
  intros signal window frames L scr Hw Hf Hs.
  assert (E1 : INR (length window) = 512). { rewrite Hw, INR_IZR_INZ. reflexivity. }
  assert (E2 : INR (Nat.log2 (length window)) = 9). { rewrite Hw. replace (Nat.log2 512) with 9%nat by reflexivity. rewrite INR_IZR_INZ. reflexivity. }
  assert (EB : bpow radix2 24 = 16777216) by reflexivity.
  destruct (@C86_float_roundtrip_error 24 (cfg_std F32) new_planner signal window 128 frames L scr ltac:(lia) (or_intror (or_introl eq_refl))) as (s1 & ys & s2 & fs & o & scr' & A1 & _ & A2 & _ & N).
  - rewrite Hw. lia.
  - rewrite Hw. reflexivity.
  - rewrite E1, E2, EB. lra.
  - lia.
  - exact Hf.
  - exact Hs.
  - apply upto_new.
  - exists s1, ys, s2, fs, o, scr'. split; [exact A1|]. split; [exact A2|]. intros p Hp He. eapply Rle_trans; [apply N; assumption|].
    apply Rmult_le_compat_r.
    + apply Rplus_le_le_0_compat; [|apply Rabs_pos]. apply Rmult_le_pos; [apply mass_pos|]. left. apply Rinv_0_lt_compat. unfold threshold in He. lra.
    + rewrite E1, E2, bpow_opp, EB. lra.
Qed.

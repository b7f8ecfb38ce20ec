(* Property C106: analysis followed by synthesis (stft, istft) in IEEE binary32/binary64 arithmetic. *)
From Coq Require Import Reals Lra Lia ZArith List Bool.
From Flocq Require Import Core BinarySingleNaN.
From Verif Require Import L_err L_flx L_pi L_ierr M_fft L_fft L_obj L_nd L_prov L_stft P_fft P_err P_ierr P_irerr P_stft P_serr P_istft L_ieee L_ieeex.
Import ListNotations.
Set Implicit Arguments.
Open Scope R_scope.

(* ---------- specification: P_istft.frame_of, P_stft.energy, P_serr.overlaps ---------- *)

(* ---------- proofs ---------- *)
Section Lem.
Variables (f : fmt) (o : libm f).
Local Notation G := (ieee o).
Local Notation fin := (fin (f := f)).
Local Notation val := (val (f := f)).
Local Notation u := (bpow radix2 (- precf f)).
(* adding up the frames covering sample p *)
Lemma ola_I (gh : nat -> nat -> num f) (g : nat -> nat -> R) wl hop p (dl rho m : R) Km : 0 <= dl -> 0 <= rho ->
  (forall k, (k < Km)%nat -> covers hop wl k p = true -> fin (gh k (p - k * hop)%nat) /\ Rabs (g k (p - k * hop)%nat) <= 1 /\ Rabs (val (gh k (p - k * hop)%nat) - g k (p - k * hop)%nat) <= dl) ->
  INR (length (filter (fun k => covers hop wl k p) (seq 0 Km))) <= m -> u * (m * (1 + dl + rho)) + etaf f <= rho -> m * (1 + dl + rho) <= maxf f ->
  forall K, (K <= Km)%nat -> let n := INR (length (filter (fun k => covers hop wl k p) (seq 0 K))) in
  let s := rsum K (fun k => if covers hop wl k p then g k (p - k * hop)%nat else 0) in
  fin (ola (F := G) gh wl hop p K (@fzero _ G)) /\ Rabs s <= n /\ Rabs (val (ola (F := G) gh wl hop p K (@fzero _ G)) - s) <= n * (dl + rho).
Proof.
  intros Hd Hr H Hm Hu Hx. induction K as [|K IH]; intros HK n s.
  - cbn in n, s. unfold n, s. cbn [ola]. split; [reflexivity|]. unfold val, L_ieee.val. cbn. rewrite Rminus_0_r, Rabs_R0. lra.
  - specialize (IH ltac:(lia)). cbv zeta in IH. destruct IH as (I1 & I2 & I3). unfold n, s. clear n s. cbn [rsum ola].
    change ((K * hop <=? p)%nat && (p <? K * hop + wl)%nat) with (covers hop wl K p).
    assert (EN : INR (length (filter (fun k => covers hop wl k p) (seq 0 (S K)))) = INR (length (filter (fun k => covers hop wl k p) (seq 0 K))) + (if covers hop wl K p then 1 else 0)).
    { rewrite seq_S, filter_app, app_length. cbn [filter plus Nat.add]. destruct (covers hop wl K p); cbn [length]; rewrite plus_INR; reflexivity. }
    assert (MN : INR (length (filter (fun k => covers hop wl k p) (seq 0 (S K)))) <= m).
    { eapply Rle_trans; [|exact Hm]. apply le_INR. clear - HK. replace Km with (S K + (Km - S K))%nat by lia. rewrite seq_app, filter_app, app_length. lia. }
    rewrite EN in *. set (n := INR (length (filter (fun k => covers hop wl k p) (seq 0 K)))) in *. assert (N0 : 0 <= n) by apply pos_INR.
    destruct (covers hop wl K p) eqn:Ec; [|rewrite !Rplus_0_r; split; [exact I1|split; assumption]].
    destruct (H K ltac:(lia) Ec) as (F & B & D). set (a := ola (F := G) gh wl hop p K (@fzero _ G)) in *. set (b := gh K (p - K * hop)%nat) in *. set (t := g K (p - K * hop)%nat) in *.
    set (s := rsum K (fun k => if covers hop wl k p then g k (p - k * hop)%nat else 0)) in *.
    assert (A : Rabs (val a + val b) <= m * (1 + dl + rho)).
    { replace (val a + val b) with ((val a - s) + s + ((val b - t) + t)) by ring.
      eapply Rle_trans; [apply Rabs_triang|]. eapply Rle_trans; [apply Rplus_le_compat; apply Rabs_triang|].
      apply Rle_trans with ((n + 1) * (1 + dl + rho)); [nra|]. apply Rmult_le_compat_r; lra. }
    destruct (@i_add _ _ _ _ _ _ _ (ieee_bounded o) a b I1 F ltac:(lra)) as [F2 E2]. split; [exact F2|]. split.
    + eapply Rle_trans; [apply Rabs_triang|]. lra.
    + replace (val (@fadd _ G a b) - (s + t)) with ((val (@fadd _ G a b) - (val a + val b)) + ((val a - s) + (val b - t))) by ring.
      eapply Rle_trans; [apply Rabs_triang|]. eapply Rle_trans; [apply Rplus_le_compat_l, Rabs_triang|]. unfold v0 in E2.
      assert (u * Rabs (val a + val b) <= u * (m * (1 + dl + rho))) by (apply Rmult_le_compat_l; [apply bpow_ge_0|exact A]). lra.
Qed.
Lemma eps8_ok : fin (eps8 (F := G)) /\ 9 / 1000000000 <= val (eps8 (F := G)) <= 11 / 1000000000.
Proof.
  set (a := Bdiv mode_NE (norm B32 1 0) (norm B32 100000000 0) : num B32).
  assert (P : L_ieee.fin a /\ 9 / 1000000000 <= L_ieee.val a <= 11 / 1000000000).
  { destruct (@SF_val B32 a false 11258999 (-50)) as [A B]; [vm_compute; reflexivity|]. split; [exact A|]. rewrite B. cbn [cond_Zopp]. change (bpow radix2 (-50)) with (/ 1125899906842624). lra. }
  destruct P as [P1 P2]. destruct (conv_ok f _ P1) as [F E]. unfold eps8. cbn [flit ieee Qnum Qden]. split; [exact F|]. change (norm B32 (Z.pos 100000000) 0) with (norm B32 100000000 0). fold a.
  unfold val, L_ieee.val. unfold L_ieee.val in E. rewrite E. exact P2.
Qed.
End Lem.
Section Frame.
Variables (f : fmt) (o : libm f) (c : cfg).
Local Notation G := (ieee o).
Local Notation fin := (fin (f := f)).
Local Notation val := (val (f := f)).
Local Notation u := (bpow radix2 (- precf f)).
(* one frame there and back *)
Lemma frame_back_I (s w : list (num f)) start S : accurate_trig o -> c_precomp c = false \/ accurate_tables o -> finite_reals s -> finite_reals w -> (32 <= length w)%nat -> is_pow2 (length w) = true ->
  30 * INR (length w) * INR (Nat.log2 (length w)) <= bpow radix2 (precf f) -> norm1 (frame_of s w start) <= S -> 1 <= S <= INR (length w) ->
  let z := ifft_fresh (F := G) c (fft_fresh (F := G) c (wframe (F := G) s w start)) in
  finite_signal z /\ length z = length w /\
  forall i, (i < length w)%nat -> Rabs (val (re (nthc (F := G) z i)) - nth i (real_values w) 0 * nth (start + i) (real_values s) 0) <= 31 * (INR (length w) * INR (Nat.log2 (length w)) * S * u).
Proof.
  intros HT Hc Hs Hw Hn Hp Hb HN HS z. destruct (@nums f _ 30 Hn ltac:(lra) Hb) as (HnR & HL & Hnb & _ & HV).
  pose proof (v0_pos f) as V0. pose proof (v0_small f) as V1. unfold v0 in HV, V0, V1. pose proof (etaf_pos f) as E0. pose proof (etaf_floor f) as EF.
  assert (HN3 : norm1 (frame_of s w start) <= bpow radix2 (emaxf f - 3)).
  { eapply Rle_trans; [exact HN|]. eapply Rle_trans; [apply HS|]. eapply Rle_trans; [exact Hnb|]. apply bpow_le. clear. destruct f; cbn; lia. }
  destruct (wframe_close o start Hs Hw HN3) as [Fx Cx]. destruct (frame_close o start Hs Hw Hnb HN3) as (A1 & _ & _). cbv zeta in A1.
  set (x := wframe (F := G) s w start) in *. assert (Lx : length x = length w) by apply wframe_length.
  destruct (@n_tiny f (INR (length w)) ltac:(lra)) as [T0 T1]. change (tiny f) with (floor_size f) in T0, T1.
  set (n := INR (length w)) in *. set (L := INR (Nat.log2 (length w))) in *.
  assert (EB : n * etaf f <= u). { assert (n * (2 * etaf f) <= n * (u * floor_size f)) by (apply Rmult_le_compat_l; lra). assert (u * (n * floor_size f) <= u * / 1000000) by (apply Rmult_le_compat_l; lra). lra. }
  assert (NX : norm1 (values x) <= 1.001 * S).
  { set (N := norm1 (frame_of s w start)) in *. assert (u * N <= u * S) by (apply Rmult_le_compat_l; lra). assert (u * S <= / 16777216 * S) by (apply Rmult_le_compat_r; lra). lra. }
  assert (NN : n * norm1 (values x) <= bpow radix2 (emaxf f - 2)).
  { apply Rle_trans with (bpow radix2 (precf f) * (2 * bpow radix2 (precf f))); [apply Rmult_le_compat; [lra|apply norm1_pos|lra|lra]|].
    change 2 with (bpow radix2 1). rewrite <- !bpow_plus. apply bpow_le. clear. destruct f; cbn; lia. }
  destruct (@C89_ieee_roundtrip f o c x HT Hc Fx) as (p1 & y1 & p2 & z1 & R1 & R2 & Fz & Wz); rewrite ?Lx; try assumption. rewrite Lx in Wz. fold n L in Wz.
  assert (Hn0 : (0 < length w)%nat) by lia.
  destruct (@scalar_steady2 _ G c (length w) (new_planner (T := num f)) Hn0 (or_intror Hp) (upto_new c (length w))) as (P & P0 & HP).
  destruct (HP _ x P0 Lx) as [(q1 & Q1 & P1) _]. rewrite R1 in Q1.
  assert (Y1 : y1 = fft_fresh (F := G) c x) by exact (f_equal (fun r => match r with Done (_, z, _) => z | _ => [] end) Q1).
  assert (E1 : p1 = q1) by exact (f_equal (fun r => match r with Done (p, _, _) => p | _ => p1 end) Q1).
  assert (Ly : length (fft_fresh (F := G) c x) = length w).
  { rewrite <- Lx. apply fft_fresh_length; [rewrite Lx; exact Hn0|rewrite Lx; right; exact Hp]. }
  destruct (HP _ (fft_fresh (F := G) c x) P1 Ly) as [_ (q2 & Q2 & _)]. rewrite <- E1, <- Y1, R2 in Q2.
  assert (Z1 : z1 = z).
  { unfold z. fold x. rewrite <- Y1. exact (f_equal (fun r => match r with Done (_, z, _) => z | _ => [] end) Q2). }
  rewrite Z1 in *. clearbody z. destruct Wz as [Wl Wz]. rewrite !values_length in Wl. rewrite Lx in Wl. split; [exact Fz|]. split; [exact Wl|].
  intros i Hi. specialize (Wz i). rewrite values_length, Lx in Wz. specialize (Wz Hi). specialize (Cx i Hi).
  assert (K : at_ (frame_of s w start) i = RtoC (nth i (real_values w) 0 * nth (start + i) (real_values s) 0)).
  { unfold frame_of, windowed. rewrite at_tab; [reflexivity|]. unfold real_values. rewrite map_length. exact Hi. }
  assert (B1 : Cabs (at_ (frame_of s w start) i) <= S).
  { eapply Rle_trans; [|exact HN]. unfold norm1. rewrite frame_length. clear - Hi. set (g := fun j => Cabs (at_ (frame_of s w start) j)). change (g i <= rsum (length w) g).
    assert (P : forall j, 0 <= g j) by (intros; apply Cabs_nonneg). clearbody g. induction (length w) as [|k IH]; [lia|]. cbn [rsum].
    destruct (Nat.eq_dec i k) as [->|]; [|specialize (IH ltac:(lia)); specialize (P k); lra].
    assert (0 <= rsum k g) by (apply rsum_pos; intros; apply P). lra. }
  assert (T : Cabs (at_ (values z) i -c at_ (frame_of s w start) i) <= 31 * (n * L * S * u)).
  { replace (at_ (values z) i -c at_ (frame_of s w start) i) with ((at_ (values z) i -c at_ (values x) i) +c (at_ (values x) i -c at_ (frame_of s w start) i)) by ring.
    eapply Rle_trans; [apply Cabs_tri|]. 
    assert (G1 : 30 * n * L * u * (norm1 (values x) + 2 * n * floor_size f) <= 30 * n * L * u * (1.002 * S)).
    { apply Rmult_le_compat_l; [|lra]. apply Rmult_le_pos; [|lra]. apply Rmult_le_pos; lra. }
    assert (W0 : 160 <= n * L) by nra. set (w0 := n * L) in *.
    assert (GE : 30 * n * L * u * (1.002 * S) = 30.06 * (w0 * (S * u))) by (unfold w0; lra). rewrite GE in G1.
    replace (31 * (w0 * S * u)) with (31 * (w0 * (S * u))) by ring.
    assert (SU : 0 <= S * u) by (apply Rmult_le_pos; lra). assert (160 * (S * u) <= w0 * (S * u)) by (apply Rmult_le_compat_r; lra).
    assert (u * Cabs (at_ (frame_of s w start) i) <= u * S) by (apply Rmult_le_compat_l; lra). assert (u * 1 <= u * S) by (apply Rmult_le_compat_l; lra).
    assert (etaf f <= n * etaf f) by nra. lra. }
  rewrite K in T. rewrite (values_at o) in T by lia. eapply Rle_trans; [|exact T].
  replace (val (re (nthc (F := G) z i)) - nth i (real_values w) 0 * nth (start + i) (real_values s) 0) with (re (cv val (nthc (F := G) z i) -c RtoC (nth i (real_values w) 0 * nth (start + i) (real_values s) 0))) by reflexivity.
  apply Rabs_re.
Qed.
End Frame.
(* the computed sums at one sample *)
Section Point.
Variables (f : fmt) (o : libm f) (c : cfg) (s w : list (num f)) (hop K : nat) (S : R).
Local Notation G := (ieee o).
Local Notation fin := (fin (f := f)).
Local Notation val := (val (f := f)).
Local Notation u := (bpow radix2 (- precf f)).
Hypotheses (HT : accurate_trig o) (Hc : c_precomp c = false \/ accurate_tables o) (Hs : finite_reals s) (Hw : finite_reals w) (Hn : (32 <= length w)%nat) (Hp : is_pow2 (length w) = true)
  (Hb : 30 * INR (length w) * INR (Nat.log2 (length w)) <= bpow radix2 (precf f)) (Bs : forall r, In r (real_values s) -> Rabs r <= 1) (Bw : forall r, In r (real_values w) -> Rabs r <= 1)
  (Hh : (0 < hop)%nat) (HN : forall k, (k < K)%nat -> norm1 (frame_of s w (k * hop)) <= S) (HS : 1 <= S <= INR (length w)).
Let n := INR (length w).
Let m := INR (overlaps hop (length w)).
Let Wt := n * INR (Nat.log2 (length w)) * S * u.
Let ys := tab K (fun k => ifft_fresh (F := G) c (fft_fresh (F := G) c (wframe (F := G) s w (k * hop)))).
Lemma unit_nth (l : list R) : (forall r, In r l -> Rabs r <= 1) -> forall i, Rabs (nth i l 0) <= 1.
Proof. intros H i. destruct (nth_in_or_default i l 0) as [D|D]; [apply H; exact D|rewrite D, Rabs_R0; lra]. Qed.
Lemma facts : 32 <= n /\ 1 <= m <= n /\ 0 < u /\ u <= / 16777216 /\ 0 < etaf f /\ 32 * etaf f <= u /\ 160 * u <= Wt /\ 5 * (n * S * u) <= Wt /\ 30 * Wt <= S /\ n <= bpow radix2 (precf f).
Proof.
  destruct (@nums f _ 30 Hn ltac:(lra) Hb) as (HnR & HL & Hnb & _ & HV).
  pose proof (v0_pos f) as V0. pose proof (v0_small f) as V1. unfold v0 in HV, V0, V1. pose proof (etaf_pos f) as E0. pose proof (etaf_floor f) as EF.
  destruct (@n_tiny f (INR (length w)) ltac:(lra)) as [T0 T1]. change (tiny f) with (floor_size f) in T0, T1. fold n in HnR, Hnb, HV, T0, T1.
  assert (M : 1 <= m <= n).
  { unfold m, n. change 1 with (INR 1). split; apply le_INR; unfold overlaps.
    - apply Nat.div_le_lower_bound; lia.
    - pose proof (Nat.div_mod (length w + hop - 1) hop ltac:(lia)). set (a := ((length w + hop - 1) / hop)%nat) in *. pose proof (Nat.mod_upper_bound (length w + hop - 1) hop ltac:(lia)). nia. }
  assert (EB : 32 * etaf f <= u).
  { assert (n * (2 * etaf f) <= n * (u * floor_size f)) by (apply Rmult_le_compat_l; lra). assert (u * (n * floor_size f) <= u * / 1000000) by (apply Rmult_le_compat_l; lra). nra. }
  assert (SU : u <= S * u) by (assert (1 * u <= S * u) by (apply Rmult_le_compat_r; lra); lra).
  set (L := INR (Nat.log2 (length w))) in *.
  assert (W2 : 5 * (n * S * u) <= Wt).
  { unfold Wt. fold L. replace (n * L * S * u) with (L * (n * S * u)) by ring. apply Rmult_le_compat_r; [|exact HL]. replace (n * S * u) with (n * (S * u)) by ring. apply Rmult_le_pos; lra. }
  split; [exact HnR|]. split; [exact M|]. split; [exact V0|]. split; [exact V1|]. split; [lra|]. split; [exact EB|]. split; [|split; [exact W2|split; [|exact Hnb]]].
  - assert (32 * u <= n * S * u); [|lra]. replace (n * S * u) with (n * (S * u)) by ring. apply Rmult_le_compat; lra.
  - unfold Wt. fold L. replace (30 * (n * L * S * u)) with (30 * (n * L) * u * S) by ring. assert (30 * (n * L) * u * S <= 1 * S) by (apply Rmult_le_compat_r; lra). lra.
Qed.
Lemma big_ok r : 0 <= r <= 8 * (n * n) -> r * 200000000 <= maxf f.
Proof.
  intros Hr. destruct facts as (_ & _ & _ & _ & _ & _ & _ & _ & _ & Hnb). pose proof facts as (H32 & _).
  eapply Rle_trans; [|eapply Rle_trans; [|apply maxf_big]; pose proof (bpow_gt_0 radix2 (emaxf f - 2)); instantiate (1 := bpow radix2 (emaxf f - 1)); lra].
  apply Rle_trans with (bpow radix2 (precf f) * bpow radix2 (precf f) * bpow radix2 31).
  - change (bpow radix2 31) with 2147483648. assert (n * n <= bpow radix2 (precf f) * bpow radix2 (precf f)) by (apply Rmult_le_compat; lra). lra.
  - rewrite <- !bpow_plus. apply bpow_le. clear. destruct f; cbn; lia.
Qed.
Lemma sum_pt p : let v := ola (F := G) (gsig (F := G) w ys) (length w) hop p K (@fzero _ G) in let e := energy (real_values w) hop K p in
  fin v /\ Rabs (val v - nth p (real_values s) 0 * e) <= m * (32 * Wt).
Proof.
  intros v e. destruct facts as (H32 & Hm & U0 & U1 & E0 & E1 & W1 & W2 & W3 & Hnb). assert (N2 : 32 * n <= n * n) by nra. assert (HSn : S <= n) by exact (proj2 HS).
  assert (W0 : 0 <= Wt) by lra. assert (NU : 0 < n * u) by (apply Rmult_lt_0_compat; lra).
  destruct (@ola_I f o (gsig (F := G) w ys) (fun k j => nth j (real_values w) 0 * nth (k * hop + j) (real_values s) 0 * nth j (real_values w) 0) (length w) hop p (31.1 * Wt) (0.9 * Wt) m K) with (K := K) as (A1 & A2 & A3); try lra.
  - intros k Hk Ec. unfold covers in Ec. apply andb_true_iff in Ec. destruct Ec as [C1 C2]. apply Nat.leb_le in C1. apply Nat.ltb_lt in C2.
    set (j := (p - k * hop)%nat). assert (Hj : (j < length w)%nat) by (unfold j; lia).
    destruct (@frame_back_I f o c s w (k * hop) S HT Hc Hs Hw Hn Hp Hb (HN Hk) HS) as (Fz & Lz & Dz). specialize (Dz j Hj). fold n Wt in Dz.
    pose proof (unit_nth _ Bw j) as B1. pose proof (unit_nth _ Bs (k * hop + j)%nat) as B2.
    unfold gsig, ys. rewrite nth_tab by exact Hk. set (z := ifft_fresh (F := G) c (fft_fresh (F := G) c (wframe (F := G) s w (k * hop)))) in *.
    change (nth j z (czero (F := G))) with (nthc (F := G) z j) in *.
    assert (Fr : fin (re (nthc (F := G) z j))) by (apply Fz, nth_In; lia). assert (Fw : fin (nth j w (@fzero _ G))) by (apply Hw, nth_In; exact Hj).
    pose proof (@rv_nth f w j Hj) as EW. change (B2R (nth j w (B754_zero false))) with (val (nth j w (@fzero _ G))) in EW. rewrite EW in *.
    set (a := re (nthc (F := G) z j)) in *. set (b := nth j w (@fzero _ G)) in *. set (t := nth (k * hop + j) (real_values s) 0) in *.
    assert (Bt : Rabs (val b * t) <= 1). { rewrite Rabs_mult. pose proof (Rabs_pos (val b)). pose proof (Rabs_pos t). nra. }
    assert (Ba : Rabs (val a) <= 1 + 31 * Wt). { replace (val a) with ((val a - val b * t) + val b * t) by ring. eapply Rle_trans; [apply Rabs_triang|]. lra. }
    assert (Bp : Rabs (val a * val b) <= 1 + 31 * Wt). { rewrite Rabs_mult. pose proof (Rabs_pos (val a)). pose proof (Rabs_pos (val b)). nra. }
    destruct (@i_mul _ _ _ _ _ _ _ (ieee_bounded o) a b Fr Fw) as [F1 D1].
    { pose proof (@big_ok (1 + 31 * Wt) ltac:(lra)) as Q. eapply Rle_trans; [exact Bp|]. lra. }
    split; [exact F1|]. split.
    + rewrite Rabs_mult. pose proof (Rabs_pos (val b * t)). pose proof (Rabs_pos (val b)). nra.
    + replace (val (@fmul _ G a b) - val b * t * val b) with ((val (@fmul _ G a b) - val a * val b) + (val a - val b * t) * val b) by ring.
      eapply Rle_trans; [apply Rabs_triang|]. rewrite (Rabs_mult (val a - val b * t)).
      assert (Rabs (val a - val b * t) * Rabs (val b) <= 31 * Wt * 1) by (apply Rmult_le_compat; try apply Rabs_pos; lra).
      unfold v0 in D1. assert (u * Rabs (val a * val b) <= u * (1 + 31 * Wt)) by (apply Rmult_le_compat_l; lra).
      assert (u * (31 * Wt) <= / 16777216 * (31 * Wt)) by (apply Rmult_le_compat_r; lra). lra.
  - apply le_INR. apply covered_count. exact Hh.
  - assert (Q : u * (m * (1 + 31.1 * Wt + 0.9 * Wt)) <= u * (n * (2.1 * S))) by (apply Rmult_le_compat_l; [lra|]; apply Rmult_le_compat; lra).
    replace (u * (n * (2.1 * S))) with (2.1 * (n * S * u)) in Q by ring. lra.
  - assert (Q : m * (1 + 31.1 * Wt + 0.9 * Wt) <= n * (2.1 * n)) by (apply Rmult_le_compat; lra). pose proof (@big_ok (n * (2.1 * n)) ltac:(lra)). lra.
  - apply Nat.le_refl.
  - fold v in A1, A3. split; [exact A1|].
    assert (ES : rsum K (fun k => if covers hop (length w) k p then nth (p - k * hop) (real_values w) 0 * nth (k * hop + (p - k * hop)) (real_values s) 0 * nth (p - k * hop) (real_values w) 0 else 0) = nth p (real_values s) 0 * e).
    { unfold e, energy. rewrite <- rsum_scal. apply rsum_ext. intros k Hk. unfold covers. assert (LW : length (real_values w) = length w) by (unfold real_values; apply map_length). rewrite LW.
      destruct (Nat.leb_spec (k * hop) p), (Nat.ltb_spec p (k * hop + length w)); cbn [andb]; try ring. replace (k * hop + (p - k * hop))%nat with p by lia. ring. }
    rewrite ES in A3. eapply Rle_trans; [exact A3|]. replace (31.1 * Wt + 0.9 * Wt) with (32 * Wt) by lra.
    apply Rmult_le_compat_r; [lra|]. apply le_INR. apply covered_count. exact Hh.
Qed.
Lemma energy_pt p : let q := ola (F := G) (gwin (F := G) w) (length w) hop p K (@fzero _ G) in let e := energy (real_values w) hop K p in
  fin q /\ Rabs (val q - e) <= 2.3 * (m * m * u) /\ Rabs e <= m.
Proof.
  intros q e. destruct facts as (H32 & Hm & U0 & U1 & E0 & E1 & W1 & W2 & W3 & Hnb). assert (N2 : 32 * n <= n * n) by nra. assert (HSn : S <= n) by exact (proj2 HS).
  assert (NU : 150 * (n * u) <= 1). { assert (0 <= n * u) by (apply Rmult_le_pos; lra). replace (n * S * u) with (n * u * S) in W2 by ring. assert (150 * (n * u) * S <= 1 * S) by lra. nra. }
  assert (MU : u <= m * u <= n * u). { split; [assert (1 * u <= m * u) by (apply Rmult_le_compat_r; lra); lra|apply Rmult_le_compat_r; lra]. }
  destruct (@ola_I f o (gwin (F := G) w) (fun k j => nth j (real_values w) 0 * nth j (real_values w) 0) (length w) hop p (1.1 * u) (1.2 * (m * u)) m K) with (K := K) as (A1 & A2 & A3); try lra.
  - intros k Hk Ec. unfold covers in Ec. apply andb_true_iff in Ec. destruct Ec as [C1 C2]. apply Nat.leb_le in C1. apply Nat.ltb_lt in C2.
    set (j := (p - k * hop)%nat). assert (Hj : (j < length w)%nat) by (unfold j; lia). pose proof (unit_nth _ Bw j) as B1.
    assert (Fw : fin (nth j w (@fzero _ G))) by (apply Hw, nth_In; exact Hj).
    pose proof (@rv_nth f w j Hj) as EW. change (B2R (nth j w (B754_zero false))) with (val (nth j w (@fzero _ G))) in EW. rewrite EW in *. unfold gwin. set (b := nth j w (@fzero _ G)) in *.
    assert (Bt : Rabs (val b * val b) <= 1). { rewrite Rabs_mult. pose proof (Rabs_pos (val b)). nra. }
    destruct (@i_mul _ _ _ _ _ _ _ (ieee_bounded o) b b Fw Fw) as [F1 D1].
    { pose proof (@big_ok 1 ltac:(lra)) as Q. eapply Rle_trans; [exact Bt|]. lra. }
    split; [exact F1|]. split; [exact Bt|]. unfold v0 in D1. assert (u * Rabs (val b * val b) <= u * 1) by (apply Rmult_le_compat_l; lra). lra.
  - apply le_INR. apply covered_count. exact Hh.
  - assert (Q : u * (m * (1 + 1.1 * u + 1.2 * (m * u))) = m * u + m * u * (1.1 * u + 1.2 * (m * u))) by ring. rewrite Q.
    assert (m * u * (1.1 * u + 1.2 * (m * u)) <= m * u * 0.1) by (apply Rmult_le_compat_l; lra). lra.
  - assert (Q : m * (1 + 1.1 * u + 1.2 * (m * u)) <= n * 2) by (apply Rmult_le_compat; lra). pose proof (@big_ok (n * 2) ltac:(lra)). lra.
  - apply Nat.le_refl.
  - fold q in A1, A3.
    assert (ES : rsum K (fun k => if covers hop (length w) k p then nth (p - k * hop) (real_values w) 0 * nth (p - k * hop) (real_values w) 0 else 0) = e).
    { unfold e, energy. assert (LW : length (real_values w) = length w) by (unfold real_values; apply map_length). rewrite LW. reflexivity. }
    rewrite ES in A2, A3. assert (CC : INR (length (filter (fun k => covers hop (length w) k p) (seq 0 K))) <= m) by (apply le_INR; apply covered_count; exact Hh).
    split; [exact A1|]. split; [|lra]. eapply Rle_trans; [exact A3|].
    apply Rle_trans with (m * (2.3 * (m * u))); [|right; ring]. apply Rmult_le_compat; try apply pos_INR; lra.
Qed.
(* the sample *)
Variable x : libx f.
Lemma normed_pt p : let r := normed (F := G) (X := ieeex x) (ola (F := G) (gsig (F := G) w ys) (length w) hop p K (@fzero _ G)) (ola (F := G) (gwin (F := G) w) (length w) hop p K (@fzero _ G)) in
  let e := energy (real_values w) hop K p in
  fin r /\ (5 * m * m * u <= e -> 3 / 100000000 <= e -> Rabs (val r - nth p (real_values s) 0) <= 66 * m * Wt / e).
Proof.
  intros r e. destruct facts as (H32 & Hm & U0 & U1 & E0 & E1 & W1 & W2 & W3 & Hnb). assert (N2 : 32 * n <= n * n) by nra. assert (HSn : S <= n) by exact (proj2 HS).
  destruct (sum_pt p) as [Fv Dv]. destruct (energy_pt p) as (Fq & Dq & Be). cbv zeta in Dv, Dq, Be. fold e in Dv, Dq, Be. unfold r, normed.
  set (v := ola (F := G) (gsig (F := G) w ys) (length w) hop p K (@fzero _ G)) in *. set (q := ola (F := G) (gwin (F := G) w) (length w) hop p K (@fzero _ G)) in *. cbv zeta in Fv, Fq. fold v in Fv. fold q in Fq.
  pose proof (unit_nth _ Bs p) as Bt. set (t := nth p (real_values s) 0) in *. destruct (eps8_ok o) as [F8 E8]. fold val in E8.
  assert (W0 : 0 <= Wt) by lra.
  assert (Bv : Rabs (val v) <= 2.1 * (n * n)).
  { replace (val v) with ((val v - t * e) + t * e) by ring. eapply Rle_trans; [apply Rabs_triang|]. rewrite (Rabs_mult t).
    assert (Rabs t * Rabs e <= 1 * m) by (apply Rmult_le_compat; try apply Rabs_pos; lra).
    assert (m * (32 * Wt) <= n * (1.07 * n)) by (apply Rmult_le_compat; lra). nra. }
  assert (CM : @fltb _ (ieeex x) (eps8 (F := G)) q = Rlt_bool (val (eps8 (F := G))) (val q)) by (cbn [fltb ieeex]; apply Bltb_correct; assumption).
  rewrite CM. destruct (Rlt_bool_spec (val (eps8 (F := G))) (val q)) as [HL|HL].
  - assert (Q0 : 0 < val q) by lra.
    assert (IQ : 0 < / val q <= 200000000).
    { split; [apply Rinv_0_lt_compat; exact Q0|]. apply Rle_trans with (/ (9 / 1000000000)); [apply Rinv_le_contravar; lra|]. lra. }
    assert (MQ : Rabs (val v / val q) <= maxf f).
    { unfold Rdiv. rewrite Rabs_mult, (Rabs_pos_eq (/ val q)) by lra. eapply Rle_trans; [|apply (@big_ok (2.1 * (n * n))); nra]. apply Rmult_le_compat; try apply Rabs_pos; lra. }
    destruct (@i_div _ _ _ _ _ _ _ (ieee_bounded o) v q Fv Fq ltac:(lra) MQ) as [F1 D1]. split; [exact F1|]. intros H1 H2. unfold v0 in D1.
    replace (5 * m * m * u) with (5 * (m * m * u)) in H1 by ring. set (mm := m * m * u) in *.
    assert (P0 : 0 < e) by lra. assert (QE : e / 2 <= val q). { pose proof (Rle_abs (- (val q - e))) as A. rewrite Rabs_Ropp in A. lra. }
    set (X := m * Wt / e). assert (XE : X * e = m * Wt) by (unfold X; field; lra).
    assert (Em : e <= m) by (pose proof (Rle_abs e); lra).
    assert (MW : 0 <= m * Wt) by (apply Rmult_le_pos; lra). assert (IE : 0 < / e) by (apply Rinv_0_lt_compat; exact P0). assert (X0 : 0 <= X) by (unfold X, Rdiv; apply Rmult_le_pos; lra).
    assert (MM : 5 * mm <= m * Wt).
    { unfold mm. assert (m * (5 * (m * u)) <= m * Wt); [|lra]. apply Rmult_le_compat_l; [lra|]. eapply Rle_trans; [|exact W2].
      assert (m * u <= n * u) by (apply Rmult_le_compat_r; lra). assert (n * u * 1 <= n * u * S) by (apply Rmult_le_compat_l; [apply Rmult_le_pos; lra|lra]). lra. }
    assert (UX : 160 * u <= X).
    { apply Rmult_le_reg_r with e; [exact P0|]. rewrite XE. apply Rle_trans with (160 * u * m); [apply Rmult_le_compat_l; lra|]. rewrite (Rmult_comm m). apply Rmult_le_compat_r; lra. }
    assert (D2 : Rabs (val v / val q - t) <= 65 * X).
    { replace (val v / val q - t) with (((val v - t * e) + t * (e - val q)) * / val q) by (field; lra). rewrite Rabs_mult, (Rabs_pos_eq (/ val q)) by lra.
      assert (N1 : Rabs ((val v - t * e) + t * (e - val q)) <= 32.5 * (X * e)).
      { eapply Rle_trans; [apply Rabs_triang|]. rewrite (Rabs_mult t), (Rabs_minus_sym e). assert (Rabs t * Rabs (val q - e) <= 1 * (2.3 * mm)) by (apply Rmult_le_compat; try apply Rabs_pos; lra).
        rewrite XE. replace (m * (32 * Wt)) with (32 * (m * Wt)) in Dv by ring. lra. }
      apply Rle_trans with (32.5 * (X * e) * (2 * / e)).
      - apply Rmult_le_compat; [apply Rabs_pos|lra|exact N1|]. apply Rle_trans with (/ (e / 2)); [apply Rinv_le_contravar; lra|]. right. field. lra.
      - right. assert (EI : e * / e = 1) by (apply Rinv_r; lra). apply eq_trans with (65 * X * (e * / e)); [lra|]. rewrite EI. ring. }
    assert (D3 : Rabs (val v / val q) <= 1 + 65 * X). { replace (val v / val q) with ((val v / val q - t) + t) by ring. eapply Rle_trans; [apply Rabs_triang|]. lra. }
    replace (66 * m * Wt / e) with (66 * X) by (unfold X; field; lra).
    replace (val (@fdiv _ G v q) - t) with ((val (@fdiv _ G v q) - val v / val q) + (val v / val q - t)) by ring.
    eapply Rle_trans; [apply Rabs_triang|]. assert (u * Rabs (val v / val q) <= u * (1 + 65 * X)) by (apply Rmult_le_compat_l; lra).
    assert (u * (65 * X) <= / 16777216 * (65 * X)) by (apply Rmult_le_compat_r; lra). lra.
  - split; [exact Fv|]. intros H1 H2. exfalso. replace (5 * m * m * u) with (5 * (m * m * u)) in H1 by ring. pose proof (Rle_abs (- (val q - e))) as A. rewrite Rabs_Ropp in A. lra.
Qed.
End Point.

(* ---------- theorems ---------- *)
(* Signal and window within [-1, 1], frames with |w_0 x_0| + ... at most S: stft followed by istft on the same new
   object gives finite samples only, and each is within 66 m n log2(n) S 2^-prec / e of the signal's, where e is the
   exact sum of the squared window values over the frames covering the sample, at least 5 m^2 2^-prec and 3e-8,
   and m the number of frames that can cover a sample. *)
Theorem C106_roundtrip : forall (f : fmt) (o : libm f) (x : libx f) (c : cfg) (signal window : list (num f)) hop frames L scr S,
  accurate_trig o -> c_precomp c = false \/ accurate_tables o -> finite_reals signal -> finite_reals window -> (32 <= length window)%nat -> is_pow2 (length window) = true ->
  30 * INR (length window) * INR (Nat.log2 (length window)) <= bpow radix2 (precf f) -> (0 < hop)%nat -> (length signal <= hop * length frames)%nat -> length scr = L ->
  (forall r, In r (real_values signal) -> Rabs r <= 1) -> (forall r, In r (real_values window) -> Rabs r <= 1) ->
  1 <= S <= INR (length window) -> (forall k, (k < length frames)%nat -> norm1 (frame_of signal window (k * hop)) <= S) ->
  exists s1 ys s2 fs out scr', stft (F := ieee o) (fft (F := ieee o) c) (new_planner (T := num f)) signal window hop frames = Done (s1, ys, ROk) /\
    istft (F := ieee o) (X := ieeex x) (ifft (F := ieee o) c) s1 ys window hop (repeat (B754_zero false) L) scr = Done (s2, fs, out, scr', ROk) /\
    length out = L /\ finite_reals out /\
    forall p, (p < L)%nat -> let m := INR (overlaps hop (length window)) in let e := energy (real_values window) hop (length frames) p in
      5 * m * m * bpow radix2 (- precf f) <= e -> 3 / 100000000 <= e ->
      Rabs (nth p (real_values out) 0 - nth p (real_values signal) 0) <= 66 * m * (INR (length window) * INR (Nat.log2 (length window)) * S * bpow radix2 (- precf f)) / e.
Proof.
  intros f o x c signal window hop frames L scr S HT Hc Hs Hw Hn Hp Hb Hh Hf Hscr Bs Bw HS HN.
  set (G := ieee o). set (f1 := fft_fresh (F := G) c). set (f2 := ifft_fresh (F := G) c).
  assert (Hn0 : (0 < length window)%nat) by lia.
  destruct (@scalar_steady2 _ G c (length window) (new_planner (T := num f)) Hn0 (or_intror Hp) (upto_new c (length window))) as (P & P0 & HP). fold f1 f2 in HP.
  assert (Lf : forall z, length z = length window -> length (f1 z) = length window /\ length (f2 z) = length window).
  { intros z Hz. rewrite <- Hz. apply fresh_length; rewrite Hz; [exact Hn0|right; exact Hp]. }
  assert (Hrun : forall zs s, P s -> (forall z, In z zs -> length z = length window) ->
     (exists s', runs (fft (F := G) c) s zs s' (map f1 zs) /\ P s') /\ (exists s', runs (ifft (F := G) c) s zs s' (map f2 zs) /\ P s')).
  { induction zs as [|z zs IH]; intros s Hs' Hz; cbn [map].
    - split; exists s; (split; [constructor|exact Hs']).
    - assert (Hlz : length z = length window) by (apply Hz; left; reflexivity). destruct (HP s z Hs' Hlz) as [(s1 & E1 & H1) (s2 & E2 & H2)]. split.
      + destruct (IH s1 H1 (fun z Hi => Hz z (or_intror Hi))) as [(s' & Hr & Hp') _]. exists s'. split; [|exact Hp']. econstructor; [exact E1|rewrite Hlz; apply Lf; exact Hlz|exact Hr].
      + destruct (IH s2 H2 (fun z Hi => Hz z (or_intror Hi))) as [_ (s' & Hr & Hp')]. exists s'. split; [|exact Hp']. econstructor; [exact E2|rewrite Hlz; apply Lf; exact Hlz|exact Hr]. }
  set (zs := tab (length frames) (fun k => wframe (F := G) signal window (k * hop))).
  assert (Hzs : forall z, In z zs -> length z = length window).
  { intros z Hz. unfold zs, tab in Hz. apply in_map_iff in Hz. destruct Hz as (k & <- & _). apply wframe_length. }
  assert (Hz1 : forall z, In z (map f1 zs) -> length z = length window).
  { intros z Hz. apply in_map_iff in Hz. destruct Hz as (z0 & <- & Hz0). apply Lf, Hzs, Hz0. }
  destruct (Hrun zs _ P0 Hzs) as [(s1 & H1 & P1) _].
  destruct (Hrun (map f1 zs) s1 P1 Hz1) as [_ (s2 & H2 & P2)].
  destruct (@istft_ok _ G (ieeex x) _ (ifft (F := G) c) window hop (map f1 zs) s1 s2 (map f2 (map f1 zs)) (repeat (B754_zero false) L) scr Hh) as (scr' & Ei); [rewrite repeat_length; exact Hscr|exact H2|exact Hz1|].
  assert (EZ : map f2 (map f1 zs) = tab (length frames) (fun k => f2 (f1 (wframe (F := G) signal window (k * hop))))) by (unfold zs; rewrite !map_tab; reflexivity).
  set (out := istft_out (F := G) (X := ieeex x) window hop (map f2 (map f1 zs)) (repeat (B754_zero false) L)).
  assert (PT : forall p, (p < L)%nat -> nth p out (B754_zero false) =
     normed (F := G) (X := ieeex x) (ola (F := G) (gsig (F := G) window (tab (length frames) (fun k => f2 (f1 (wframe (F := G) signal window (k * hop)))))) (length window) hop p (length frames) (@fzero _ G))
       (ola (F := G) (gwin (F := G) window) (length window) hop p (length frames) (@fzero _ G))).
  { intros p Hp'. unfold out, istft_out. rewrite repeat_length, nth_tab by exact Hp'. rewrite EZ, tab_length. change (@fzero _ G) with (B754_zero (prec := precf f) (emax := emaxf f) false) at 1. rewrite nth_repeat. reflexivity. }
  assert (LO : length out = L) by (unfold out, istft_out; rewrite tab_length, repeat_length; reflexivity).
  exists s1, (map f1 zs), s2, (map f2 (map f1 zs)), out, scr'. split; [|split; [exact Ei|split; [exact LO|split]]].
  - apply stft_ok; [exact Hh|apply ceil_le; assumption|exact H1].
  - intros a Ha. destruct (In_nth _ _ (B754_zero false) Ha) as (p & Hp' & <-). assert (Hq : (p < L)%nat) by exact (eq_ind _ (fun l => (p < l)%nat) Hp' _ LO). refine (eq_ind_r (fun a => is_finite a = true) _ (PT p Hq)).
    apply (@normed_pt f o c signal window hop (length frames) S HT Hc Hs Hw Hn Hp Hb Bs Bw Hh HN HS x p).
  - intros p Hp' m e H5 H3. rewrite rv_nth by exact (eq_ind_r (fun l => (p < l)%nat) Hp' LO). refine (eq_ind_r (fun a => Rabs (B2R a - _) <= _) _ (PT p Hp')).
    apply (@normed_pt f o c signal window hop (length frames) S HT Hc Hs Hw Hn Hp Hb Bs Bw Hh HN HS x p); assumption.
Qed.
Print Assumptions C106_roundtrip.
(* The streaming objects: StftStream delivers the frames one by one, IstftStream returns the samples hop by hop and the
   rest on flush; together they are the same samples. *)
Lemma stft_reach (T : Type) (F : Float T) (c : cfg) (signal window : list T) hop : forall frames idx p p' ys r, reachable c p ->
  stft_frames (fft c) signal window hop idx p frames = Done (p', ys, r) -> reachable c p'.
Proof.
  induction frames as [|fr rest IH]; intros idx p p' ys r Hp E; cbn [stft_frames] in E.
  - injection E as <- _ _. exact Hp.
  - destruct (load signal window (idx * hop) (resize fr (length window) czero)) as [x| |]; cbn [bind] in E; try discriminate E.
    destruct (@C05_fft_contract T F c p x Hp) as (p1 & y & E1 & _ & H1 & _). rewrite E1 in E. cbn [bind] in E. destruct (expected c (length x)); [|injection E as <- _ _; exact H1].
    destruct (stft_frames (fft c) signal window hop (idx + 1) p1 rest) as [[[p2 ys2] r2]| |] eqn:E2; cbn [bind] in E; try discriminate E. injection E as <- _ _. eapply IH; [exact H1|exact E2].
Qed.
Theorem C106_stream : forall (f : fmt) (o : libm f) (x : libx f) (c : cfg) (signal window : list (num f)) hop K outs S,
  accurate_trig o -> c_precomp c = false \/ accurate_tables o -> finite_reals signal -> finite_reals window -> (32 <= length window)%nat -> is_pow2 (length window) = true ->
  30 * INR (length window) * INR (Nat.log2 (length window)) <= bpow radix2 (precf f) -> (0 < hop <= length window)%nat -> (0 < K)%nat ->
  (length signal <= K * hop)%nat -> (forall k, (k < K)%nat -> (k * hop < length signal)%nat) -> length outs = K -> (forall fr, In fr outs -> length fr = length window) ->
  (forall r, In r (real_values signal) -> Rabs r <= 1) -> (forall r, In r (real_values window) -> Rabs r <= 1) ->
  1 <= S <= INR (length window) -> (forall k, (k < K)%nat -> norm1 (frame_of signal window (k * hop)) <= S) ->
  exists s1 ys st0 s2 st1 pieces st2 last, let out := (concat pieces ++ last)%list in
    next_frames (F := ieee o) (fft (F := ieee o) c) signal window hop 0 (new_planner (T := num f)) outs = Done (s1, map (fun y => (y, Ok true)) ys) /\
    istream_new (F := ieee o) (length window) hop window = Ok st0 /\
    push_all (F := ieee o) (X := ieeex x) (ifft (F := ieee o) c) s1 st0 ys = Done (s2, st1, map Ok pieces) /\
    flush (F := ieee o) (X := ieeex x) st1 = Done (st2, last) /\ length out = ((K - 1) * hop + length window)%nat /\ finite_reals out /\
    forall p, (p < length out)%nat -> let m := INR (overlaps hop (length window)) in let e := energy (real_values window) hop K p in
      5 * m * m * bpow radix2 (- precf f) <= e -> 3 / 100000000 <= e ->
      Rabs (nth p (real_values out) 0 - nth p (real_values signal) 0) <= 66 * m * (INR (length window) * INR (Nat.log2 (length window)) * S * bpow radix2 (- precf f)) / e.
Proof.
  intros f o x c signal window hop K outs S HT Hc Hs Hw Hn Hp Hb Hh HK Hl1 Hl2 Ho1 Ho2 Bs Bw HS HN.
  set (total := ((K - 1) * hop + length window)%nat).
  destruct (@C106_roundtrip f o x c signal window hop outs total (repeat (B754_zero false) total) S) as (s1 & ys & s2 & fs & out & scr' & E1 & E2 & L & F & H);
    rewrite ?Ho1; try assumption; try lia; [apply repeat_length|].
  rewrite Ho1 in H.
  destruct (@C33_streaming_equals_batch _ (ieee o) _ (fft (F := ieee o) c) (new_planner (T := num f)) signal window hop K outs outs [] s1 ys) as [_ N]; try assumption; try lia.
  { intros fr Hfr. rewrite app_nil_r in Hfr. apply Ho2. exact Hfr. }
  assert (Ly : length ys = K).
  { rewrite app_nil_r in N. assert (LS : length ys = length outs); [|lia]. revert E1. unfold stft. destruct (Nat.eqb_spec hop 0); [discriminate|]. destruct (div_ceil (length signal) hop) as [rq| |]; cbn [bind]; try discriminate.
    destruct (length outs <? rq)%nat; [discriminate|]. clear. generalize (new_planner (T := num f)) 0%nat ys. induction outs as [|fr rest IH]; intros p idx zs E; cbn [stft_frames] in E.
    - injection E as _ <-. reflexivity.
    - destruct (load _ _ _ _) as [a| |]; cbn [bind] in E; try discriminate E. destruct (fft _ _ _) as [[[p1 y] [|e]]| |]; cbn [bind] in E; try discriminate E.
      destruct (stft_frames _ _ _ _ _ _ rest) as [[[p2 ys2] r2]| |] eqn:E2; cbn [bind] in E; try discriminate E. injection E as <- <- ->. cbn [length]. f_equal. eapply IH. exact E2. }
  assert (R1 : reachable (F := ieee o) c s1).
  { revert E1. unfold stft. destruct (Nat.eqb_spec hop 0); [discriminate|]. destruct (div_ceil (length signal) hop) as [rq| |]; cbn [bind]; try discriminate.
    destruct (length outs <? rq)%nat; [discriminate|]. intros E1. eapply stft_reach; [|exact E1]. apply reachable_new. }
  destruct (@C36_stream_equals_batch _ (ieee o) (ieeex x) _ (ifft (F := ieee o) c) s1 ys window hop total s2 fs out (repeat (B754_zero false) total) scr') as (st0 & st1 & st2 & pieces & last & A1 & A2 & _ & A4 & _ & A6 & _).
  - apply C36_scalar_object; [exact (ieeex x)|exact R1].
  - lia.
  - lia.
  - rewrite Ly. reflexivity.
  - exact E2.
  - exists s1, ys, st0, s2, st1, pieces, st2, last. cbv zeta. rewrite A6. cbn [map] in N. rewrite !app_nil_r in N.
    split; [exact N|]. split; [exact A1|]. split; [exact A2|]. split; [exact A4|]. split; [exact L|]. split; [exact F|]. intros p Hp'. apply H. lia.
Qed.
Print Assumptions C106_stream.
Lemma ones_energy (w : list (num B64)) p : length (real_values w) = 1024%nat -> (forall i, (i < 1024)%nat -> nth i (real_values w) 0 = 1) -> (p < 4000)%nat -> 1 <= energy (real_values w) 256 16 p.
Proof.
  intros LW NW Hp.
  unfold energy. rewrite LW. set (g := fun k => if (k * 256 <=? p)%nat && (p <? k * 256 + 1024)%nat then nth (p - k * 256) (real_values w) 0 * nth (p - k * 256) (real_values w) 0 else 0).
      set (d := (p / 256)%nat). pose proof (Nat.div_mod p 256 ltac:(lia)) as DM. pose proof (Nat.mod_upper_bound p 256 ltac:(lia)) as DU. fold d in DM.
      assert (Hd : (d < 16)%nat) by lia.
      assert (G1 : g d = 1). { unfold g. destruct (Nat.leb_spec (d * 256) p); [|lia]. destruct (Nat.ltb_spec p (d * 256 + 1024)); [|lia]. cbn [andb]. rewrite NW by lia. ring. }
      assert (G0 : forall k, 0 <= g k). { intros k. unfold g. destruct (_ && _); [|lra]. apply Rle_0_sqr. }
      change (1 <= rsum 16 g). rewrite <- G1. clearbody g. clear - Hd G0. revert Hd. generalize 16%nat. intros n. induction n as [|n IH]; intros Hd; [lia|]. cbn [rsum].
      destruct (Nat.eq_dec d n) as [->|]; [|specialize (IH ltac:(lia)); specialize (G0 n); lra].
      assert (0 <= rsum n g) by (apply rsum_pos; intros; apply G0). lra.
Qed.
(* 4000 ones in f64 under a window of 1024 ones, hop 256, 16 frames: every sample comes back to within 10^-6 *)
Example C106_example : forall x : libx B64, exists s1 ys s2 fs out scr', stft (F := ieee (exact_libm B64)) (fft (F := ieee (exact_libm B64)) (cfg_std F64)) (new_planner (T := num B64))
    (repeat (norm B64 1 0) 4000) (repeat (norm B64 1 0) 1024) 256 (repeat [] 16) = Done (s1, ys, ROk) /\
  istft (F := ieee (exact_libm B64)) (X := ieeex x) (ifft (F := ieee (exact_libm B64)) (cfg_std F64)) s1 ys (repeat (norm B64 1 0) 1024) 256 (repeat (B754_zero false) 4000) (repeat (norm B64 1 0) 4000)
    = Done (s2, fs, out, scr', ROk) /\ length out = 4000%nat /\ finite_reals out /\ forall p, (p < 4000)%nat -> Rabs (nth p (real_values out) 0 - 1) <= / 1000000.
Proof.
  intros x. destruct (one_ok (exact_libm B64)) as [F1 V1]. cbn [fone ieee] in F1, V1.
  assert (FR : forall k, finite_reals (repeat (norm B64 1 0) k)) by (intros k a Ha; apply repeat_spec in Ha; subst a; exact F1).
  assert (BR : forall k r, In r (real_values (repeat (norm B64 1 0) k)) -> Rabs r <= 1).
  { intros k r Hr. unfold real_values in Hr. apply in_map_iff in Hr. destruct Hr as (a & <- & Ha). apply repeat_spec in Ha. subst a. unfold val in V1. rewrite V1, Rabs_R1. lra. }
  assert (NR : forall k i, (i < k)%nat -> nth i (real_values (repeat (norm B64 1 0) k)) 0 = 1).
  { intros k i Hi. assert (Hl : (i < length (real_values (repeat (norm B64 1 0) k)))%nat) by (unfold real_values; rewrite map_length, repeat_length; exact Hi).
    pose proof (nth_In _ 0 Hl) as Hr. unfold real_values in Hr at 2. apply in_map_iff in Hr. destruct Hr as (a & <- & Ha). apply repeat_spec in Ha. subst a. exact V1. }
  assert (L1 : length (repeat (norm B64 1 0) 4000) = 4000%nat) by apply repeat_length.
  assert (L2 : length (repeat (norm B64 1 0) 1024) = 1024%nat) by apply repeat_length.
  assert (L3 : length (repeat (@nil (cx (num B64))) 16) = 16%nat) by reflexivity.
  assert (E1 : INR 1024 = 1024) by (rewrite INR_IZR_INZ; reflexivity).
  assert (E2 : INR (Nat.log2 1024) = 10) by (change (Nat.log2 1024) with 10%nat; rewrite INR_IZR_INZ; reflexivity).
  assert (E3 : INR (overlaps 256 1024) = 4). { unfold overlaps. change (1024 + 256 - 1)%nat with (4 * 256 + 255)%nat. rewrite Nat.div_add_l by discriminate. rewrite Nat.div_small by (apply Nat.ltb_lt; reflexivity). cbn. lra. }
  pose proof (FR 4000%nat) as FS. pose proof (FR 1024%nat) as FW. pose proof (BR 4000%nat) as BS. pose proof (BR 1024%nat) as BW. pose proof (NR 4000%nat) as NS. pose proof (NR 1024%nat) as NW. clear FR BR NR.
  set (s := repeat (norm B64 1 0) 4000) in *. set (w := repeat (norm B64 1 0) 1024) in *. set (fr := repeat (@nil (cx (num B64))) 16) in *.
  assert (LW : length (real_values w) = 1024%nat) by (unfold real_values; rewrite map_length; exact L2).
  clearbody s w fr.
  destruct (@C106_roundtrip B64 (exact_libm B64) x (cfg_std F64) s w 256 fr 4000 s 1024 (C89_library B64) (or_intror (C89_tables B64)) FS FW) as (s1 & ys & s2 & fs & out & scr' & A1 & A2 & A3 & A4 & A5);
    rewrite ?L1, ?L2, ?L3, ?E1, ?E2; try assumption; try lia; try lra; try reflexivity.
  - change (bpow radix2 (precf B64)) with 9007199254740992. lra.
  - intros k Hk. rewrite <- E1, <- L2. apply frame_unit; assumption.
  - exists s1, ys, s2, fs, out, scr'. split; [exact A1|]. split; [exact A2|]. split; [exact A3|]. split; [exact A4|]. intros p Hp. specialize (A5 p Hp). cbv zeta in A5. rewrite L2, L3, E1, E2, E3, NS in A5 by exact Hp.
    assert (EN : 1 <= energy (real_values w) 256 16 p) by (apply ones_energy; assumption).
    set (e := energy (real_values w) 256 16 p) in *. change (bpow radix2 (- precf B64)) with (/ 9007199254740992) in A5. specialize (A5 ltac:(lra) ltac:(lra)).
    eapply Rle_trans; [exact A5|]. assert (0 < / e <= 1). { split; [apply Rinv_0_lt_compat; lra|]. rewrite <- Rinv_1. apply Rinv_le_contravar; lra. }
    unfold Rdiv. nra.
Qed.
(* the same signal through the two streaming objects *)
Example C106_stream_example : forall x : libx B64, exists s1 ys st0 s2 st1 pieces st2 last,
  next_frames (F := ieee (exact_libm B64)) (fft (F := ieee (exact_libm B64)) (cfg_std F64)) (repeat (norm B64 1 0) 4000) (repeat (norm B64 1 0) 1024) 256 0 (new_planner (T := num B64))
    (repeat (repeat (czero (F := ieee (exact_libm B64))) 1024) 16) = Done (s1, map (fun y => (y, Ok true)) ys) /\
  istream_new (F := ieee (exact_libm B64)) 1024 256 (repeat (norm B64 1 0) 1024) = Ok st0 /\
  push_all (F := ieee (exact_libm B64)) (X := ieeex x) (ifft (F := ieee (exact_libm B64)) (cfg_std F64)) s1 st0 ys = Done (s2, st1, map Ok pieces) /\
  flush (F := ieee (exact_libm B64)) (X := ieeex x) st1 = Done (st2, last) /\ finite_reals (concat pieces ++ last) /\
  forall p, (p < 4000)%nat -> Rabs (nth p (real_values (concat pieces ++ last)) 0 - 1) <= / 1000000.
Proof.
  intros x. destruct (one_ok (exact_libm B64)) as [F1 V1]. cbn [fone ieee] in F1, V1.
  assert (FR : forall k, finite_reals (repeat (norm B64 1 0) k)) by (intros k a Ha; apply repeat_spec in Ha; subst a; exact F1).
  assert (BR : forall k r, In r (real_values (repeat (norm B64 1 0) k)) -> Rabs r <= 1).
  { intros k r Hr. unfold real_values in Hr. apply in_map_iff in Hr. destruct Hr as (a & <- & Ha). apply repeat_spec in Ha. subst a. unfold val in V1. rewrite V1, Rabs_R1. lra. }
  assert (NR : forall k i, (i < k)%nat -> nth i (real_values (repeat (norm B64 1 0) k)) 0 = 1).
  { intros k i Hi. assert (Hl : (i < length (real_values (repeat (norm B64 1 0) k)))%nat) by (unfold real_values; rewrite map_length, repeat_length; exact Hi).
    pose proof (nth_In _ 0 Hl) as Hr. unfold real_values in Hr at 2. apply in_map_iff in Hr. destruct Hr as (a & <- & Ha). apply repeat_spec in Ha. subst a. exact V1. }
  assert (L1 : length (repeat (norm B64 1 0) 4000) = 4000%nat) by apply repeat_length.
  assert (L2 : length (repeat (norm B64 1 0) 1024) = 1024%nat) by apply repeat_length.
  assert (L3 : length (repeat (repeat (czero (F := ieee (exact_libm B64))) 1024) 16) = 16%nat) by apply repeat_length.
  assert (L4 : forall fr, In fr (repeat (repeat (czero (F := ieee (exact_libm B64))) 1024) 16) -> length fr = 1024%nat) by (intros fr Hfr; apply repeat_spec in Hfr; subst fr; apply repeat_length).
  assert (E1 : INR 1024 = 1024) by (rewrite INR_IZR_INZ; reflexivity).
  assert (E2 : INR (Nat.log2 1024) = 10) by (change (Nat.log2 1024) with 10%nat; rewrite INR_IZR_INZ; reflexivity).
  assert (E3 : INR (overlaps 256 1024) = 4). { unfold overlaps. change (1024 + 256 - 1)%nat with (4 * 256 + 255)%nat. rewrite Nat.div_add_l by discriminate. rewrite Nat.div_small by (apply Nat.ltb_lt; reflexivity). cbn. lra. }
  pose proof (FR 4000%nat) as FS. pose proof (FR 1024%nat) as FW. pose proof (BR 4000%nat) as BS. pose proof (BR 1024%nat) as BW. pose proof (NR 4000%nat) as NS. pose proof (NR 1024%nat) as NW. clear FR BR NR.
  set (s := repeat (norm B64 1 0) 4000) in *. set (w := repeat (norm B64 1 0) 1024) in *. set (fr := repeat (repeat (czero (F := ieee (exact_libm B64))) 1024) 16) in *.
  assert (LW : length (real_values w) = 1024%nat) by (unfold real_values; rewrite map_length; exact L2).
  clearbody s w fr.
  destruct (@C106_stream B64 (exact_libm B64) x (cfg_std F64) s w 256 16 fr 1024 (C89_library B64) (or_intror (C89_tables B64)) FS FW) as (s1 & ys & st0 & s2 & st1 & pieces & st2 & last & A0 & A1 & A2 & A3 & A4 & A5 & A6);
    rewrite ?L1, ?L2, ?L3, ?E1, ?E2; try assumption; try lia; try lra; try reflexivity.
  - change (bpow radix2 (precf B64)) with 9007199254740992. lra.
  - intros k Hk. rewrite <- E1, <- L2. apply frame_unit; assumption.
  - rewrite L2 in A1, A4. exists s1, ys, st0, s2, st1, pieces, st2, last. split; [exact A0|]. split; [exact A1|]. split; [exact A2|]. split; [exact A3|]. split; [exact A5|]. intros p Hp. specialize (A6 p ltac:(rewrite A4; lia)). cbv zeta in A6. rewrite L2, E1, E2, E3, NS in A6 by exact Hp.
    assert (EN : 1 <= energy (real_values w) 256 16 p) by (apply ones_energy; assumption).
    set (e := energy (real_values w) 256 16 p) in *. change (bpow radix2 (- precf B64)) with (/ 9007199254740992) in A6. specialize (A6 ltac:(lra) ltac:(lra)).
    eapply Rle_trans; [exact A6|]. assert (0 < / e <= 1). { split; [apply Rinv_0_lt_compat; lra|]. rewrite <- Rinv_1. apply Rinv_le_contravar; lra. }
    unfold Rdiv. nra.
Qed.

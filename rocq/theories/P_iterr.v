(* Property C107: the cosine, sine and Hartley transforms in IEEE binary32/binary64 arithmetic. *)
From Coq Require Import Reals Lra Lia ZArith List Bool.
From Flocq Require Import Core BinarySingleNaN.
From Verif Require Import L_err L_rerr L_flx L_pi L_ierr M_fft M_trig L_trig P_trig P_err P_rerr P_ierr P_irerr P_istft P_terr L_ieee L_ieeex.
Import ListNotations.
Set Implicit Arguments.
Open Scope R_scope.

(* ---------- specification: the sums c1 .. c4, s1 .. s4, cas of P_trig.v ---------- *)
(* sin and cos of the library, each called alone, within two units *)
Definition accurate_sin_cos (f : fmt) (o : libm f) : Prop := forall t, is_finite t = true ->
  is_finite (o_sin o t) = true /\ is_finite (o_cos o t) = true /\
  Rabs (B2R (o_sin o t) - sin (B2R t)) <= 2 * bpow radix2 (- precf f) /\ Rabs (B2R (o_cos o t) - cos (B2R t)) <= 2 * bpow radix2 (- precf f).
(* the least positive number of the format *)
Definition least (f : fmt) : R := bpow radix2 (3 - emaxf f - precf f).
(* the answer r: finite numbers only, each within e of the exact sum *)
Definition sums_to (f : fmt) (r : exec (list (num f))) (K : nat -> nat -> R) (x : list (num f)) (e : R) : Prop :=
  exists y, r = Done y /\ finite_reals y /\ rwithin e (real_values y) (sum_spec (real_values x) K).

(* ---------- proofs ---------- *)
Section Gen.
Variables (f : fmt) (o : libm f).
Local Notation G := (ieee o).
Local Notation v0 := (v0 f).
Local Notation etaf := (etaf f).
Local Notation maxf := (maxf f).
Local Notation fin := (fin (f := f)).
Local Notation val := (val (f := f)).
Local Notation ui := (ui f).
Let HB := ieee_bounded o.

Lemma least_eta : 2 * etaf = least f.
Proof. unfold L_ieee.etaf, least. replace (SpecFloat.emin (precf f) (emaxf f)) with (3 - emaxf f - precf f)%Z by reflexivity. field. Qed.
Lemma pow_small k (n : nat) : (k <= n)%nat -> 100 * (INR n * v0) <= 1 -> 1 <= (1 + v0) ^ k <= 1 + 1.02 * (INR k * v0).
Proof.
  intros Hk Hn. pose proof (v0_pos f) as V. induction k as [|k IH]; [cbn; lra|]. specialize (IH ltac:(lia)). rewrite S_INR. cbn [pow].
  assert (INR (S k) <= INR n) by (apply le_INR; exact Hk). rewrite S_INR in *. pose proof (pos_INR k). assert (INR k * v0 <= / 100) by nra. assert (0 <= INR k * v0) by nra. nra.
Qed.

(* summing in order: relative factor q, absolute noise N for the start and H for each term *)
Lemma enum_I (g : nat -> R) (gh : nat -> num f -> num f) (S : nat -> R) (z : num f) H : etaf <= H -> forall l i s sh A q N, 1 <= q -> 0 <= A -> 0 <= N ->
  fin sh -> Rabs s <= A -> Rabs (val sh - s) <= (q - 1) * A + N ->
  (forall j, (j < length l)%nat -> fin (gh (i + j)%nat (nth j l z)) /\ Rabs (g (i + j)%nat) <= S (i + j)%nat /\ Rabs (val (gh (i + j)%nat (nth j l z)) - g (i + j)%nat) <= (q - 1) * S (i + j)%nat + H) ->
  q * (1 + v0) ^ length l * (A + rsum (length l) (fun j => S (i + j)%nat)) + (N + 3 * INR (length l) * H) * (1 + v0) ^ length l <= maxf ->
  fin (enum_sum (F := G) gh i l sh) /\ Rabs (s + rsum (length l) (fun j => g (i + j)%nat)) <= A + rsum (length l) (fun j => S (i + j)%nat) /\
  Rabs (val (enum_sum (F := G) gh i l sh) - (s + rsum (length l) (fun j => g (i + j)%nat))) <=
    (q * (1 + v0) ^ length l - 1) * (A + rsum (length l) (fun j => S (i + j)%nat)) + (N + 3 * INR (length l) * H) * (1 + v0) ^ length l.
Proof.
  intros HH. pose proof (v0_pos f) as V. pose proof (v0_small f) as VS. pose proof (etaf_pos f) as EP.
  induction l as [|a l IH]; intros i s sh A q N Hq HA HN Fs Bs Es Hl HM; cbn [enum_sum length] in *.
  - cbn [rsum pow INR]. rewrite !Rplus_0_r, !Rmult_1_r. split; [exact Fs|]. split; [exact Bs|]. lra.
  - destruct (Hl 0%nat ltac:(lia)) as (F1 & B1 & E1). rewrite Nat.add_0_r in F1, B1, E1. cbn [nth] in F1, B1, E1.
    set (t := g i) in *. set (th := gh i a) in *. set (a1 := S i) in *.
    assert (Pa : 0 <= a1) by (pose proof (Rabs_pos t); lra).
    assert (PT : 0 <= rsum (length l) (fun j => S (Datatypes.S i + j)%nat)).
    { apply rsum_pos. intros j Hj. destruct (Hl (Datatypes.S j) ltac:(lia)) as (_ & Bj & _). rewrite <- Nat.add_succ_comm in Bj. pose proof (Rabs_pos (g (Datatypes.S i + j)%nat)). lra. }
    assert (ES : forall h : nat -> R, rsum (Datatypes.S (length l)) (fun j => h (i + j)%nat) = h i + rsum (length l) (fun j => h (Datatypes.S i + j)%nat)).
    { intros h. rewrite rsum_S_l, Nat.add_0_r. f_equal. apply rsum_ext. intros j Hj. f_equal. lia. }
    rewrite !ES in *. fold t a1 in HM |- *. rewrite S_INR in *. cbn [pow] in *. set (p := 1 + v0) in *. set (w := p ^ length l) in *.
    assert (W : 1 <= w) by (apply pow_R1_Rle; unfold p; lra). pose proof (pos_INR (length l)) as PL.
    set (TT := rsum (length l) (fun j => S (Datatypes.S i + j)%nat)) in *.
    assert (HLH : 0 <= INR (length l) * H) by (apply Rmult_le_pos; lra).
    assert (PW : 1 <= p * w) by (unfold p; nra). assert (QPW : q <= q * (p * w)) by nra.
    assert (M1 : Rabs (val sh + val th) <= q * (A + a1) + N + H).
    { replace (val sh + val th) with ((val sh - s) + (val th - t) + s + t) by ring. eapply Rle_trans; [apply Rabs_triang|]. eapply Rle_trans; [apply Rplus_le_compat_r, Rabs_triang|].
      pose proof (Rabs_triang (val sh - s) (val th - t)). lra. }
    assert (M2 : q * (A + a1) + N + H <= maxf).
    { eapply Rle_trans; [|exact HM]. assert (q * (A + a1) <= q * (p * w) * (A + (a1 + TT))) by (apply Rmult_le_compat; lra || nra).
      assert (N + H <= (N + 3 * (INR (length l) + 1) * H) * (p * w)); [|lra]. assert (N + H <= N + 3 * (INR (length l) + 1) * H) by lra.
      assert (0 <= N + 3 * (INR (length l) + 1) * H) by lra. nra. }
    destruct (i_add HB sh th Fs F1) as [F2 E2]; [lra|].
    assert (E3 : Rabs (val (@fadd _ G sh th) - (s + t)) <= (q * p - 1) * (A + a1) + (N + 3 * H) * p).
    { replace (val (@fadd _ G sh th) - (s + t)) with ((val (@fadd _ G sh th) - (val sh + val th)) + (val sh - s) + (val th - t)) by ring.
      eapply Rle_trans; [apply Rabs_triang|]. eapply Rle_trans; [apply Rplus_le_compat_r, Rabs_triang|].
      apply Rle_trans with (v0 * (q * (A + a1) + N + H) + etaf + ((q - 1) * A + N) + ((q - 1) * a1 + H)).
      - assert (v0 * Rabs (val sh + val th) <= v0 * (q * (A + a1) + N + H)) by (apply Rmult_le_compat_l; lra). lra.
      - unfold p. assert (0 <= v0 * H) by nra. nra. }
    destruct (IH (Datatypes.S i) (s + t) (@fadd _ G sh th) (A + a1) (q * p) ((N + 3 * H) * p)) as (R1 & R2 & R3).
    + unfold p; nra.
    + lra.
    + unfold p; nra.
    + exact F2.
    + eapply Rle_trans; [apply Rabs_triang|]; lra.
    + exact E3.
    + intros j Hj. destruct (Hl (Datatypes.S j) ltac:(lia)) as (C1 & C2 & C3). rewrite <- Nat.add_succ_comm in C1, C2, C3. cbn [nth] in C1, C3. split; [exact C1|]. split; [exact C2|].
      eapply Rle_trans; [exact C3|]. pose proof (Rabs_pos (g (Datatypes.S i + j)%nat)). apply Rplus_le_compat_r. apply Rmult_le_compat_r; [lra|]. unfold p; nra.
    + fold w. fold TT. eapply Rle_trans; [|exact HM]. apply Rplus_le_compat; [right; ring|].
      apply Rle_trans with (((N + 3 * H) * p + 3 * INR (length l) * H * p) * w); [|right; ring]. apply Rmult_le_compat_r; [lra|]. unfold p. assert (0 <= INR (length l) * H * v0) by (apply Rmult_le_pos; lra). lra.
    + fold w in R3. fold TT in R2, R3. split; [exact R1|]. rewrite <- !Rplus_assoc in *. split; [exact R2|]. eapply Rle_trans; [exact R3|].
      apply Rplus_le_compat; [right; ring|].
      apply Rle_trans with (((N + 3 * H) * p + 3 * INR (length l) * H * p) * w); [|right; ring]. apply Rmult_le_compat_r; [lra|]. unfold p. assert (0 <= INR (length l) * H * v0) by (apply Rmult_le_pos; lra). lra.
Qed.

(* ---------- angles: k units relative to the scale A ---------- *)
Definition rk (k A a : R) (x : num f) : Prop := fin x /\ Rabs a <= A /\ Rabs (val x - a) <= k * ui * A /\ 0 <= k <= 10.
Lemma rk_mono k k' A a x : rk k A a x -> k <= k' <= 10 -> rk k' A a x.
Proof. intros (F & B & E & K) H. pose proof (ui_pos f). pose proof (Rabs_pos a). split; [exact F|]. split; [exact B|]. split; [|lra]. eapply Rle_trans; [exact E|]. apply Rmult_le_compat_r; nra. Qed.
Lemma rk_A k A A' a x : rk k A a x -> A <= A' -> rk k A' a x.
Proof. intros (F & B & E & K) H. pose proof (ui_pos f). split; [exact F|]. split; [lra|]. split; [|lra]. eapply Rle_trans; [exact E|]. apply Rmult_le_compat_l; nra. Qed.
Lemma eta_scale A : / 1000000000000000000000000000000 <= A -> etaf <= (ui - v0) * A.
Proof. intros H. pose proof (slack f). pose proof (tiny_1 f). pose proof (ui_v0 f). pose proof (etaf_pos f). nra. Qed.
Lemma small_max r : r <= 1000000000000000000000000000000000000 -> r <= maxf.
Proof. intros H. destruct (Rle_dec 0 r) as [P|P]; [|pose proof (maxf_ge1 f); lra]. rewrite <- (Rabs_pos_eq r P). apply big_ok. rewrite (Rabs_pos_eq r P). pose proof p120. lra. Qed.
Lemma rk_mul ka kb A B a b x y : rk ka A a x -> rk kb B b y -> ka + kb + 1.01 <= 10 -> / 1000000000000000000000000000000 <= A * B <= 100000000000000000000000000000000000 ->
  rk (ka + kb + 1.01) (A * B) (a * b) (@fmul _ G x y).
Proof.
  intros (F1 & B1 & E1 & K1) (F2 & B2 & E2 & K2) HK HAB. pose proof (ui_pos f) as U. pose proof (ui_small f) as US. pose proof (ui_v0 f) as UV. pose proof (v0_pos f) as V. pose proof (Rabs_pos a) as P1. pose proof (Rabs_pos b) as P2.
  assert (X : Rabs (val x) <= A * (1 + ka * ui)). { replace (val x) with (a + (val x - a)) by ring. eapply Rle_trans; [apply Rabs_triang|]. lra. }
  assert (Y : Rabs (val y) <= B * (1 + kb * ui)). { replace (val y) with (b + (val y - b)) by ring. eapply Rle_trans; [apply Rabs_triang|]. lra. }
  assert (KA : 0 <= ka * ui <= / 1000000) by (split; nra). assert (KB : 0 <= kb * ui <= / 1000000) by (split; nra).
  assert (XY : Rabs (val x * val y) <= A * B * (1 + / 100000)).
  { rewrite Rabs_mult. eapply Rle_trans; [apply Rmult_le_compat; [apply Rabs_pos|apply Rabs_pos|exact X|exact Y]|].
    replace (A * (1 + ka * ui) * (B * (1 + kb * ui))) with (A * B * ((1 + ka * ui) * (1 + kb * ui))) by ring. apply Rmult_le_compat_l; nra. }
  destruct (i_mul HB x y F1 F2) as [F E]. { eapply Rle_trans; [exact XY|]. apply small_max. lra. }
  split; [exact F|]. split; [rewrite Rabs_mult; apply Rmult_le_compat; assumption|]. split; [|lra].
  assert (D : Rabs (val x * val y - a * b) <= (ka + kb * (1 + / 1000000)) * ui * (A * B)).
  { replace (val x * val y - a * b) with ((val y - b) * val x + (val x - a) * b) by ring. eapply Rle_trans; [apply Rabs_triang|]. rewrite !Rabs_mult.
    apply Rle_trans with (kb * ui * B * (A * (1 + ka * ui)) + ka * ui * A * B).
    - apply Rplus_le_compat; apply Rmult_le_compat; try apply Rabs_pos; assumption.
    - assert (0 <= A * B) by lra. assert (kb * ui * (ka * ui) <= kb * ui * / 1000000) by (apply Rmult_le_compat_l; lra). nra. }
  replace (val (@fmul _ G x y) - a * b) with ((val (@fmul _ G x y) - val x * val y) + (val x * val y - a * b)) by ring. eapply Rle_trans; [apply Rabs_triang|].
  pose proof (@eta_scale (A * B) ltac:(lra)) as ET. assert (v0 * Rabs (val x * val y) <= v0 * (A * B * (1 + / 100000))) by (apply Rmult_le_compat_l; lra).
  assert (v0 * (A * B) <= ui * (A * B)) by (apply Rmult_le_compat_r; lra). assert (0 <= ui * (A * B)) by nra. assert (kb * (ui * (A * B)) <= 10 * (ui * (A * B))) by (apply Rmult_le_compat_r; lra). lra.
Qed.
Lemma rk_div k A a x y b : rk k A a x -> fin y -> val y = b -> 0 < b -> k + 1.01 <= 10 -> / 1000000000000000000000000000000 <= A / b <= 100000000000000000000000000000000000 ->
  rk (k + 1.01) (A / b) (a / b) (@fdiv _ G x y).
Proof.
  intros (F1 & B1 & E1 & K1) F2 Eb Hb HK HAB. pose proof (ui_pos f) as U. pose proof (ui_small f) as US. pose proof (ui_v0 f) as UV. pose proof (v0_pos f) as V. pose proof (Rabs_pos a) as P1.
  assert (IB : 0 < / b) by (apply Rinv_0_lt_compat; exact Hb). unfold Rdiv in *.
  assert (X : Rabs (val x) <= A * (1 + k * ui)). { replace (val x) with (a + (val x - a)) by ring. eapply Rle_trans; [apply Rabs_triang|]. lra. }
  assert (KA : 0 <= k * ui <= / 1000000) by (split; nra).
  assert (XY : Rabs (val x * / b) <= A * / b * (1 + / 100000)). { rewrite Rabs_mult, (Rabs_pos_eq (/ b)) by lra. replace (A * / b * (1 + / 100000)) with (A * (1 + / 100000) * / b) by ring. apply Rmult_le_compat_r; [lra|]. nra. }
  destruct (i_div HB x y F1 F2) as [F E]. { lra. } { rewrite Eb. eapply Rle_trans; [exact XY|]. apply small_max. lra. }
  rewrite Eb in E. unfold Rdiv in E. split; [exact F|]. split; [rewrite Rabs_mult, (Rabs_pos_eq (/ b)) by lra; apply Rmult_le_compat_r; lra|]. split; [|lra].
  replace (val (@fdiv _ G x y) - a * / b) with ((val (@fdiv _ G x y) - val x * / b) + (val x - a) * / b) by ring. eapply Rle_trans; [apply Rabs_triang|].
  rewrite (Rabs_mult (val x - a)), (Rabs_pos_eq (/ b)) by lra. assert (Rabs (val x - a) * / b <= k * ui * A * / b) by (apply Rmult_le_compat_r; lra).
  pose proof (@eta_scale (A * / b) ltac:(lra)) as ET. assert (v0 * Rabs (val x * / b) <= v0 * (A * / b * (1 + / 100000))) by (apply Rmult_le_compat_l; lra).
  assert (v0 * (A * / b) <= ui * (A * / b)) by (apply Rmult_le_compat_r; lra). assert (0 <= ui * (A * / b)) by nra. lra.
Qed.
Lemma nat_fmt k : INR k < bpow radix2 (precf f) -> rn f (INR k) = INR k.
Proof.
  intros H. apply round_generic; [typeclasses eauto|]. apply (@generic_format_FLT radix2 (SpecFloat.emin (precf f) (emaxf f)) (precf f)).
  exists (Flocq.Core.Defs.Float radix2 (Z.of_nat k) 0).
  - unfold F2R. cbn [Fnum Fexp]. rewrite <- INR_IZR_INZ. cbn. ring.
  - cbn [Fnum]. rewrite Z.abs_eq by lia. apply lt_IZR. rewrite <- INR_IZR_INZ, IZR_Zpower; [exact H|]. clear. destruct f; cbn; lia.
  - cbn [Fexp]. clear. destruct f; cbn; lia.
Qed.
Lemma prec_100 : bpow radix2 (precf f) <= bpow radix2 53.
Proof. apply bpow_le. clear. destruct f; cbn; lia. Qed.
Lemma as_ok k : INR k < bpow radix2 (precf f) -> fin (@fas _ G k) /\ val (@fas _ G k) = INR k.
Proof.
  intros H. destruct (@as_r f o k) as [F E]. { pose proof prec_100. pose proof p100. change (bpow radix2 53) with 9007199254740992 in *. lra. }
  split; [exact F|]. rewrite E. apply nat_fmt. exact H.
Qed.
End Gen.

Section Sums.
Variables (f : fmt) (o : libm f).
Local Notation G := (ieee o).
Local Notation v0 := (v0 f).
Local Notation etaf := (etaf f).
Local Notation maxf := (maxf f).
Local Notation fin := (fin (f := f)).
Local Notation val := (val (f := f)).
Local Notation ui := (ui f).
Local Notation zf := (B754_zero false : num f).
Let HB := ieee_bounded o.
Hypothesis HT : accurate_sin_cos o.
Variables (n : nat) (x : list (num f)).
Hypothesis Hx : length x = n.
Hypothesis Hn : (0 < n)%nat.
Hypothesis Hb : 100 * INR n <= bpow radix2 (precf f).
Hypothesis Hf : finite_reals x.
Local Notation t := (INR n * v0).
Local Notation xs := (real_values x).
Hypothesis HN : rnorm xs <= bpow radix2 (emaxf f - 3).

Lemma n1 : 1 <= INR n. Proof. change 1 with (INR 1). apply le_INR. exact Hn. Qed.
Lemma tb : 0 < v0 /\ v0 <= t /\ 100 * t <= 1.
Proof.
  pose proof n1. pose proof (v0_pos f) as V. split; [exact V|]. split; [nra|]. assert (E : bpow radix2 (precf f) * v0 = 1) by (unfold L_ieee.v0; rewrite <- bpow_plus, Z.add_opp_diag_r; reflexivity).
  rewrite <- E. rewrite <- Rmult_assoc. apply Rmult_le_compat_r; lra.
Qed.
Lemma n_big : INR n <= 100000000000000.
Proof. pose proof (prec_100 f) as P. change (bpow radix2 53) with 9007199254740992 in P. lra. Qed.
Lemma as_n k : (k <= n + 1)%nat -> fin (@fas _ G k) /\ val (@fas _ G k) = INR k.
Proof. intros H. apply as_ok. apply le_INR in H. rewrite plus_INR in H. cbn [INR] in H. pose proof n1. lra. Qed.
Lemma noise_small : 4 * INR n * least f <= / 25.
Proof. pose proof (least_eta f). pose proof (eta_small f). destruct tb as (V & T1 & T2). assert (ui <= 2 * v0) by (unfold L_ieee.ui; lra). pose proof n1. nra. Qed.
Lemma room B : B <= bpow radix2 (emaxf f - 1) -> B + / 2 <= maxf.
Proof. intros H. pose proof (maxf_big f). assert (1 <= bpow radix2 (emaxf f - 2)); [|lra]. change 1 with (bpow radix2 0). apply bpow_le. clear. destruct f; cbn; lia. Qed.
Lemma emax_2 a : bpow radix2 (emaxf f - a) = 2 * bpow radix2 (emaxf f - (a + 1)).
Proof. change 2 with (bpow radix2 1). rewrite <- bpow_plus. f_equal. lia. Qed.
Lemma xs_nth i : nth i xs 0 = val (nth i x zf).
Proof. destruct (Nat.lt_ge_cases i (length x)) as [H|H]; [apply rv_nth; exact H|]. rewrite rv_over, nth_overflow by exact H. reflexivity. Qed.
Lemma xs_len : length xs = n. Proof. unfold real_values. rewrite map_length. exact Hx. Qed.
Lemma norm_sum : rnorm xs = rsum n (fun i => Rabs (xat xs i)).
Proof. unfold rnorm. rewrite xs_len. reflexivity. Qed.
Lemma x_fin i : (i < n)%nat -> fin (nth i x zf).
Proof. intros H. apply Hf. apply nth_In. lia. Qed.
Lemma x_le i : (i < n)%nat -> Rabs (xat xs i) <= rnorm xs.
Proof.
  intros H. rewrite norm_sum. set (h := fun i => Rabs (xat xs i)). change (h i <= rsum n h). assert (P : forall j, 0 <= h j) by (intros; apply Rabs_pos). clearbody h. clear - H P.
  revert H. induction n as [|m IH]; intros H; [lia|]. cbn [rsum]. destruct (Nat.eq_dec i m) as [->|]; [assert (0 <= rsum m h) by (apply rsum_pos; auto); lra|]. specialize (IH ltac:(lia)). specialize (P m). lra.
Qed.

(* a whole sum *)
Lemma enum_fin (g : nat -> R) (gh : nat -> num f -> num f) (S : nat -> R) l i s sh A q N H B E :
  etaf <= H <= 2.3 * etaf -> 0 <= N <= etaf -> 1 <= q -> 0 <= E <= 100 -> q * (1 + 1.02 * t) <= 1 + E * t -> (length l <= n)%nat -> 0 <= A ->
  A + rsum (length l) (fun j => S (i + j)%nat) <= B -> B <= bpow radix2 (emaxf f - 2) ->
  fin sh -> Rabs s <= A -> Rabs (val sh - s) <= (q - 1) * A + N ->
  (forall j, (j < length l)%nat -> fin (gh (i + j)%nat (nth j l zf)) /\ Rabs (g (i + j)%nat) <= S (i + j)%nat /\ Rabs (val (gh (i + j)%nat (nth j l zf)) - g (i + j)%nat) <= (q - 1) * S (i + j)%nat + H) ->
  fin (enum_sum (F := G) gh i l sh) /\ Rabs (val (enum_sum (F := G) gh i l sh) - (s + rsum (length l) (fun j => g (i + j)%nat))) <= E * t * B + 4 * INR n * least f.
Proof.
  intros HH HN0 Hq HE HqE Hl HA HS HBm Fs Bs Es Ht. destruct tb as (V & T1 & T2). pose proof n1 as N1. pose proof (etaf_pos f) as EP. pose proof (least_eta f) as LE. pose proof noise_small as NS.
  assert (Hl' : INR (length l) <= INR n) by (apply le_INR; exact Hl). pose proof (pos_INR (length l)) as PL.
  destruct (@pow_small f (length l) n Hl T2) as [W1 W2]. set (w := (1 + v0) ^ length l) in *.
  assert (W3 : w <= 1 + 1.02 * t) by (assert (INR (length l) * v0 <= t) by (apply Rmult_le_compat_r; lra); lra).
  assert (QW : q * w <= 1 + E * t). { eapply Rle_trans; [|exact HqE]. apply Rmult_le_compat_l; lra. }
  assert (QW1 : 1 <= q * w) by nra.
  assert (NW : (N + 3 * INR (length l) * H) * w <= 4 * INR n * least f).
  { assert (X1 : INR (length l) * H <= INR n * (2.3 * etaf)) by (apply Rmult_le_compat; lra). assert (X2 : etaf <= INR n * etaf) by nra.
    assert (X3 : N + 3 * INR (length l) * H <= 7.9 * (INR n * etaf)) by lra. assert (X4 : w <= 1.0103) by lra.
    assert (0 <= INR (length l) * H) by (apply Rmult_le_pos; lra).
    apply Rle_trans with (7.9 * (INR n * etaf) * 1.0103); [apply Rmult_le_compat; lra|]. rewrite <- LE. nra. }
  assert (ET : 0 <= E * t <= 1) by (split; [apply Rmult_le_pos; lra|]; assert (E * t <= 100 * t) by (apply Rmult_le_compat_r; lra); lra).
  assert (S0 : 0 <= rsum (length l) (fun j => S (i + j)%nat)).
  { apply rsum_pos. intros j Hj. destruct (Ht j Hj) as (_ & P & _). pose proof (Rabs_pos (g (i + j)%nat)). lra. }
  destruct (@enum_I f o g gh S zf H (proj1 HH) l i s sh A q N Hq HA (proj1 HN0) Fs Bs Es Ht) as (R1 & _ & R3); fold w.
  - apply Rle_trans with (2 * B + / 2).
    + apply Rplus_le_compat; [|lra]. apply Rmult_le_compat; lra.
    + apply room. rewrite (emax_2 1). change (1 + 1)%Z with 2%Z. lra.
  - fold w in R3. split; [exact R1|]. eapply Rle_trans; [exact R3|]. apply Rplus_le_compat; [|exact NW]. apply Rmult_le_compat; lra.
Qed.
Definition knl (M d K : R) (kh : num f) : Prop := fin kh /\ Rabs K <= M /\ Rabs (val kh - K) <= d * t.
Lemma prod_I M d K kh v : knl M d K kh -> fin v -> Rabs (val v) <= bpow radix2 (emaxf f - 3) -> 1 <= M <= 2 -> 0 <= d <= 90 ->
  fin (@fmul _ G v kh) /\ Rabs (val v * K) <= M * Rabs (val v) /\ Rabs (val (@fmul _ G v kh) - val v * K) <= (d + M + 1) * t * Rabs (val v) + etaf.
Proof.
  intros (Fk & BK & EK) Fv Bv HM Hd. destruct tb as (V & T1 & T2). pose proof (Rabs_pos (val v)) as Pv.
  assert (DT : 0 <= d * t <= 1) by (split; [apply Rmult_le_pos; lra|]; assert (d * t <= 90 * t) by (apply Rmult_le_compat_r; lra); lra).
  assert (KB : Rabs (val kh) <= M + 1). { replace (val kh) with (K + (val kh - K)) by ring. eapply Rle_trans; [apply Rabs_triang|]. lra. }
  assert (PB : Rabs (val v * val kh) <= (M + 1) * Rabs (val v)). { rewrite Rabs_mult, Rmult_comm. apply Rmult_le_compat_r; assumption. }
  destruct (i_mul HB v kh Fv Fk) as [F E].
  { eapply Rle_trans; [exact PB|]. eapply Rle_trans; [|apply (@room (4 * Rabs (val v)))]; [nra|]. rewrite (emax_2 1), (emax_2 (1 + 1)). change (1 + 1 + 1)%Z with 3%Z. lra. }
  split; [exact F|]. split; [rewrite Rabs_mult, Rmult_comm; apply Rmult_le_compat_r; assumption|].
  replace (val (@fmul _ G v kh) - val v * K) with ((val (@fmul _ G v kh) - val v * val kh) + val v * (val kh - K)) by ring. eapply Rle_trans; [apply Rabs_triang|]. rewrite Rabs_mult.
  assert (Rabs (val v) * Rabs (val kh - K) <= Rabs (val v) * (d * t)) by (apply Rmult_le_compat_l; assumption).
  assert (v0 * Rabs (val v * val kh) <= t * ((M + 1) * Rabs (val v))) by (apply Rmult_le_compat; try apply Rabs_pos; lra). lra.
Qed.
Lemma fill_I g K e : (forall k, (k < n)%nat -> exists v, g k = Done v /\ fin v /\ Rabs (val v - rsum n (fun i => xat xs i * K k i)) <= e) ->
  sums_to (fill (zvec (F := G) (length x)) g) K x e.
Proof.
  intros H. exists (tab (length x) (fun k => match g k with Done v => v | _ => zf end)). split; [|split; [|split]].
  - rewrite (@fill_tab _ (zvec (F := G) (length x)) g (fun k => match g k with Done v => v | _ => zf end)); rewrite zvec_length; [reflexivity|].
    rewrite Hx. intros k Hk. destruct (H k Hk) as (v & E & _). rewrite E. reflexivity.
  - intros a Ha. apply In_nth with (d := zf) in Ha. destruct Ha as (k & Hk & <-). rewrite tab_length in Hk. rewrite nth_tab by exact Hk. destruct (H k ltac:(lia)) as (v & E & F & _). rewrite E. exact F.
  - unfold real_values. rewrite map_length, tab_length, sum_spec_length, map_length. reflexivity.
  - intros k Hk. rewrite sum_spec_length, xs_len in Hk. rewrite rv_nth by (rewrite tab_length; lia). rewrite nth_tab by lia. fold (xat (sum_spec xs K) k). rewrite xat_spec by (rewrite xs_len; exact Hk).
    destruct (H k Hk) as (v & E & _ & B). rewrite E, xs_len. exact B.
Qed.
Lemma sum0_I M d E (K : nat -> R) (kh : nat -> num f) : 1 <= M <= 2 -> 0 <= d <= 90 -> 0 <= E <= 100 -> (1 + (d + M + 1) / M * t) * (1 + 1.02 * t) <= 1 + E * t ->
  (forall i, (i < n)%nat -> knl M d (K i) (kh i)) ->
  let y := enum_sum (F := G) (fun i v => @fmul _ G v (kh i)) 0 x (@fzero _ G) in fin y /\ Rabs (val y - rsum n (fun i => xat xs i * K i)) <= E * t * (M * rnorm xs) + 4 * INR n * least f.
Proof.
  intros HM Hd HE Hq H y. destruct tb as (V & T1 & T2). pose proof (etaf_pos f) as EP.
  assert (I0 : 0 <= (d + M + 1) / M) by (apply Rmult_le_pos; [lra|left; apply Rinv_0_lt_compat; lra]).
  destruct (@enum_fin (fun i => xat xs i * K i) (fun i v => @fmul _ G v (kh i)) (fun i => M * Rabs (xat xs i)) x 0%nat 0 (@fzero _ G) 0 (1 + (d + M + 1) / M * t) 0 etaf (M * rnorm xs) E) as (R1 & R2); try lra; try lia.
  - nra.
  - rewrite Hx, Rplus_0_l, norm_sum, <- rsum_scal. right. reflexivity.
  - rewrite (emax_2 2). change (2 + 1)%Z with 3%Z. assert (0 <= rnorm xs) by apply rnorm_pos. nra.
  - apply (i_zero HB).
  - rewrite Rabs_R0. lra.
  - rewrite (proj2 (i_zero HB)), Rminus_0_r, Rabs_R0. lra.
  - intros j Hj. cbn [plus]. rewrite Hx in Hj. unfold xat. rewrite xs_nth. destruct (@prod_I M d (K j) (kh j) (nth j x zf) (H j Hj) (x_fin Hj)) as (P1 & P2 & P3); try assumption.
    { rewrite <- xs_nth. eapply Rle_trans; [apply (x_le Hj)|exact HN]. }
    split; [exact P1|]. split; [exact P2|]. eapply Rle_trans; [exact P3|]. right. field. lra.
  - rewrite Hx, Rplus_0_l in R2. split; [exact R1|exact R2].
Qed.
Lemma finish0 (K : nat -> R) (kh : nat -> num f) : (forall i, (i < n)%nat -> knl 1 21.4 (K i) (kh i)) ->
  let y := enum_sum (F := G) (fun i v => @fmul _ G v (kh i)) 0 x (@fzero _ G) in fin y /\ Rabs (val y - rsum n (fun i => xat xs i * K i)) <= 25 * INR n * bpow radix2 (- precf f) * rnorm xs + 4 * INR n * least f.
Proof.
  intros H. destruct tb as (V & T1 & T2). destruct (@sum0_I 1 21.4 25 K kh ltac:(lra) ltac:(lra) ltac:(lra) ltac:(nra) H) as [R1 R2]. split; [exact R1|]. eapply Rle_trans; [exact R2|]. right. unfold L_ieee.v0. ring.
Qed.
Lemma finish1 (K : nat -> R) (kh : nat -> num f) : K 0%nat = / 2 -> (forall i, (0 < i < n)%nat -> knl 1 21.4 (K i) (kh i)) ->
  let y := enum_sum (F := G) (fun i v => @fmul _ G v (kh i)) 1 (skipn 1 x) (@fdiv _ G (nth 0 x zf) (two (F := G))) in fin y /\ Rabs (val y - rsum n (fun i => xat xs i * K i)) <= 25 * INR n * bpow radix2 (- precf f) * rnorm xs + 4 * INR n * least f.
Proof.
  intros K0 H y. destruct tb as (V & T1 & T2). pose proof (etaf_pos f) as EP. destruct (lit2 o) as [F2 V2]. change (@flit _ G 2%Q) with (two (F := G)) in F2, V2.
  assert (X0 : Rabs (val (nth 0 x zf)) <= bpow radix2 (emaxf f - 3)) by (rewrite <- xs_nth; eapply Rle_trans; [apply (x_le Hn)|exact HN]).
  pose proof (Rabs_pos (val (nth 0 x zf))) as P0.
  assert (AD : Rabs (val (nth 0 x zf) / 2) = Rabs (val (nth 0 x zf)) / 2) by (unfold Rdiv; rewrite Rabs_mult, (Rabs_pos_eq (/ 2)); lra).
  destruct (i_div HB (nth 0 x zf) (two (F := G)) (x_fin Hn) F2) as [F E]; [lra| |].
  { rewrite V2, AD. eapply Rle_trans; [|apply (@room (Rabs (val (nth 0 x zf))))]; [lra|]. rewrite (emax_2 1), (emax_2 (1 + 1)). change (1 + 1 + 1)%Z with 3%Z. pose proof (bpow_gt_0 radix2 (emaxf f - 3)). lra. }
  rewrite V2, AD in E.
  assert (Ls : length (skipn 1 x) = (n - 1)%nat) by (rewrite skipn_length; lia).
  assert (SP : forall h, rsum n h = h 0%nat + rsum (n - 1) (fun j => h (1 + j)%nat)) by (intros h; replace n with (S (n - 1)) at 1 by lia; rewrite rsum_S_l; reflexivity).
  destruct (@enum_fin (fun i => xat xs i * K i) (fun i v => @fmul _ G v (kh i)) (fun i => Rabs (xat xs i)) (skipn 1 x) 1%nat (val (nth 0 x zf) / 2) (@fdiv _ G (nth 0 x zf) (two (F := G))) (Rabs (val (nth 0 x zf))) (1 + 23.4 * t) etaf etaf (rnorm xs) 25) as (R1 & R2); rewrite ?Ls; try lra; try lia.
  - nra.
  - rewrite norm_sum, (SP (fun i => Rabs (xat xs i))). unfold xat at 2. rewrite xs_nth. right. reflexivity.
  - rewrite (emax_2 2). change (2 + 1)%Z with 3%Z. assert (0 <= rnorm xs) by apply rnorm_pos. lra.
  - exact F.
  - eapply Rle_trans; [exact E|]. apply Rplus_le_compat_r. assert (v0 * (Rabs (val (nth 0 x zf)) / 2) <= 23.4 * t * Rabs (val (nth 0 x zf))); [|lra]. assert (v0 * Rabs (val (nth 0 x zf)) <= t * Rabs (val (nth 0 x zf))) by (apply Rmult_le_compat_r; lra). nra.
  - intros j Hj. rewrite nth_skipn. unfold xat. rewrite xs_nth. destruct (@prod_I 1 21.4 (K (1 + j)%nat) (kh (1 + j)%nat) (nth (1 + j) x zf)) as (P1 & P2 & P3); try lra.
    { apply H. lia. } { apply x_fin. lia. } { rewrite <- xs_nth. eapply Rle_trans; [apply (@x_le (1 + j)); lia|exact HN]. }
    split; [exact P1|]. split; [lra|]. eapply Rle_trans; [exact P3|]. right. lra.
  - rewrite Ls in R2. split; [exact R1|]. rewrite (SP (fun i => xat xs i * K i)), K0. unfold xat at 1. rewrite xs_nth. eapply Rle_trans; [exact R2|]. right. unfold L_ieee.v0. ring.
Qed.

(* ---------- the kernels ---------- *)
Lemma pi_b : 3 < PI < 3.1416. Proof. pose proof PI_bounds. lra. Qed.
Lemma pi_rk : rk 1 PI PI (@fpi _ G).
Proof. destruct (pi_ok o) as [F E]. pose proof (ui_v0 f). pose proof pi_b. split; [exact F|]. split; [rewrite Rabs_pos_eq; lra|]. split; [|lra]. eapply Rle_trans; [exact E|]. nra. Qed.
Lemma nat_rk k P : (k <= n + 1)%nat -> INR k <= P -> rk 0 P (INR k) (@fas _ G k).
Proof. intros H HP. destruct (as_n H) as [F E]. split; [exact F|]. split; [rewrite Rabs_pos_eq; [exact HP|apply pos_INR]|]. rewrite E, Rminus_diag_eq, Rabs_R0 by reflexivity. split; lra. Qed.
Lemma p1_ok k : (k <= n)%nat -> fin (p1 (F := G) k) /\ val (p1 (F := G) k) = INR (S k).
Proof.
  intros H. destruct (@as_n k ltac:(lia)) as [F E]. destruct (i_one HB) as [F1 E1]. pose proof n1 as N1. pose proof n_big as NB. assert (INR (S k) <= INR n + 1) by (rewrite S_INR; apply le_INR in H; lra). pose proof (pos_INR (S k)).
  destruct (@add_r f o (@fas _ G k) (@fone _ G) F F1) as [F2 E2].
  - rewrite E, E1, <- S_INR. rewrite Rabs_pos_eq by lra. apply small_max. lra.
  - split; [exact F2|]. unfold p1. rewrite E2, E, E1, <- S_INR. apply nat_fmt. pose proof tb. lra.
Qed.
Lemma p1_rk k P : (k <= n)%nat -> INR (S k) <= P -> rk 0 P (INR (S k)) (p1 (F := G) k).
Proof. intros H HP. destruct (p1_ok H) as [F E]. split; [exact F|]. split; [rewrite Rabs_pos_eq; [exact HP|apply pos_INR]|]. rewrite E, Rminus_diag_eq, Rabs_R0 by reflexivity. split; lra. Qed.
Lemma ph_rk k : (k < n)%nat -> rk 1 (INR n) (INR k + / 2) (ph (F := G) k).
Proof.
  intros H. destruct (@as_n k ltac:(lia)) as [F E]. destruct (half_ok o) as [F1 E1]. pose proof n1 as N1. pose proof n_big as NB. assert (HS : INR (S k) <= INR n) by (apply le_INR; exact H). rewrite S_INR in HS. pose proof (pos_INR k).
  destruct (i_add HB (@fas _ G k) (M_rfft.half (F := G)) F F1) as [F2 E2]; rewrite E, E1 in *.
  - rewrite Rabs_pos_eq by lra. apply small_max. lra.
  - split; [exact F2|]. rewrite (Rabs_pos_eq (INR k + / 2)) in * by lra. split; [lra|]. split; [|lra]. unfold ph. eapply Rle_trans; [exact E2|].
    pose proof (@eta_scale f (INR n) ltac:(lra)) as ET. pose proof (v0_pos f). nra.
Qed.
Lemma inv_b m : 1 <= m <= 1000000000000000 -> / 1000000000000000 <= PI / m <= 3.2.
Proof.
  intros Hm. pose proof pi_b. unfold Rdiv. assert (/ 1000000000000000 <= / m) by (apply Rinv_le_contravar; lra). assert (/ m <= 1) by (rewrite <- Rinv_1; apply Rinv_le_contravar; lra).
  assert (0 < / 1000000000000000) by (apply Rinv_0_lt_compat; lra). split; nra.
Qed.
Lemma div_rk y m : 1 <= m <= 1000000000000000 -> fin y -> val y = m -> rk 2.01 (PI / m) (PI / m) (@fdiv _ G (@fpi _ G) y).
Proof. intros Hm F E. replace 2.01 with (1 + 1.01) by lra. pose proof (inv_b Hm). apply rk_div; try assumption; try lra. apply pi_rk. Qed.
Lemma tri_b m P : 1 <= m <= 1000000000000000 -> 1 <= P <= 1000000000000000 -> / 1000000000000000 <= PI / m * P <= 3200000000000000 /\ / 1000000000000000 <= PI / m * P * P <= 3200000000000000000000000000000.
Proof. intros Hm HP. pose proof (inv_b Hm) as I. set (a := PI / m) in *. assert (/ 1000000000000000 <= a * P) by nra. assert (a * P <= 3200000000000000) by nra. assert (0 < / 1000000000000000) by (apply Rinv_0_lt_compat; lra). split; split; nra. Qed.
Lemma tri_rk kp kq m P p q a ph qh : 1 <= m <= 1000000000000000 -> 1 <= P <= 1000000000000000 -> rk 2.01 (PI / m) (PI / m) a -> rk kp P p ph -> rk kq P q qh -> kp <= 1 -> kq <= 1 ->
  rk 6.1 (PI / m * P * P) (PI / m * p * q) (@fmul _ G (@fmul _ G a ph) qh).
Proof.
  intros Hm HP Ha Hp Hq K1 K2. destruct (tri_b Hm HP) as [T1 T2]. assert (0 <= kp) by apply Hp. assert (0 <= kq) by apply Hq.
  eapply rk_mono; [apply (@rk_mul f o (2.01 + kp + 1.01) kq (PI / m * P) P); [apply rk_mul; try assumption; lra|exact Hq|lra|lra]|lra].
Qed.
Lemma scale_n m P : 1 <= P <= m -> P <= INR n -> PI / m * P * P <= PI * INR n.
Proof.
  intros Hm HP. pose proof pi_b. assert (0 < / m) by (apply Rinv_0_lt_compat; lra). replace (PI / m * P * P) with (PI * P * (P * / m)) by (unfold Rdiv; ring).
  assert (P * / m <= 1) by (rewrite <- (Rinv_r m) by lra; apply Rmult_le_compat_r; lra). assert (0 <= P * / m) by (apply Rmult_le_pos; lra).
  rewrite <- (Rmult_1_r (PI * INR n)). apply Rmult_le_compat; try lra; nra.
Qed.
Lemma trig_I c A a th : rk 6.1 A a th -> 1 <= c <= 2 -> A <= c * (PI * INR n) -> knl 1 (2.1 + 19.3 * c) (cos a) (@fcos _ G th) /\ knl 1 (2.1 + 19.3 * c) (sin a) (@fsin _ G th).
Proof.
  intros (F & B & E & K) Hc HA. destruct (HT th F) as (Fs & Fc & Es & Ec). change (B2R th) with (val th) in *. destruct tb as (V & T1 & T2). pose proof pi_b as PB. pose proof n1 as N1.
  assert (D : Rabs (val th - a) <= 19.3 * c * t).
  { eapply Rle_trans; [exact E|]. unfold L_ieee.ui. assert (0 <= c * INR n) by nra. assert (A <= 3.1416 * (c * INR n)) by nra. assert (v0 * A <= v0 * (3.1416 * (c * INR n))) by (apply Rmult_le_compat_l; lra). nra. }
  assert (X : forall h : R -> R, Rabs (h (val th) - h a) <= Rabs (val th - a) -> forall r, Rabs (r - h (val th)) <= 2 * v0 -> Rabs (r - h a) <= (2.1 + 19.3 * c) * t).
  { intros h H1 r H2. replace (r - h a) with ((r - h (val th)) + (h (val th) - h a)) by ring. eapply Rle_trans; [apply Rabs_triang|]. lra. }
  split; (split; [assumption|split]).
  - apply abs_cos.
  - apply X; [|exact Ec]. eapply Rle_trans; [|apply chord]. apply (Rabs_re (cis (val th) -c cis a)).
  - apply abs_sin.
  - apply X; [|exact Es]. eapply Rle_trans; [|apply chord]. apply (Rabs_im (cis (val th) -c cis a)).
Qed.
Lemma knl_d M d d' K kh : knl M d K kh -> d <= d' -> knl M d' K kh.
Proof. intros (F & B & E) H. destruct tb as (V & T1 & T2). split; [exact F|]. split; [exact B|]. eapply Rle_trans; [exact E|]. apply Rmult_le_compat_r; lra. Qed.
Lemma trig_1 a th A : rk 6.1 A a th -> A <= PI * INR n -> knl 1 21.4 (cos a) (@fcos _ G th) /\ knl 1 21.4 (sin a) (@fsin _ G th).
Proof. intros H HA. destruct (@trig_I 1 A a th H ltac:(lra) ltac:(lra)) as [C S]. split; eapply knl_d; try eassumption; lra. Qed.
Lemma n_ok : 1 <= INR n <= 1000000000000000. Proof. pose proof n1. pose proof n_big. lra. Qed.
Lemma fac_n : rk 2.01 (PI / INR n) (PI / INR n) (@fdiv _ G (@fpi _ G) (@fas _ G n)).
Proof. destruct (@as_n n ltac:(lia)) as [F E]. apply div_rk; try assumption. apply n_ok. Qed.
Lemma sc_n : PI / INR n * INR n * INR n <= PI * INR n. Proof. apply scale_n; pose proof n1; lra. Qed.
Lemma nn : INR n <> 0. Proof. pose proof n1. lra. Qed.
Local Notation e25 := (25 * INR n * bpow radix2 (- precf f) * rnorm xs + 4 * INR n * least f).
Ltac tri := eapply tri_rk; [apply n_ok|apply n_ok|apply fac_n| | | |]; try (apply ph_rk; lia); try (apply nat_rk; [lia|apply le_INR; lia]); try (apply p1_rk; [lia|apply le_INR; lia]); lra.

Lemma dct2_I : sums_to (dct2 (F := G) x) (c2 n) x e25.
Proof.
  unfold dct2. apply fill_I. intros k Hk. eexists. split; [reflexivity|]. rewrite Hx. apply finish0. intros i Hi.
  replace (c2 n k i) with (cos (PI / INR n * (INR i + / 2) * INR k)) by (unfold c2; f_equal; field; apply nn). eapply trig_1; [|apply sc_n]. tri.
Qed.
Lemma dct4_I : sums_to (dct4 (F := G) x) (c4 n) x e25.
Proof.
  unfold dct4. apply fill_I. intros k Hk. eexists. split; [reflexivity|]. rewrite Hx. apply finish0. intros i Hi.
  replace (c4 n k i) with (cos (PI / INR n * (INR i + / 2) * (INR k + / 2))) by (unfold c4; f_equal; field; apply nn). eapply trig_1; [|apply sc_n]. tri.
Qed.
Lemma dst2_I : sums_to (dst2 (F := G) x) (s2 n) x e25.
Proof.
  unfold dst2. apply fill_I. intros k Hk. eexists. split; [reflexivity|]. rewrite Hx. apply finish0. intros i Hi.
  replace (s2 n k i) with (sin (PI / INR n * (INR i + / 2) * INR (S k))) by (unfold s2; f_equal; field; apply nn). eapply trig_1; [|apply sc_n]. tri.
Qed.
Lemma dst4_I : sums_to (dst4 (F := G) x) (s4 n) x e25.
Proof.
  unfold dst4. apply fill_I. intros k Hk. eexists. split; [reflexivity|]. rewrite Hx. apply finish0. intros i Hi.
  replace (s4 n k i) with (sin (PI / INR n * (INR i + / 2) * (INR k + / 2))) by (unfold s4; f_equal; field; apply nn). eapply trig_1; [|apply sc_n]. tri.
Qed.
Lemma get_first : get x 0 = Done (nth 0 x zf). Proof. apply get_nth. lia. Qed.
Lemma dct3_I : sums_to (dct3 (F := G) x) (c3 n) x e25.
Proof.
  unfold dct3. apply fill_I. intros k Hk. unfold dct3_sum. rewrite get_first. cbn [bind]. eexists. split; [reflexivity|]. rewrite Hx. apply finish1; [reflexivity|]. intros i Hi.
  replace (c3 n k i) with (cos (PI / INR n * INR i * (INR k + / 2))) by (unfold c3; destruct (Nat.eqb_spec i 0); [lia|]; f_equal; field; apply nn). eapply trig_1; [|apply sc_n]. tri.
Qed.
Lemma dst3_I : sums_to (dst3 (F := G) x) (s3 n) x e25.
Proof.
  unfold dst3. apply fill_I. intros k Hk. unfold dst3_sum. rewrite get_first. cbn [bind]. eexists. split; [reflexivity|]. rewrite Hx. apply finish1; [reflexivity|]. intros i Hi.
  replace (s3 n k i) with (sin (PI / INR n * (INR k + / 2) * INR i)) by (unfold s3; destruct (Nat.eqb_spec i 0); [lia|]; f_equal; field; apply nn). eapply trig_1; [|apply sc_n]. tri.
Qed.
Lemma dst1_I : sums_to (dst1 (F := G) x) (s1 n) x e25.
Proof.
  unfold dst1. apply fill_I. intros k Hk. eexists. split; [reflexivity|]. rewrite Hx. apply finish0. intros i Hi.
  destruct (@p1_ok n ltac:(lia)) as [F E]. pose proof n1 as N1. pose proof n_big as NB. assert (SN : 1 <= INR (S n) <= 1000000000000000) by (rewrite S_INR; lra).
  replace (s1 n k i) with (sin (INR (S i) * INR (S k) * (PI / INR (S n)))) by (unfold s1; f_equal; field; lra).
  apply (@trig_1 _ _ (INR n * INR n * (PI / INR (S n)))).
  - destruct (tri_b SN n_ok) as [T1 T2]. replace (INR n * INR n * (PI / INR (S n))) with (PI / INR (S n) * INR n * INR n) by ring.
    eapply rk_mono; [replace (PI / INR (S n) * INR n * INR n) with (INR n * INR n * (PI / INR (S n))) by ring; apply (@rk_mul f o (0 + 0 + 1.01) 2.01); [apply rk_mul; [apply p1_rk; [lia|apply le_INR; lia]|apply p1_rk; [lia|apply le_INR; lia]|lra|nra]|apply div_rk; assumption|lra|lra]|lra].
  - replace (INR n * INR n * (PI / INR (S n))) with (PI / INR (S n) * INR n * INR n) by ring. apply scale_n; rewrite ?S_INR; lra.
Qed.
Lemma dht_I : sums_to (dht (F := G) x) (cas n) x (100 * INR n * bpow radix2 (- precf f) * (2 * rnorm xs) + 4 * INR n * least f).
Proof.
  unfold dht. apply fill_I. intros k Hk. eexists. split; [reflexivity|]. rewrite Hx. destruct tb as (V & T1 & T2). pose proof n1 as N1. pose proof n_big as NB. pose proof pi_b as PB.
  assert (Q : (1 + (87 + 2 + 1) / 2 * t) * (1 + 1.02 * t) <= 1 + 100 * t) by nra.
  destruct (@sum0_I 2 87 100 (cas n k) (fun i => @fadd _ G (@fcos _ G (@fmul _ G (@fdiv _ G (@fmul _ G (two (F := G)) (@fpi _ G)) (@fas _ G n)) (@fas _ G (i * k)))) (@fsin _ G (@fmul _ G (@fdiv _ G (@fmul _ G (two (F := G)) (@fpi _ G)) (@fas _ G n)) (@fas _ G (i * k))))) ltac:(lra) ltac:(lra) ltac:(lra) Q) as [R1 R2].
  - intros i Hi. destruct (lit2 o) as [F2 V2]. change (@flit _ G 2%Q) with (two (F := G)) in F2, V2. destruct (@as_n n ltac:(lia)) as [Fn En].
    assert (K2 : rk 0 2 2 (two (F := G))) by (split; [exact F2|]; rewrite V2, Rminus_diag_eq, Rabs_R0, Rabs_pos_eq by (reflexivity || lra); repeat split; lra).
    pose proof (inv_b n_ok) as I.
    assert (KF : rk 3.02 (2 * PI / INR n) (2 * PI / INR n) (@fdiv _ G (@fmul _ G (two (F := G)) (@fpi _ G)) (@fas _ G n))).
    { replace 3.02 with (0 + 1 + 1.01 + 1.01) by lra. apply rk_div; try assumption; try lra.
      apply rk_mul; [exact K2|apply pi_rk|lra|lra]. }
    assert (IK : INR (i * k) <= INR n * INR n) by (rewrite mult_INR; apply Rmult_le_compat; try apply pos_INR; apply le_INR; lia).
    assert (NN : 1 <= INR n * INR n <= 10000000000000000000000000000) by nra.
    assert (KI : rk 1 (INR n * INR n) (INR (i * k)) (@fas _ G (i * k))).
    { pose proof p100 as P100. destruct (@as_r f o (i * k)) as [Fa Ea]; [lra|]. pose proof (pos_INR (i * k)) as PP. split; [exact Fa|]. split; [rewrite Rabs_pos_eq; lra|]. split; [|lra]. rewrite Ea. eapply Rle_trans; [apply rn_err|]. rewrite Rabs_pos_eq by exact PP.
      pose proof (@eta_scale f (INR n * INR n) ltac:(lra)) as ET. nra. }
    destruct (tri_b n_ok n_ok) as [_ T3].
    assert (KA : rk 6.1 (2 * PI / INR n * (INR n * INR n)) (2 * PI / INR n * INR (i * k)) (@fmul _ G (@fdiv _ G (@fmul _ G (two (F := G)) (@fpi _ G)) (@fas _ G n)) (@fas _ G (i * k)))).
    { eapply rk_mono; [apply (@rk_mul f o 3.02 1); [exact KF|exact KI|lra|]|lra]. replace (2 * PI / INR n * (INR n * INR n)) with (2 * (PI / INR n * INR n * INR n)) by (unfold Rdiv; ring). lra. }
    destruct (@trig_I 2 _ _ _ KA ltac:(lra)) as [(Fc & Bc & Ec) (Fs & Bs & Es)].
    { replace (2 * PI / INR n * (INR n * INR n)) with (2 * (PI / INR n * INR n * INR n)) by (unfold Rdiv; ring). pose proof sc_n. lra. }
    unfold cas. replace (2 * PI * INR (i * k) / INR n) with (2 * PI / INR n * INR (i * k)) by (unfold Rdiv; ring).
    set (ang := 2 * PI / INR n * INR (i * k)) in *. set (th := @fmul _ G _ (@fas _ G (i * k))) in *. clearbody th ang.
    assert (M1 : Rabs (val (@fcos _ G th) + val (@fsin _ G th)) <= 2.9).
    { replace (val (@fcos _ G th) + val (@fsin _ G th)) with ((val (@fcos _ G th) - cos ang) + (val (@fsin _ G th) - sin ang) + cos ang + sin ang) by ring. eapply Rle_trans; [apply Rabs_triang|]. eapply Rle_trans; [apply Rplus_le_compat_r, Rabs_triang|]. pose proof (Rabs_triang (val (@fcos _ G th) - cos ang) (val (@fsin _ G th) - sin ang)). lra. }
    destruct (i_add HB (@fcos _ G th) (@fsin _ G th) Fc Fs) as [Fa Ea]; [eapply Rle_trans; [exact M1|apply small_max; lra]|].
    split; [exact Fa|]. split; [eapply Rle_trans; [apply Rabs_triang|]; lra|].
    replace (val (@fadd _ G (@fcos _ G th) (@fsin _ G th)) - (cos ang + sin ang)) with ((val (@fadd _ G (@fcos _ G th) (@fsin _ G th)) - (val (@fcos _ G th) + val (@fsin _ G th))) + (val (@fcos _ G th) - cos ang) + (val (@fsin _ G th) - sin ang)) by ring.
    eapply Rle_trans; [apply Rabs_triang|]. eapply Rle_trans; [apply Rplus_le_compat_r, Rabs_triang|]. pose proof (eta_small f) as ES. assert (ui <= 2 * v0) by (unfold L_ieee.ui; lra).
    assert (v0 * Rabs (val (@fcos _ G th) + val (@fsin _ G th)) <= v0 * 2.9) by (apply Rmult_le_compat_l; lra). lra.
  - split; [exact R1|]. eapply Rle_trans; [exact R2|]. right. unfold L_ieee.v0. ring.
Qed.
Lemma dct1_I : (2 <= n)%nat -> rnorm xs <= bpow radix2 (emaxf f - 5) -> sums_to (dct1 (F := G) x) (c1 n) x (52 * INR n * bpow radix2 (- precf f) * rnorm xs + 4 * INR n * least f).
Proof.
  intros H2 HN5.
  assert (E : dct1 (F := G) x = fill (zvec (F := G) (length x)) (dct1_sum (F := G) (@fdiv _ G (@fpi _ G) (@fsub _ G (@fas _ G (length x)) (@fone _ G))) x)).
  { destruct x as [|a [|b l]]; cbn in Hx; try lia. reflexivity. }
  rewrite E. clear E. apply fill_I. intros k Hk. unfold dct1_sum. rewrite get_first. cbn [bind]. rewrite (@get_nth _ x (length x - 1) zf) by lia. cbn [bind].
  eexists. split; [reflexivity|]. rewrite Hx. destruct tb as (V & T1 & T2). pose proof n1 as N1. pose proof n_big as NB. pose proof (etaf_pos f) as EP. pose proof (v0_small f) as VS.
  assert (IM : INR (n - 1) = INR n - 1) by (rewrite minus_INR by lia; reflexivity). assert (M1 : 1 <= INR (n - 1)) by (change 1 with (INR 1); apply le_INR; lia).
  assert (SB : fin (@fsub _ G (@fas _ G n) (@fone _ G)) /\ val (@fsub _ G (@fas _ G n) (@fone _ G)) = INR (n - 1)).
  { destruct (@as_n n ltac:(lia)) as [Fn En]. destruct (i_one HB) as [F1 E1]. destruct (@sub_r f o (@fas _ G n) (@fone _ G) Fn F1) as [Fs Es]; rewrite ?En, ?E1, <- ?IM in *.
    - rewrite Rabs_pos_eq by lra. apply small_max. lra.
    - split; [exact Fs|]. rewrite Es. apply nat_fmt. lra. }
  destruct SB as [FS ES]. assert (MB : 1 <= INR (n - 1) <= 1000000000000000) by lra.
  set (fac := @fdiv _ G (@fpi _ G) (@fsub _ G (@fas _ G n) (@fone _ G))). assert (KF : rk 2.01 (PI / INR (n - 1)) (PI / INR (n - 1)) fac) by (apply div_rk; assumption).
  set (l := skipn 1 (firstn (n - 1) x)). assert (Ll : length l = (n - 2)%nat) by (unfold l; rewrite skipn_length, firstn_length; lia).
  assert (NL : forall j, (j < n - 2)%nat -> nth j l zf = nth (1 + j) x zf).
  { intros j Hj. unfold l. rewrite nth_skipn. clear - Hj. assert (Q : (1 + j < n - 1)%nat) by lia. revert Q. generalize (1 + j)%nat (n - 1)%nat. intros i m. revert x m. induction i as [|i IH]; intros [|a y] [|m] Q; cbn; try lia; try reflexivity. apply IH. lia. }
  destruct (@c1_ends n Hn xs xs_len k H2) as (E0 & EL).
  assert (BX : forall i, (i < n)%nat -> Rabs (val (nth i x zf)) <= bpow radix2 (emaxf f - 5)) by (intros i Hi; rewrite <- xs_nth; eapply Rle_trans; [apply (x_le Hi)|exact HN5]).
  assert (B5 : bpow radix2 (emaxf f - 3) = 4 * bpow radix2 (emaxf f - 5)) by (rewrite (emax_2 3), (emax_2 (3 + 1)); change (3 + 1 + 1)%Z with 5%Z; ring).
  assert (B1 : 1 <= bpow radix2 (emaxf f - 5)) by (change 1 with (bpow radix2 0); apply bpow_le; clear; destruct f; cbn; lia).
  assert (B2 : bpow radix2 (emaxf f - 1) = 16 * bpow radix2 (emaxf f - 5)) by (rewrite (emax_2 1), (emax_2 (1 + 1)); change (1 + 1 + 1)%Z with 3%Z; rewrite B5; ring).
  assert (B3 : bpow radix2 (emaxf f - 2) = 8 * bpow radix2 (emaxf f - 5)) by (rewrite (emax_2 2); change (2 + 1)%Z with 3%Z; rewrite B5; ring).
  set (x0 := nth 0 x zf) in *. set (xl := nth (n - 1) x zf). pose proof (BX 0%nat ltac:(lia)) as BX0. fold x0 in BX0. pose proof (BX (n - 1)%nat ltac:(lia)) as BXl. fold xl in BXl.
  set (el := if Nat.even k then xl else @fneg _ G xl).
  assert (EF : fin el /\ val el = val xl * (if Nat.even k then 1 else -1)).
  { assert (Fl : fin xl) by (apply x_fin; lia). unfold el. destruct (Nat.even k); [split; [exact Fl|ring]|]. destruct (i_neg HB xl Fl) as [Fg Eg]. split; [exact Fg|]. rewrite Eg. ring. }
  destruct EF as [Fe Ee]. assert (Be : Rabs (val el) = Rabs (val xl)) by (rewrite Ee, Rabs_mult; destruct (Nat.even k); [rewrite Rabs_R1|rewrite (Rabs_left (-1)) by lra]; lra).
  assert (AB : Rabs (val x0 + val el) <= Rabs (val x0) + Rabs (val xl)) by (rewrite <- Be; apply Rabs_triang).
  destruct (i_add HB x0 el (x_fin Hn) Fe) as [Fh Eh]; [eapply Rle_trans; [exact AB|]; eapply Rle_trans; [|apply (@room (2 * bpow radix2 (emaxf f - 5)))]; lra|].
  pose proof (Rabs_pos (val x0)) as P0. pose proof (Rabs_pos (val xl)) as Pl.
  assert (ET : 24.5 * t * 2 <= 1) by lra.
  destruct (@enum_fin (fun i => xat xs i * c1 n k i) (fun i v => @fmul _ G (@fmul _ G (two (F := G)) v) (@fcos _ G (@fmul _ G (@fmul _ G fac (@fas _ G i)) (@fas _ G k)))) (fun i => 2 * Rabs (xat xs i)) l 1%nat
    (val x0 + val el) (@fadd _ G x0 el) (Rabs (val x0) + Rabs (val xl)) (1 + 24.5 * t) etaf (2.3 * etaf) (2 * rnorm xs) 26) as (R1 & R2); rewrite ?Ll; try lra; try lia.
  - nra.
  - rewrite norm_sum, (@split_ends n Hn xs xs_len (fun i => Rabs (xat xs i)) H2), rsum_scal. unfold xat at 2 3. rewrite !xs_nth. fold x0 xl. lra.
  - exact Fh.
  - eapply Rle_trans; [exact Eh|]. apply Rplus_le_compat_r. replace (1 + 24.5 * t - 1) with (24.5 * t) by ring. apply Rmult_le_compat; try apply Rabs_pos; lra.
  - intros j Hj. rewrite (NL j Hj). set (v := nth (1 + j) x zf). assert (Fv : fin v) by (apply x_fin; lia). pose proof (BX (1 + j)%nat ltac:(lia)) as BV. fold v in BV.
    unfold xat. rewrite xs_nth. fold v. pose proof (Rabs_pos (val v)) as Pv.
    assert (EC : c1 n k (1 + j) = 2 * cos (PI / INR (n - 1) * INR (1 + j) * INR k)).
    { unfold c1. destruct (Nat.eqb_spec (1 + j) 0); [lia|]. destruct (Nat.eqb_spec (1 + j) (n - 1)); [lia|]. cbn [orb]. f_equal. f_equal. rewrite <- IM. field. lra. }
    destruct (lit2 o) as [F2 V2]. change (@flit _ G 2%Q) with (two (F := G)) in F2, V2.
    assert (A2 : Rabs (2 * val v) = 2 * Rabs (val v)) by (rewrite Rabs_mult, (Rabs_pos_eq 2); lra).
    destruct (i_mul HB (two (F := G)) v F2 Fv) as [Fw Ew]; rewrite ?V2, ?A2 in *; [eapply Rle_trans; [|apply (@room (2 * bpow radix2 (emaxf f - 5)))]; lra|].
    set (w := @fmul _ G (two (F := G)) v) in *.
    assert (WB : Rabs (val w) <= 2.001 * Rabs (val v) + etaf). { replace (val w) with (2 * val v + (val w - 2 * val v)) by ring. eapply Rle_trans; [apply Rabs_triang|]. rewrite A2. assert (v0 * (2 * Rabs (val v)) <= / 16777216 * (2 * Rabs (val v))) by (apply Rmult_le_compat_r; lra). lra. }
    assert (WB' : Rabs (val w) <= 2 * Rabs (val v) + v0 * (2 * Rabs (val v)) + etaf). { replace (val w) with (2 * val v + (val w - 2 * val v)) by ring. eapply Rle_trans; [apply Rabs_triang|]. rewrite A2. lra. }
    assert (KC : knl 1 21.4 (cos (PI / INR (n - 1) * INR (1 + j) * INR k)) (@fcos _ G (@fmul _ G (@fmul _ G fac (@fas _ G (1 + j))) (@fas _ G k)))).
    { eapply trig_1; [eapply (@tri_rk 0 0 (INR (n - 1)) (INR (n - 1))); [exact MB|exact MB|exact KF|apply nat_rk; [lia|apply le_INR; lia]|apply nat_rk; [lia|apply le_INR; lia]|lra|lra]|]. apply scale_n; lra. }
    pose proof noise_small as NS. pose proof (least_eta f) as LE.
    assert (EB : etaf <= / 25). { rewrite <- LE in NS. assert (etaf <= INR n * etaf) by nra. lra. }
    destruct (@prod_I 1 21.4 _ _ w KC Fw) as (P1 & P2 & P3); try lra.
    rewrite EC. set (cc := cos (PI / INR (n - 1) * INR (1 + j) * INR k)) in *. assert (CB : Rabs cc <= 1) by apply abs_cos.
    split; [exact P1|]. split.
    + replace (val v * (2 * cc)) with (2 * val v * cc) by ring. rewrite Rabs_mult, A2. rewrite <- (Rmult_1_r (2 * Rabs (val v))) at 2. apply Rmult_le_compat_l; lra.
    + match goal with |- Rabs (?a - _) <= _ => replace (a - val v * (2 * cc)) with ((a - val w * cc) + (val w - 2 * val v) * cc) by ring end.
      eapply Rle_trans; [apply Rabs_triang|]. rewrite (Rabs_mult (val w - 2 * val v)).
      assert (Q1 : Rabs (val w - 2 * val v) * Rabs cc <= (v0 * (2 * Rabs (val v)) + etaf) * 1) by (apply Rmult_le_compat; try apply Rabs_pos; lra).
      assert (Q2 : (21.4 + 1 + 1) * t * Rabs (val w) <= 23.4 * t * (2.001 * Rabs (val v) + etaf)). { replace (21.4 + 1 + 1) with 23.4 by lra. apply Rmult_le_compat_l; lra. }
      assert (Q3 : t * etaf <= / 100 * etaf) by (apply Rmult_le_compat_r; lra). assert (Q4 : v0 * Rabs (val v) <= t * Rabs (val v)) by (apply Rmult_le_compat_r; lra). assert (Q5 : 0 <= t * Rabs (val v)) by (apply Rmult_le_pos; lra). lra.
  - rewrite Ll in R2. split; [exact R1|]. rewrite (@split_ends n Hn xs xs_len (fun i => xat xs i * c1 n k i) H2), E0, EL. unfold xat at 1 2. rewrite !xs_nth. fold x0 xl. rewrite Rmult_1_r, <- Ee.
    eapply Rle_trans; [exact R2|]. right. unfold L_ieee.v0. ring.
Qed.
End Sums.

(* ---------- C107 ---------- *)
(* f32 or f64, any finite signal whose absolute sum is below 2^(emax-3): no output is infinite or NaN, and each is within
   25 n 2^-prec |x|_1 of the exact sum (52 n for the first cosine transform, 200 n for the Hartley transform), up to 4 n least numbers *)
Theorem C107_dct : forall (f : fmt) (o : libm f) (x : list (num f)), accurate_sin_cos o -> (0 < length x)%nat -> 100 * INR (length x) <= bpow radix2 (precf f) ->
  finite_reals x -> rnorm (real_values x) <= bpow radix2 (emaxf f - 3) ->
  let n := length x in let e a := a * INR n * bpow radix2 (- precf f) * rnorm (real_values x) + 4 * INR n * least f in
  sums_to (dct2 (F := ieee o) x) (c2 n) x (e 25) /\ sums_to (dct3 (F := ieee o) x) (c3 n) x (e 25) /\ sums_to (dct4 (F := ieee o) x) (c4 n) x (e 25) /\
  ((2 <= n)%nat -> rnorm (real_values x) <= bpow radix2 (emaxf f - 5) -> sums_to (dct1 (F := ieee o) x) (c1 n) x (e 52)).
Proof.
  intros f o x HT Hn Hb Hf HN n e. split; [apply dct2_I; auto|]. split; [apply dct3_I; auto|]. split; [apply dct4_I; auto|]. intros H2 H5. apply dct1_I; auto.
Qed.
Print Assumptions C107_dct.
Theorem C107_dst : forall (f : fmt) (o : libm f) (x : list (num f)), accurate_sin_cos o -> (0 < length x)%nat -> 100 * INR (length x) <= bpow radix2 (precf f) ->
  finite_reals x -> rnorm (real_values x) <= bpow radix2 (emaxf f - 3) ->
  let n := length x in let e a := a * INR n * bpow radix2 (- precf f) * rnorm (real_values x) + 4 * INR n * least f in
  sums_to (dst1 (F := ieee o) x) (s1 n) x (e 25) /\ sums_to (dst2 (F := ieee o) x) (s2 n) x (e 25) /\ sums_to (dst3 (F := ieee o) x) (s3 n) x (e 25) /\ sums_to (dst4 (F := ieee o) x) (s4 n) x (e 25).
Proof.
  intros f o x HT Hn Hb Hf HN n e. split; [apply dst1_I; auto|]. split; [apply dst2_I; auto|]. split; [apply dst3_I; auto|apply dst4_I; auto].
Qed.
Print Assumptions C107_dst.
Theorem C107_dht : forall (f : fmt) (o : libm f) (x : list (num f)), accurate_sin_cos o -> (0 < length x)%nat -> 100 * INR (length x) <= bpow radix2 (precf f) ->
  finite_reals x -> rnorm (real_values x) <= bpow radix2 (emaxf f - 3) ->
  let n := length x in sums_to (dht (F := ieee o) x) (cas n) x (200 * INR n * bpow radix2 (- precf f) * rnorm (real_values x) + 4 * INR n * least f).
Proof.
  intros f o x HT Hn Hb Hf HN n. replace (200 * INR n * bpow radix2 (- precf f) * rnorm (real_values x)) with (100 * INR n * bpow radix2 (- precf f) * (2 * rnorm (real_values x))) by ring. apply dht_I; auto.
Qed.
Print Assumptions C107_dht.
(* a transform and its inverse, both in IEEE arithmetic, before the division by n/2 (by (n+1)/2 for dst1, by n for dht) *)
Definition returns (f : fmt) (r1 : exec (list (num f))) (r2 : list (num f) -> exec (list (num f))) (z : list R) (e : R) : Prop :=
  exists y w, r1 = Done y /\ r2 y = Done w /\ finite_reals y /\ finite_reals w /\ rwithin e (real_values w) z.
Lemma back (f : fmt) (o : libm f) (x : list (num f)) (f1 f2 : list (num f) -> exec (list (num f))) K1 K2 a C M : let n := length x in let t := INR n * bpow radix2 (- precf f) in
  (0 < n)%nat -> 100 * INR n <= bpow radix2 (precf f) -> 1 <= M <= 2 -> 0 <= C -> C * t <= 2 ->
  (M + C * t) * INR n * (rnorm (real_values x) + 1) <= bpow radix2 (emaxf f - 3) ->
  sums_to (f1 x) K1 x (C * INR n * bpow radix2 (- precf f) * rnorm (real_values x) + 4 * INR n * least f) ->
  (forall y, length y = n -> finite_reals y -> rnorm (real_values y) <= bpow radix2 (emaxf f - 3) -> sums_to (f2 y) K2 y (C * INR n * bpow radix2 (- precf f) * rnorm (real_values y) + 4 * INR n * least f)) ->
  (forall k i, (k < n)%nat -> (i < n)%nat -> Rabs (K1 k i) <= M) -> (forall k i, (k < n)%nat -> (i < n)%nat -> Rabs (K2 k i) <= M) ->
  sum_spec (sum_spec (real_values x) K1) K2 = scale a (real_values x) ->
  returns (f1 x) f2 (scale a (real_values x)) (C * (2 * M + C * t) * (INR n * INR n) * bpow radix2 (- precf f) * rnorm (real_values x) + (4 * (C * t) + 4 + 4 * M) * (INR n * INR n) * least f).
Proof.
  intros n t Hn Hb HM HC HCt HN (y & E1 & F1 & W1) H2 B1 B2 Ha. rewrite <- Ha. assert (Lx : length (real_values x) = n) by (unfold real_values; rewrite map_length; reflexivity).
  assert (N1 : 1 <= INR n) by (change 1 with (INR 1); apply le_INR; exact Hn). set (u := bpow radix2 (- precf f)) in *. assert (U : 0 < u) by apply bpow_gt_0.
  assert (LP : 0 < least f) by apply bpow_gt_0. pose proof (rnorm_pos (real_values x)) as P0. set (X := rnorm (real_values x)) in *.
  set (e1 := C * INR n * u * X + 4 * INR n * least f) in *. assert (T0 : 0 <= t) by (unfold t; nra).
  assert (e1E : e1 = C * t * X + 4 * (INR n * least f)) by (unfold e1, t; ring).
  assert (CT0 : 0 <= C * t) by (apply Rmult_le_pos; assumption). assert (NL : 0 <= INR n * least f) by (apply Rmult_le_pos; lra).
  assert (CX : 0 <= C * t * X) by (apply Rmult_le_pos; assumption).
  assert (E0 : 0 <= e1) by lra.
  assert (Ly : length y = n). { destruct W1 as [L _]. rewrite sum_spec_length, Lx in L. unfold real_values in L. rewrite map_length in L. exact L. }
  assert (LS : length (sum_spec (real_values x) K1) = n) by (rewrite sum_spec_length; exact Lx).
  pose proof (norm_move W1) as M2. rewrite LS in M2. pose proof (@norm_spec n M (real_values x) K1 Lx B1) as M3. fold X in M3.
  assert (NY : rnorm (real_values y) <= INR n * (M * X + e1)) by lra.
  assert (NS : 4 * (INR n * least f) <= / 25) by (pose proof (noise_small f Hn Hb); lra).
  assert (NYb : rnorm (real_values y) <= bpow radix2 (emaxf f - 3)).
  { eapply Rle_trans; [exact NY|]. eapply Rle_trans; [|exact HN]. replace ((M + C * t) * INR n * (X + 1)) with (INR n * ((M + C * t) * (X + 1))) by ring. apply Rmult_le_compat_l; [lra|]. rewrite e1E. lra. }
  destruct (H2 y Ly F1 NYb) as (w & E2 & F2 & W2). exists y, w. split; [exact E1|]. split; [exact E2|]. split; [exact F1|]. split; [exact F2|].
  pose proof (@spec_move n M _ _ K2 _ LS W1 B2 E0) as MV. split.
  - rewrite (proj1 W2), (proj1 MV). reflexivity.
  - intros k Hk. pose proof (proj2 MV k Hk) as D1. assert (Hk' : (k < length (sum_spec (real_values y) K2))%nat) by (rewrite (proj1 MV); exact Hk). pose proof (proj2 W2 k Hk') as D2.
    replace (nth k (real_values w) 0 - nth k (sum_spec (sum_spec (real_values x) K1) K2) 0) with ((nth k (real_values w) 0 - nth k (sum_spec (real_values y) K2) 0) + (nth k (sum_spec (real_values y) K2) 0 - nth k (sum_spec (sum_spec (real_values x) K1) K2) 0)) by ring.
    eapply Rle_trans; [apply Rabs_triang|]. eapply Rle_trans; [apply (Rplus_le_compat _ _ _ _ D2 D1)|].
    assert (D3 : C * INR n * u * rnorm (real_values y) <= C * t * (INR n * (M * X + e1))) by (replace (C * INR n * u * rnorm (real_values y)) with (C * t * rnorm (real_values y)) by (unfold t; ring); apply Rmult_le_compat_l; assumption).
    replace (C * (2 * M + C * t) * (INR n * INR n) * u * X) with ((2 * M + C * t) * (INR n * (C * t * X))) by (unfold t; ring).
    rewrite e1E in *. assert (NN : INR n * least f <= INR n * (INR n * least f)) by nra.
    apply Rle_trans with (C * t * (INR n * (M * X + (C * t * X + 4 * (INR n * least f)))) + 4 * (INR n * (INR n * least f)) + INR n * (C * t * X + 4 * (INR n * least f)) * M); [lra|]. right. ring.
Qed.
Theorem C107_roundtrip : forall (f : fmt) (o : libm f) (x : list (num f)), accurate_sin_cos o -> (0 < length x)%nat -> 100 * INR (length x) <= bpow radix2 (precf f) ->
  finite_reals x -> 4 * INR (length x) * (rnorm (real_values x) + 1) <= bpow radix2 (emaxf f - 3) ->
  let n := INR (length x) in let e a b := a * (n * n) * bpow radix2 (- precf f) * rnorm (real_values x) + b * (n * n) * least f in let v := real_values x in
  returns (dct2 (F := ieee o) x) (dct3 (F := ieee o)) (scale (n / 2) v) (e 57 9) /\
  returns (dct3 (F := ieee o) x) (dct2 (F := ieee o)) (scale (n / 2) v) (e 57 9) /\
  returns (dct4 (F := ieee o) x) (dct4 (F := ieee o)) (scale (n / 2) v) (e 57 9) /\
  returns (dst1 (F := ieee o) x) (dst1 (F := ieee o)) (scale ((n + 1) / 2) v) (e 57 9) /\
  returns (dst4 (F := ieee o) x) (dst4 (F := ieee o)) (scale (n / 2) v) (e 57 9) /\
  returns (dht (F := ieee o) x) (dht (F := ieee o)) (scale n v) (e 1200 20).
Proof.
  intros f o x HT Hn Hb Hf HN n e v. assert (Lx : length v = length x) by (unfold v, real_values; rewrite map_length; reflexivity).
  assert (N1 : 1 <= n) by (unfold n; change 1 with (INR 1); apply le_INR; exact Hn). pose proof (rnorm_pos v) as P0. fold n in Hb, HN. fold v in HN.
  destruct (tb f Hn Hb) as (V & T1 & T2). unfold L_ieee.v0 in V, T1, T2. fold n in T1, T2. set (u := bpow radix2 (- precf f)) in *.
  assert (LP : 0 < least f) by apply bpow_gt_0.
  assert (HX : rnorm v <= bpow radix2 (emaxf f - 3)) by nra.
  assert (W : forall C M a b r1 r2 z, C * (2 * M + C * (n * u)) <= a -> 4 * (C * (n * u)) + 4 + 4 * M <= b -> returns (f := f) r1 r2 z (C * (2 * M + C * (n * u)) * (n * n) * u * rnorm v + (4 * (C * (n * u)) + 4 + 4 * M) * (n * n) * least f) -> returns r1 r2 z (e a b)).
  { intros C M a b r1 r2 z A B (y & w & R1 & R2 & R3 & R4 & R5 & R6). exists y, w. split; [exact R1|]. split; [exact R2|]. split; [exact R3|]. split; [exact R4|]. split; [exact R5|]. intros k Hk. eapply Rle_trans; [apply R6; exact Hk|]. unfold e. fold v.
    assert (0 <= n * n) by nra. assert (0 <= n * n * least f) by (apply Rmult_le_pos; lra). assert (0 <= n * n * u * rnorm v) by (apply Rmult_le_pos; [apply Rmult_le_pos; lra|exact P0]).
    set (c1' := C * (2 * M + C * (n * u))) in *. set (c2' := 4 * (C * (n * u)) + 4 + 4 * M) in *. clearbody c1' c2'.
    apply Rplus_le_compat; rewrite !Rmult_assoc; (apply Rmult_le_compat_r; [rewrite <- ?Rmult_assoc in *; assumption|assumption]). }
  assert (G1 : (1 + 25 * (n * u)) * n * (rnorm v + 1) <= bpow radix2 (emaxf f - 3)).
  { eapply Rle_trans; [|exact HN]. apply Rmult_le_compat_r; [lra|]. apply Rmult_le_compat_r; lra. }
  assert (G2 : (2 + 200 * (n * u)) * n * (rnorm v + 1) <= bpow radix2 (emaxf f - 3)).
  { eapply Rle_trans; [|exact HN]. apply Rmult_le_compat_r; [lra|]. apply Rmult_le_compat_r; lra. }
  assert (R1 : forall k i, Rabs (c3 (length x) k i) <= 1) by (intros; unfold c3; destruct (i =? 0)%nat; [apply abs_half|apply abs_cos]).
  assert (R2 : forall k i, Rabs (cas (length x) k i) <= 2). { intros. unfold cas. eapply Rle_trans; [apply Rabs_triang|]. pose proof (abs_cos (2 * PI * INR (i * k) / INR (length x))). pose proof (abs_sin (2 * PI * INR (i * k) / INR (length x))). lra. }
  split; [|split; [|split; [|split; [|split]]]].
  - apply (W 25 1); [lra|lra|]. eapply (@back f o x _ _ (c2 (length x)) (c3 (length x))); try assumption; try lra; try (intros; apply R1); try (intros; apply abs_cos).
    + fold n u. lra. + apply dct2_I; auto. + intros; apply dct3_I; auto.
    + destruct (proj1 (C44_dct2_dct3_inverse v)) as (y & E1 & L & E2). rewrite dct2_R in E1. injection E1 as <-. rewrite dct3_R, L in E2. injection E2 as E2. rewrite Lx in E2. exact E2.
  - apply (W 25 1); [lra|lra|]. eapply (@back f o x _ _ (c3 (length x)) (c2 (length x))); try assumption; try lra; try (intros; apply R1); try (intros; apply abs_cos).
    + fold n u. lra. + apply dct3_I; auto. + intros; apply dct2_I; auto.
    + destruct (proj2 (C44_dct2_dct3_inverse v)) as (y & E1 & L & E2). rewrite dct3_R in E1. injection E1 as <-. rewrite dct2_R, L in E2. injection E2 as E2. rewrite Lx in E2. exact E2.
  - apply (W 25 1); [lra|lra|]. eapply (@back f o x _ _ (c4 (length x)) (c4 (length x))); try assumption; try lra; try (intros; apply abs_cos).
    + fold n u. lra. + apply dct4_I; auto. + intros; apply dct4_I; auto.
    + destruct (C45_dct4_involution v) as (y & E1 & L & E2). rewrite dct4_R in E1. injection E1 as <-. rewrite dct4_R, L in E2. injection E2 as E2. rewrite Lx in E2. exact E2.
  - apply (W 25 1); [lra|lra|]. eapply (@back f o x _ _ (s1 (length x)) (s1 (length x))); try assumption; try lra; try (intros; apply abs_sin).
    + fold n u. lra. + apply dst1_I; auto. + intros; apply dst1_I; auto.
    + destruct (C47_dst1_involution v) as (y & E1 & L & E2). rewrite dst1_R in E1. injection E1 as <-. rewrite dst1_R, L in E2. injection E2 as E2. rewrite Lx in E2. exact E2.
  - apply (W 25 1); [lra|lra|]. eapply (@back f o x _ _ (s4 (length x)) (s4 (length x))); try assumption; try lra; try (intros; apply abs_sin).
    + fold n u. lra. + apply dst4_I; auto. + intros; apply dst4_I; auto.
    + destruct (C47_dst4_involution v) as (y & E1 & L & E2). rewrite dst4_R in E1. injection E1 as <-. rewrite dst4_R, L in E2. injection E2 as E2. rewrite Lx in E2. exact E2.
  - apply (W 200 2); [lra|lra|]. eapply (@back f o x _ _ (cas (length x)) (cas (length x))); try assumption; try lra; try (intros; apply R2).
    + fold n u. lra. + apply C107_dht; auto. + intros y Hy Fy Ny. pose proof (@C107_dht f o y HT) as D. rewrite Hy in D. apply D; auto.
    + destruct (C50_dht_involution v) as (y & E1 & L & E2). rewrite dht_R in E1. injection E1 as <-. rewrite dht_R, L in E2. injection E2 as E2. rewrite Lx in E2. exact E2.
Qed.
Print Assumptions C107_roundtrip.
(* a correctly rounding library meets the hypothesis *)
Example C107_library : forall f : fmt, accurate_sin_cos (exact_libm f).
Proof.
  intros f t Ft. destruct (C89_tables f) as (A & B & _). destruct (A t Ft) as (A1 & A2). destruct (B t Ft) as (B1 & B2). auto.
Qed.
Lemma ones (f : fmt) : let x := repeat (norm f 1 0) 1000 in length x = 1000%nat /\ finite_reals x /\ rnorm (real_values x) = 1000.
Proof.
  cbv zeta. destruct (one_ok (exact_libm f)) as [F1 V1]. cbn [fone ieee] in F1, V1.
  assert (L : length (repeat (norm f 1 0) 1000) = 1000%nat) by apply repeat_length.
  assert (FR : finite_reals (repeat (norm f 1 0) 1000)) by (intros a Ha; apply repeat_spec in Ha; subst a; exact F1).
  assert (EI : INR 1000 = 1000) by (rewrite INR_IZR_INZ; reflexivity).
  assert (AV : forall a, In a (repeat (norm f 1 0) 1000) -> B2R a = 1) by (intros a Ha; apply repeat_spec in Ha; subst a; exact V1).
  set (x := repeat (norm f 1 0) 1000) in *. clearbody x.
  assert (LV : length (real_values x) = 1000%nat) by (unfold real_values; rewrite map_length; exact L).
  split; [exact L|]. split; [exact FR|]. unfold rnorm. rewrite LV. transitivity (rsum 1000 (fun _ => 1)); [|rewrite rsum_const, EI; lra]. apply rsum_ext. intros j Hj.
  assert (H : In (nth j (real_values x) 0) (real_values x)) by (apply nth_In; rewrite LV; exact Hj).
  unfold real_values in H at 2. apply in_map_iff in H. destruct H as (a & <- & Ha). rewrite (AV a Ha). apply Rabs_R1.
Qed.
(* 1000 ones (not a power of two): in f32 every output of dct2 is finite and within 2 of the exact sum *)
Example C107_ones : sums_to (dct2 (F := ieee (exact_libm B32)) (repeat (norm B32 1 0) 1000)) (c2 1000) (repeat (norm B32 1 0) 1000) 2.
Proof.
  destruct (ones B32) as (L & FR & RN). assert (EI : INR 1000 = 1000) by (rewrite INR_IZR_INZ; reflexivity).
  set (x := repeat (norm B32 1 0) 1000) in *. clearbody x.
  destruct (@C107_dct B32 (exact_libm B32) x (C107_library B32)) as ((y & E & FY & W) & _); rewrite ?L, ?EI, ?RN; try assumption.
  - apply Nat.ltb_lt. reflexivity.
  - change (bpow radix2 (precf B32)) with 16777216. lra.
  - apply Rle_trans with (bpow radix2 120); [pose proof p120; lra|apply bpow_le; cbn; lia].
  - rewrite L in W. exists y. split; [exact E|]. split; [exact FY|]. destruct W as [W1 W2]. split; [exact W1|]. intros k Hk. eapply Rle_trans; [apply W2; exact Hk|].
    rewrite EI, RN. change (bpow radix2 (- precf B32)) with (/ 16777216).
    assert (least B32 <= / 1000000). { unfold least. apply Rle_trans with (bpow radix2 (- 20)); [apply bpow_le; cbn; lia|]. change (bpow radix2 (-20)) with (/ 1048576). lra. }
    lra.
Qed.
(* in f64 dct3 after dct2 gives 500 times the signal, to within 10^-5 *)
Example C107_ones_back : returns (dct2 (F := ieee (exact_libm B64)) (repeat (norm B64 1 0) 1000)) (dct3 (F := ieee (exact_libm B64))) (scale 500 (real_values (repeat (norm B64 1 0) 1000))) (/ 100000).
Proof.
  destruct (ones B64) as (L & FR & RN). assert (EI : INR 1000 = 1000) by (rewrite INR_IZR_INZ; reflexivity).
  set (x := repeat (norm B64 1 0) 1000) in *. clearbody x.
  destruct (@C107_roundtrip B64 (exact_libm B64) x (C107_library B64)) as ((y & w & E1 & E2 & F1 & F2 & W1 & W2) & _); rewrite ?L, ?EI, ?RN; try assumption.
  - apply Nat.ltb_lt. reflexivity.
  - change (bpow radix2 (precf B64)) with 9007199254740992. lra.
  - apply Rle_trans with (bpow radix2 120); [pose proof p120; lra|apply bpow_le; cbn; lia].
  - rewrite L, EI in W1, W2. rewrite RN in W2. replace (1000 / 2) with 500 in W1, W2 by lra. exists y, w. split; [exact E1|]. split; [exact E2|]. split; [exact F1|]. split; [exact F2|]. split; [exact W1|]. intros k Hk. eapply Rle_trans; [apply W2; exact Hk|].
    change (bpow radix2 (- precf B64)) with (/ 9007199254740992).
    assert (least B64 <= / 1000000000000000). { unfold least. apply Rle_trans with (bpow radix2 (- 50)); [apply bpow_le; cbn; lia|]. change (bpow radix2 (-50)) with (/ 1125899906842624). lra. }
    lra.
Qed.

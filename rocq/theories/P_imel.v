(* Property C109: mel filter energies and mel-frequency cepstral coefficients in f32 arithmetic. *)
From Coq Require Import Reals Lra Lia ZArith List Bool.
From Flocq Require Import Core BinarySingleNaN.
From Verif Require Import L_err L_rerr L_flx L_ierr M_fft M_cep L_fft L_trig P_trig P_cep P_fft P_err P_rerr P_ierr P_irerr P_terr P_iterr P_ispec P_icep L_ieee L_ieeex.
Import ListNotations.
Set Implicit Arguments.
Open Scope R_scope.

(* ---------- specification: rnorm of P_rerr.v is the sum of the absolute values ---------- *)
Definition nonneg_reals (x : list (num B32)) : Prop := forall a, In a x -> is_finite a = true /\ 0 <= B2R a.

(* ---------- proofs ---------- *)
Section Lem.
Variables (o : libm B32) (lx : libx B32).
Local Notation G := (ieee o).
Local Notation H := (ieeex lx).
Local Notation fin := (fin (f := B32)).
Local Notation val := (val (f := B32)).
Local Notation v := (v0 B32).
Local Notation eta := (etaf B32).
Local Notation z0 := (B754_zero false : num B32).
Lemma one_1 : fin (@fone _ G) /\ val (@fone _ G) = 1. Proof. apply one_ok. Qed.
(* a weight is a number between 0 and 1, so that the product is at most the magnitude, rounded or not *)
Lemma weight_I num den (a : L_ieee.num B32) : (num <= den)%nat -> (1 <= den)%nat -> INR den <= bpow radix2 100 -> fin a -> 0 <= val a ->
  let t := @fmul _ G (@fdiv _ G (@fas _ G num) (@fas _ G den)) a in fin t /\ 0 <= val t <= val a.
Proof.
  intros Hn Hd Hb Fa Pa. destruct one_1 as [F1 V1]. assert (N0 : INR num <= INR den) by (apply le_INR; exact Hn). pose proof (pos_INR num) as P. assert (D1 : 1 <= INR den) by (change 1 with (INR 1); apply le_INR; exact Hd).
  destruct (@as_r B32 o num ltac:(lra)) as [Fn Vn]. destruct (@as_r B32 o den Hb) as [Fd Vd].
  assert (Q1 : 0 <= val (@fas _ G num) <= val (@fas _ G den)) by (rewrite Vn, Vd; split; [apply rn_pos; exact P|apply rn_mono; exact N0]).
  assert (Q2 : 1 <= val (@fas _ G den)) by (rewrite Vd, <- V1; apply rn_ge; rewrite V1; exact D1).
  set (x := @fas _ G num) in *. set (y := @fas _ G den) in *.
  assert (Q3 : 0 <= val x / val y <= 1) by (split; [apply Rmult_le_pos; [lra|left; apply Rinv_0_lt_compat; lra]|apply div_le; lra]).
  destruct (@div_r B32 o x y Fn Fd) as [Fw Vw]; [lra|rewrite Rabs_pos_eq by lra; pose proof (maxf_ge1 B32); lra|].
  assert (Q4 : 0 <= val (@fdiv _ G x y) <= 1) by (rewrite Vw; split; [apply rn_pos; lra|rewrite <- V1; apply rn_le; rewrite V1; lra]).
  set (w := @fdiv _ G x y) in *. assert (Q5 : 0 <= val w * val a <= val a) by nra. pose proof (val_max a) as M. rewrite Rabs_pos_eq in M by exact Pa.
  destruct (@mul_r B32 o w a Fw Fa) as [Ft Vt]; [rewrite Rabs_pos_eq; lra|]. split; [exact Ft|]. rewrite Vt. split; [apply rn_pos; lra|apply rn_le; lra].
Qed.
Section Tri.
Variable mags : list (num B32).
Hypothesis HM : nonneg_reals mags.
Let n := length mags.
Hypothesis Hn : INR n <= 4194304.
Let pre (k : nat) : R := rsum (Nat.min k n) (fun j => val (nth j mags z0)).
Hypothesis HS : pre n <= bpow radix2 126.
Let bd (k : nat) : R := (1 + 2 * (INR (Nat.min k n) * v)) * pre k + 2 * (INR (Nat.min k n) * eta).
Let ok (k : nat) (e : num B32) : Prop := fin e /\ 0 <= val e <= bd k.
Lemma mag_at k : (k < n)%nat -> fin (nth k mags z0) /\ 0 <= val (nth k mags z0). Proof. intros Hk. apply HM. apply nth_In. exact Hk. Qed.
Lemma pre_pos k : 0 <= pre k.
Proof. unfold pre. apply rsum_pos. intros j Hj. apply mag_at. lia. Qed.
Lemma pre_le k : pre k <= pre n.
Proof.
  unfold pre. rewrite Nat.min_id. set (m := Nat.min k n). assert (Hm : (m <= n)%nat) by (unfold m; lia). clearbody m. clear - Hm HM. induction (n - m)%nat as [|d IH] eqn:E in m, Hm |- *.
  - replace m with n by lia. lra.
  - eapply Rle_trans; [|apply (IH (S m)); lia]. cbn [rsum]. assert (0 <= val (nth m mags z0)) by (apply mag_at; unfold n in *; lia). lra.
Qed.
Lemma v_val : v = / 16777216. Proof. reflexivity. Qed.
Lemma eta_1 : 0 < eta <= / 1000000000000. Proof. split; [apply etaf_pos|]. pose proof (eta_small B32). pose proof (ui_small B32). pose proof (ui_pos B32). lra. Qed.
Lemma bd_top k : bd k <= 3 / 2 * pre n + 1 / 2.
Proof.
  unfold bd. pose proof (pre_pos k) as P. pose proof (pre_le k) as P2. pose proof eta_1 as E. assert (C : 0 <= INR (Nat.min k n) <= 4194304) by (split; [apply pos_INR|eapply Rle_trans; [apply le_INR, Nat.le_min_r|exact Hn]]).
  rewrite v_val. set (cc := INR (Nat.min k n)) in *. assert (cc * eta <= 4194304 * / 1000000000000) by (apply Rmult_le_compat; lra).
  apply Rle_trans with (3 / 2 * pre k + 1 / 2); [|lra]. apply Rplus_le_compat; [apply Rmult_le_compat_r; lra|lra].
Qed.
Lemma bd_mono k k' : (k <= k')%nat -> bd k <= bd k'.
Proof.
  intros Hk. unfold bd. assert (C : INR (Nat.min k n) <= INR (Nat.min k' n)) by (apply le_INR; lia). pose proof (pos_INR (Nat.min k n)). pose proof eta_1. pose proof (v0_pos B32). pose proof (pre_pos k).
  assert (P : pre k <= pre k').
  { unfold pre. assert (Hm : (Nat.min k n <= Nat.min k' n)%nat) by lia. assert (Hm2 : (Nat.min k' n <= n)%nat) by lia. revert Hm Hm2. generalize (Nat.min k n) (Nat.min k' n). clear - HM. intros a b Ha Hb. induction (b - a)%nat as [|d IH] eqn:E in a, Ha |- *.
    - replace a with b by lia. lra.
    - eapply Rle_trans; [|apply (IH (S a)); lia]. cbn [rsum]. assert (0 <= val (nth a mags z0)) by (apply mag_at; unfold n in *; lia). lra. }
  apply Rplus_le_compat; [apply Rmult_le_compat; nra|nra].
Qed.
Lemma step_I k e t : ok k e -> (k < n)%nat -> fin t -> 0 <= val t <= val (nth k mags z0) -> ok (S k) (@fadd _ G e t).
Proof.
  intros [Fe Be] Hk Ft Bt. pose proof (bd_top k) as TB. pose proof eta_1 as E. pose proof (pre_pos k) as P.
  assert (C : 0 <= INR k <= 4194304) by (split; [apply pos_INR|eapply Rle_trans; [apply lt_INR in Hk; left; exact Hk|exact Hn]]).
  assert (PS : pre (S k) = pre k + val (nth k mags z0)) by (unfold pre; rewrite !Nat.min_l by lia; reflexivity).
  assert (MX : 2 * bpow radix2 126 + bpow radix2 126 <= maxf B32 /\ 8 <= bpow radix2 126).
  { split; [pose proof (maxf_big B32) as M; change (bpow radix2 (emaxf B32 - 1)) with (bpow radix2 (1 + 126)) in M; rewrite bpow_plus in M; change (bpow radix2 (emaxf B32 - 2)) with (bpow radix2 126) in M; change (bpow radix2 1) with 2 in M; exact M|change 8 with (bpow radix2 3); apply bpow_le; lia]. }
  pose proof (pre_le (S k)) as P1.
  destruct (@add_r B32 o e t Fe Ft) as [Fs Vs]; [rewrite Rabs_pos_eq by lra; lra|]. split; [exact Fs|]. rewrite Vs. split; [apply rn_pos; lra|].
  pose proof (@rn_err B32 (val e + val t)) as R. rewrite (Rabs_pos_eq (val e + val t)) in R by lra. apply Rabs_le_inv in R. unfold bd in *. rewrite !Nat.min_l in * by lia. rewrite PS, S_INR. rewrite v_val in *.
  set (s := val (nth k mags z0)) in *. set (p := pre k) in *. set (cc := INR k) in *. set (x := val e + val t) in *.
  assert (X : x <= (1 + 2 * (cc * / 16777216)) * p + 2 * (cc * eta) + s) by (unfold x; lra).
  assert (cp : 0 <= cc * p) by (apply Rmult_le_pos; lra). assert (ce : 0 <= cc * eta) by (apply Rmult_le_pos; lra). assert (cs : 0 <= cc * s) by (apply Rmult_le_pos; lra).
  assert (cp2 : cc * p <= 4194304 * p) by (apply Rmult_le_compat_r; lra). assert (ce2 : cc * eta <= 4194304 * eta) by (apply Rmult_le_compat_r; lra).
  apply Rle_trans with (x + / 16777216 * x + eta); [lra|]. lra.
Qed.
Lemma up_I b0 b1 e : INR b1 <= bpow radix2 100 -> (b0 <= b1)%nat -> ok b0 e -> exists e', tri_up (F := G) mags b0 b1 e = Done e' /\ ok b1 e'.
Proof.
  intros Hb Hl He. apply (@for_inv _ ok); [exact Hl|exact He|]. intros k s Hk Hs. destruct (nth_error mags k) as [a|] eqn:Ea.
  - assert (Hk' : (k < n)%nat) by (apply nth_error_Some; congruence). apply (nth_error_nth mags k z0) in Ea. destruct (mag_at Hk') as [Fa Pa]. rewrite !usub_ok by lia. cbn [bind]. eexists. split; [reflexivity|].
    rewrite Ea in Fa, Pa. destruct (@weight_I (k - b0) (b1 - b0) a) as [Ft Bt]; [lia|lia| |exact Fa|exact Pa|]. { eapply Rle_trans; [apply le_INR|exact Hb]. lia. }
    apply step_I; [exact Hs|exact Hk'|exact Ft|rewrite Ea; exact Bt].
  - eexists. split; [reflexivity|]. destruct Hs as [F B]. split; [exact F|]. pose proof (@bd_mono k (S k) ltac:(lia)). lra.
Qed.
Lemma down_I b1 b2 e : INR b2 <= bpow radix2 100 -> (b1 <= b2)%nat -> ok b1 e -> exists e', tri_down (F := G) mags b1 b2 e = Done e' /\ ok b2 e'.
Proof.
  intros Hb Hl He. apply (@for_inv _ ok); [exact Hl|exact He|]. intros k s Hk Hs. destruct (nth_error mags k) as [a|] eqn:Ea.
  - assert (Hk' : (k < n)%nat) by (apply nth_error_Some; congruence). apply (nth_error_nth mags k z0) in Ea. destruct (mag_at Hk') as [Fa Pa]. rewrite !usub_ok by lia. cbn [bind]. eexists. split; [reflexivity|].
    rewrite Ea in Fa, Pa. destruct (@weight_I (b2 - k) (b2 - b1) a) as [Ft Bt]; [lia|lia| |exact Fa|exact Pa|]. { eapply Rle_trans; [apply le_INR|exact Hb]. lia. }
    apply step_I; [exact Hs|exact Hk'|exact Ft|rewrite Ea; exact Bt].
  - eexists. split; [reflexivity|]. destruct Hs as [F B]. split; [exact F|]. pose proof (@bd_mono k (S k) ltac:(lia)). lra.
Qed.
Lemma ok_zero k : ok k z0.
Proof.
  split; [reflexivity|]. change (val z0) with 0. split; [lra|]. unfold bd. pose proof (pre_pos k). pose proof (pos_INR (Nat.min k n)). pose proof eta_1. pose proof (v0_pos B32). assert (0 <= INR (Nat.min k n) * v) by nra. assert (0 <= INR (Nat.min k n) * eta) by nra. nra.
Qed.
Lemma one_I b0 b1 b2 : INR b1 <= bpow radix2 100 -> INR b2 <= bpow radix2 100 -> exists e, mel_one (F := G) mags b0 b1 b2 = Done e /\ fin e /\ 0 <= val e <= 3 / 2 * pre n + 1 / 2.
Proof.
  intros H1 H2. assert (W : forall k e, ok k e -> fin e /\ 0 <= val e <= 3 / 2 * pre n + 1 / 2) by (intros k e [F B]; pose proof (bd_top k); split; [exact F|lra]).
  unfold mel_one. destruct (_ || _); [exists z0; split; [reflexivity|apply (W 0%nat), ok_zero]|].
  assert (U : exists e, tri_up (F := G) mags b0 b1 (@fzero _ G) = Done e /\ ok b1 e).
  { destruct (le_lt_dec b0 b1); [apply up_I; [exact H1|assumption|apply ok_zero]|]. exists z0. split; [apply for_range_empty; lia|apply ok_zero]. }
  destruct U as (e & -> & He). cbn [bind]. destruct (le_lt_dec b1 b2) as [L|L].
  - destruct (@down_I b1 b2 e H2 L He) as (e' & E & O). exists e'. split; [exact E|apply (W b2), O].
  - exists e. split; [apply for_range_empty; lia|apply (W b1), He].
Qed.
End Tri.
Lemma usize_small g (a : num B32) : INR (to_usize g a) <= bpow radix2 100.
Proof.
  assert (Z : forall z, (z <= 2 ^ 64 - 1)%Z -> INR (Z.to_nat z) <= bpow radix2 100).
  { intros z Hz. rewrite INR_IZR_INZ. apply Rle_trans with (bpow radix2 64); [|apply bpow_le; lia]. change (bpow radix2 64) with (IZR (2 ^ 64)). apply IZR_le. lia. }
  destruct a as [s|[]| |s m e Hb]; cbn [to_usize]; try (change (INR 0) with 0; apply bpow_ge_0); [apply Z; lia|]. unfold sat. apply Z. lia.
Qed.
Lemma bins_small n0 rate nf i : INR (nth i (mel_bins (F := G) (X := H) n0 rate nf) 0%nat) <= bpow radix2 100.
Proof.
  destruct (le_lt_dec (nf + 2) i) as [L|L].
  - rewrite nth_overflow by (unfold mel_bins; rewrite tab_length; exact L). change (INR 0) with 0. apply bpow_ge_0.
  - unfold mel_bins. rewrite nth_tab by exact L. apply usize_small.
Qed.
Lemma mel_I mags rate nf : nonneg_reals mags -> INR (length mags) <= 4194304 -> rnorm (real_values mags) <= bpow radix2 126 ->
  exists es, mel_filterbank (F := G) (X := H) mags rate nf = Done es /\ length es = nf /\ forall i, (i < nf)%nat -> fin (nth i es z0) /\ 0 <= val (nth i es z0) <= 3 / 2 * rnorm (real_values mags) + 1 / 2.
Proof.
  intros HM Hn HS. set (n := length mags) in *.
  assert (ER : rnorm (real_values mags) = rsum (Nat.min n n) (fun j => val (nth j mags z0))).
  { unfold rnorm, real_values. rewrite map_length, Nat.min_id. apply rsum_ext. intros j Hj. change 0 with ((fun a : num B32 => B2R a) z0). rewrite map_nth. apply Rabs_pos_eq. apply HM, nth_In. exact Hj. }
  set (bins := mel_bins (F := G) (X := H) n rate nf).
  assert (O : forall i, exists e, mel_one (F := G) mags (nth i bins 0%nat) (nth (i + 1) bins 0%nat) (nth (i + 2) bins 0%nat) = Done e /\ fin e /\ 0 <= val e <= 3 / 2 * rnorm (real_values mags) + 1 / 2).
  { intros i. rewrite ER. apply one_I; try assumption; try apply bins_small. rewrite ER in HS. exact HS. }
  set (g := fun i => match mel_one (F := G) mags (nth i bins 0%nat) (nth (i + 1) bins 0%nat) (nth (i + 2) bins 0%nat) with Done e => e | _ => z0 end).
  exists (tab nf g). split.
  { apply mel_tab. intros i _. fold n bins. unfold g. destruct (O i) as (e & -> & _). reflexivity. }
  split; [apply tab_length|]. intros i Hi. rewrite nth_tab by exact Hi. unfold g. destruct (O i) as (e & -> & A). exact A.
Qed.
End Lem.
Lemma nth_first (A : Type) (l : list A) d : forall m k, (k < m)%nat -> nth k (firstn m l) d = nth k l d.
Proof. induction l as [|a l IH]; intros [|m] [|k] Hk; cbn; try lia; try reflexivity. apply IH. lia. Qed.
(* ---------- theorems ---------- *)
(* Whatever log10 and powf return, whatever the rate (zero, negative, infinite, NaN) and the number of filters: finite non-negative
   magnitudes give finite non-negative energies, none above one and a half times the sum of the magnitudes (plus a half for underflow) *)
Theorem C109_energies : forall (o : libm B32) (lx : libx B32) (mags : list (num B32)) (rate : num B32) (nf : nat),
  nonneg_reals mags -> INR (length mags) <= 4194304 -> rnorm (real_values mags) <= bpow radix2 126 ->
  exists es, mel_filterbank (F := ieee o) (X := ieeex lx) mags rate nf = Done es /\ length es = nf /\ forall e, In e es -> is_finite e = true /\ 0 <= B2R e <= 3 / 2 * rnorm (real_values mags) + 1 / 2.
Proof.
  intros o lx mags rate nf H1 H2 H3. destruct (@mel_I o lx mags rate nf H1 H2 H3) as (es & E & L & A). exists es. split; [exact E|]. split; [exact L|]. intros e He. destruct (In_nth _ _ (B754_zero false) He) as (i & Hi & <-). apply A. rewrite <- L. exact Hi.
Qed.
Print Assumptions C109_energies.
(* the coefficients: finite, at most 170 per filter, with a logarithm good to a millionth and sin and cos good to two units *)
Theorem C109_mfcc : forall (o : libm B32) (lx : libx B32) (mags : list (num B32)) (rate : num B32) (nmel ncoef : nat), accurate_sin_cos o -> accurate_ln lx ->
  nonneg_reals mags -> INR (length mags) <= 4194304 -> rnorm (real_values mags) <= bpow radix2 126 -> (0 < nmel)%nat -> (ncoef <= nmel)%nat -> 100 * INR nmel <= bpow radix2 (precf B32) ->
  exists y, mfcc (F := ieee o) (X := ieeex lx) mags rate nmel ncoef = Done (Ok y) /\ length y = ncoef /\ finite_reals y /\ forall k, (k < ncoef)%nat -> Rabs (nth k (real_values y) 0) <= 170 * INR nmel.
Proof.
  intros o lx mags rate nmel ncoef HT HL H1 H2 H3 Hm Hc Hb. destruct (C109_energies o lx rate nmel H1 H2 H3) as (es & E & L & A).
  set (G := ieee o) in *. set (q := fun a : num B32 => o_ln lx (@fadd _ G a (M_cep.tiny (F := G)))).
  assert (B : forall e, In e es -> is_finite (q e) = true /\ Rabs (B2R (q e)) <= 129).
  { intros e He. destruct (A e He) as [Fe Be]. destruct (tiny_v o) as (Ft & Et & Pt). fold G in Ft, Et, Pt. apply Rabs_le_inv in Et. change (B2R e) with (val e) in Be. unfold q. set (t := M_cep.tiny (F := G)) in *. cbn [pow] in Et. rewrite v_val in Et.
    assert (T : / 2000000000000 <= val t <= / 1000000000) by lra.
    assert (MX : 2 * bpow radix2 126 + bpow radix2 126 <= maxf B32 /\ 8 <= bpow radix2 126).
    { split; [pose proof (maxf_big B32) as M; change (bpow radix2 (emaxf B32 - 1)) with (bpow radix2 (1 + 126)) in M; rewrite bpow_plus in M; change (bpow radix2 (emaxf B32 - 2)) with (bpow radix2 126) in M; change (bpow radix2 1) with 2 in M; exact M|change 8 with (bpow radix2 3); apply bpow_le; lia]. }
    destruct (@add_r B32 o e t Fe Ft) as [Fs Vs]; [rewrite Rabs_pos_eq by lra; lra|]. fold G in Fs, Vs. pose proof (@rn_err B32 (val e + val t)) as R. rewrite <- Vs in R. rewrite (Rabs_pos_eq (val e + val t)) in R by lra.
    assert (LO : val t <= val (@fadd _ G e t)) by (rewrite Vs; apply rn_ge; lra). set (s := @fadd _ G e t) in *. apply Rabs_le_inv in R. rewrite v_val in R. pose proof eta_1 as ET.
    destruct (HL s Fs) as [FL VL]; [change (B2R s) with (val s); lra|]. split; [exact FL|]. change (B2R s) with (val s) in VL. set (l := B2R (o_ln lx s)) in *.
    assert (UP : val s <= 2 ^ 128). { apply Rle_trans with (4 * bpow radix2 126); [lra|]. right. rewrite (pow_IZR 2 128). change 4 with (bpow radix2 2). rewrite <- bpow_plus. reflexivity. }
    assert (DN : / 2 ^ 41 <= val s) by (cbn [pow]; lra).
    pose proof (ln_pow2 41) as L1. pose proof (ln_pow2 128) as L2. apply Rabs_le_inv in L1. apply Rabs_le_inv in L2. rewrite INR_IZR_INZ in L1, L2. cbn [Z.of_nat Pos.of_succ_nat Pos.succ] in L1, L2.
    assert (P : 0 < / 2 ^ 41) by (apply Rinv_0_lt_compat, pow_lt; lra).
    assert (E1 : ln (/ 2 ^ 41) <= ln (val s)) by (destruct DN as [D|<-]; [left; apply ln_increasing; assumption|right; reflexivity]).
    assert (E2 : ln (val s) <= ln (2 ^ 128)) by (destruct UP as [U|<-]; [left; apply ln_increasing; lra|right; reflexivity]).
    rewrite ln_Rinv in E1 by (apply pow_lt; lra). assert (LB : Rabs (ln (val s)) <= 128) by (apply Rabs_le; lra). apply Rabs_le_inv in VL. apply Rabs_le_inv in LB as LB'. apply Rabs_le. lra. }
  set (x := map q es). assert (Lx : length x = nmel) by (unfold x; rewrite map_length; exact L).
  assert (Fx : finite_reals x) by (intros a Ha; unfold x in Ha; apply in_map_iff in Ha; destruct Ha as (e & <- & He); apply B, He).
  assert (Nx : rnorm (real_values x) <= 129 * INR nmel).
  { unfold rnorm. assert (LR : length (real_values x) = nmel) by (unfold real_values; rewrite map_length; exact Lx). rewrite LR. apply Rle_trans with (rsum nmel (fun _ => 129)); [|rewrite rsum_const'; lra]. apply rsum_le'. intros j Hj.
    assert (I : In (nth j (real_values x) 0) (real_values x)) by (apply nth_In; rewrite LR; exact Hj). unfold real_values at 2 in I. apply in_map_iff in I. destruct I as (a & <- & Ha). unfold x in Ha. apply in_map_iff in Ha. destruct Ha as (e & <- & He). apply B, He. }
  change (bpow radix2 (precf B32)) with 16777216 in Hb. assert (N1 : 1 <= INR nmel) by (change 1 with (INR 1); apply le_INR; exact Hm).
  destruct (@C107_dct B32 o x HT) as ((y & Ey & Fy & Wy) & _); rewrite ?Lx; try assumption.
  { eapply Rle_trans; [exact Nx|]. apply Rle_trans with (bpow radix2 120); [pose proof p120; lra|apply bpow_le; cbn; lia]. }
  rewrite Lx in Wy. destruct Wy as [LY Wy]. rewrite sum_spec_length in LY, Wy. assert (LR : length (real_values x) = nmel) by (unfold real_values; rewrite map_length; exact Lx). rewrite LR in LY, Wy.
  assert (Ly : length y = nmel) by (unfold real_values in LY; rewrite map_length in LY; exact LY).
  exists (firstn ncoef y). split.
  { unfold mfcc. fold G. rewrite E. cbn [bind]. destruct (Nat.ltb_spec (length es) ncoef) as [C|C]; [exfalso; assert (length es = nmel) by exact L; lia|].
    change (map (fun a => fln (FloatX := ieeex lx) (@fadd _ G a (M_cep.tiny (F := G)))) es) with x. fold G in Ey. rewrite Ey. cbn [bind]. unfold slice_to. destruct (Nat.leb_spec ncoef (length y)) as [D|D]; [reflexivity|exfalso; assert (length y = nmel) by exact Ly; lia]. }
  split; [rewrite firstn_length_le; [reflexivity|]; assert (length y = nmel) by exact Ly; lia|].
  split. { intros a Ha. apply Fy. rewrite <- (firstn_skipn ncoef y). apply in_or_app. left. exact Ha. }
  intros k Hk. assert (NK : nth k (real_values (firstn ncoef y)) 0 = nth k (real_values y) 0).
  { unfold real_values. rewrite <- firstn_map. apply nth_first. exact Hk. }
  rewrite NK. specialize (Wy k ltac:(lia)). pose proof (noise_small B32 (n := nmel) Hm ltac:(change (bpow radix2 (precf B32)) with 16777216; lra)) as NS.
  assert (SB : Rabs (nth k (sum_spec (real_values x) (c2 nmel)) 0) <= rnorm (real_values x)).
  { unfold sum_spec. rewrite nth_tab by (rewrite LR; lia). eapply Rle_trans; [apply rsum_abs|]. unfold rnorm. apply rsum_le'. intros j _. unfold xat. rewrite Rabs_mult. pose proof (Rabs_pos (nth j (real_values x) 0)). assert (Rabs (c2 nmel k j) <= 1) by apply abs_cos. nra. }
  change (bpow radix2 (- precf B32)) with (/ 16777216) in Wy. pose proof (rnorm_pos (real_values x)) as P0. set (X := rnorm (real_values x)) in *.
  assert (K : 25 * INR nmel * / 16777216 * X <= / 4 * X) by (apply Rmult_le_compat_r; lra).
  apply Rabs_le_inv in Wy. apply Rabs_le_inv in SB. apply Rabs_le. lra.
Qed.
Print Assumptions C109_mfcc.
(* the batch: every frame gets its own coefficients, however many frames there are *)
Theorem C109_batch : forall (o : libm B32) (lx : libx B32) (batch : list (list (num B32))) (rate : num B32) (nmel ncoef : nat), accurate_sin_cos o -> accurate_ln lx ->
  (forall mags, In mags batch -> nonneg_reals mags /\ INR (length mags) <= 4194304 /\ rnorm (real_values mags) <= bpow radix2 126) -> (0 < nmel)%nat -> (ncoef <= nmel)%nat -> 100 * INR nmel <= bpow radix2 (precf B32) ->
  exists ys, mfcc_batch (F := ieee o) (X := ieeex lx) batch rate nmel ncoef = Done (Ok ys) /\
    Forall2 (fun mags y => mfcc (F := ieee o) (X := ieeex lx) mags rate nmel ncoef = Done (Ok y) /\ length y = ncoef /\ finite_reals y /\ forall k, (k < ncoef)%nat -> Rabs (nth k (real_values y) 0) <= 170 * INR nmel) batch ys.
Proof.
  intros o lx batch rate nmel ncoef HT HL HB Hm Hc Hb. induction batch as [|mags batch IH]; [exists nil; split; [reflexivity|constructor]|].
  destruct (HB mags (or_introl eq_refl)) as (H1 & H2 & H3). destruct (C109_mfcc rate HT HL H1 H2 H3 Hm Hc Hb) as (y & Y).
  destruct IH as (ys & E & A); [intros m Hi; apply HB; right; exact Hi|]. exists (y :: ys). split; [|constructor; [exact Y|exact A]].
  cbn [mfcc_batch]. destruct Y as [Y _]. rewrite Y. cbn [bind]. rewrite E. reflexivity.
Qed.
Print Assumptions C109_batch.
(* 64 ones *)
Example C109_ones : exists y, mfcc (F := ieee (exact_libm B32)) (X := ieeex exact_libx) (repeat (norm B32 1 0) 64) (norm B32 8000 0) 20 13 = Done (Ok y) /\ length y = 13%nat /\ finite_reals y.
Proof.
  destruct (one_ok (exact_libm B32)) as [F1 V1]. cbn [fone ieee] in F1, V1. destruct (real_ones (exact_libm B32) 64) as [_ RN]. assert (E64 : INR 64 = 64) by (rewrite INR_IZR_INZ; reflexivity). assert (E20 : INR 20 = 20) by (rewrite INR_IZR_INZ; reflexivity).
  destruct (@C109_mfcc (exact_libm B32) exact_libx (repeat (norm B32 1 0) 64) (norm B32 8000 0) 20 13 (C107_library B32) C108_library) as (y & Y1 & Y2 & Y3 & _).
  - intros a Ha. apply repeat_spec in Ha. subst a. split; [exact F1|]. change (B2R (norm B32 1 0)) with (val (norm B32 1 0)). rewrite V1. lra.
  - rewrite repeat_length, E64. lra.
  - rewrite RN, E64. change 64 with (bpow radix2 6). apply bpow_le. lia.
  - lia.
  - lia.
  - rewrite E20. change (bpow radix2 (precf B32)) with 16777216. lra.
  - exists y. auto.
Qed.

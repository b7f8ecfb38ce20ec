(* Property C90: the windows in f32 arithmetic. *)
From Coq Require Import Reals Lra Lia ZArith.
From Flocq Require Import Core BinarySingleNaN.
From Verif Require Import M_win L_trig P_trig P_cep P_win L_err L_flx L_pi L_ierr L_ieee L_ieeex P_ierr L_iwin.
Set Implicit Arguments.
Open Scope R_scope.
Local Notation f32 := (L_ieee.num B32).
Local Notation fin := (fin (f := B32)).
Local Notation val := (val (f := B32)).
Local Notation rn := (rn B32).

(* ---- specification ---- *)
(* every sample is a number between lo and hi *)
Definition ranged (lo hi : R) (w : list f32) : Prop := forall i, (i < length w)%nat -> fin (nth i w B754_nan) /\ lo <= val (nth i w B754_nan) <= hi.
(* every sample is a number within d of the formula g *)
Definition follows (d : R) (w : list f32) (g : nat -> R) : Prop := forall i, (i < length w)%nat -> fin (nth i w B754_nan) /\ Rabs (val (nth i w B754_nan) - g i) <= d.
Definition ideal_hann (n i : nat) : R := / 2 - / 2 * cos (2 * PI * INR i / INR n).
Definition ideal_hamming (n i : nat) : R := 0.54 - 0.46 * cos (2 * PI * INR i / INR n).
Definition ideal_blackman (n i : nat) : R := 0.42 - 0.5 * cos (2 * PI * INR i / INR n) + 0.08 * cos (4 * PI * INR i / INR n).
(* the same float read from both ends *)
Definition bit_mirror (w : list f32) : Prop := forall i, (i < length w)%nat -> nth (length w - 1 - i) w B754_nan = nth i w B754_nan.
Definition usize_len (n : nat) : Prop := INR n <= bpow radix2 64.

Lemma nth_tab' n (g : nat -> f32) i : (i < n)%nat -> nth i (tab n g) B754_nan = g i.
Proof. intros E. apply nth_tab. exact E. Qed.

Section One.
Variable o : libm B32.
Variable x : libx B32.
Local Notation G := (ieee o).
Local Notation H := (ieeex x).
Lemma cos_arg n i : (i < n)%nat -> usize_len n -> let t := @fdiv _ G (@fmul _ G (@fmul _ G (@flit _ G 2) (@fpi _ G)) (@fas _ G i)) (@fas _ G n) in
  fin t /\ Rabs (val t - 2 * PI * INR i / INR n) <= 32 / 10000000.
Proof.
  intros Hi Hn t. destruct (two_v o) as [F2 V2]. destruct (@angle1 o _ 2 n i F2 V2 ltac:(lra) ltac:(lia) ltac:(lia) Hn) as [F E]. split; [exact F|]. eapply Rle_trans; [exact E|]. pose proof PI_bounds. lra.
Qed.
(* k * c for |c| <= 1 *)
Lemma scale_b (k c : f32) : fin k -> fin c -> 0 <= val k -> -1 <= val c <= 1 -> fin (@fmul _ G k c) /\ - val k <= val (@fmul _ G k c) <= val k.
Proof.
  intros Fk Fc Hk Hc. destruct (opp_v Fk) as [Fo Vo]. destruct (@mul_b o k c (Bopp k) k Fk Fc Fo Fk) as [F B]; [rewrite Vo; nra|]. split; [exact F|]. rewrite Vo in B. exact B.
Qed.
Lemma hann_b n i : cos_bounded o -> (i < n)%nat -> usize_len n -> fin (@hann_at _ G n i) /\ 0 <= val (@hann_at _ G n i) <= 1.
Proof.
  intros HC Hi Hn. destruct (cos_arg Hi Hn) as [F _]. destruct (HC _ F) as [Fc Bc]. destruct (half_v o) as [Fh Vh].
  destruct (@scale_b (@M_rfft.half _ G) _ Fh Fc ltac:(lra) Bc) as [Fm Bm]. rewrite Vh in Bm.
  destruct (@sub_b o (@M_rfft.half _ G) _ (@fzero _ G) (@fone _ G) Fh Fm eq_refl (proj1 (one_v o))) as [Fs Bs].
  - rewrite Vh, (proj2 (one_v o)). change (val (@fzero _ G)) with 0. lra.
  - rewrite (proj2 (one_v o)) in Bs. change (val (@fzero _ G)) with 0 in Bs. split; [exact Fs|exact Bs].
Qed.
Definition c54 : f32 := @flit _ G (54 # 100).
Definition c46 : f32 := @flit _ G (46 # 100).
Lemma c54_v : fin c54 /\ val c54 = 9059697 / 16777216.
Proof. destruct (@kflt_val 9059697 (-24) c54) as [A B]; [vm_compute; reflexivity|]. split; [exact A|]. rewrite B. cbn. lra. Qed.
Lemma c46_v : fin c46 /\ val c46 = 15435039 / 33554432.
Proof. destruct (@kflt_val 15435039 (-25) c46) as [A B]; [vm_compute; reflexivity|]. split; [exact A|]. rewrite B. cbn. lra. Qed.
Lemma hamming_b n i : cos_bounded o -> (i < n)%nat -> usize_len n -> fin (@hamming_at _ G n i) /\ 0.08 <= val (@hamming_at _ G n i) <= 1.
Proof.
  intros HC Hi Hn. destruct (cos_arg Hi Hn) as [F _]. destruct (HC _ F) as [Fc Bc]. destruct c54_v as [F5 V5]. destruct c46_v as [F4 V4].
  destruct (@scale_b c46 _ F4 Fc ltac:(lra) Bc) as [Fm Bm].
  set (lo := @fsub _ G c54 c46). destruct (@kflt_val 10737420 (-27) lo) as [Fl Vl]; [vm_compute; reflexivity|]. change (bpow radix2 (-27)) with (/ 134217728) in Vl.
  set (hi := @fadd _ G c54 c46). destruct (@kflt_val 8388608 (-23) hi) as [Fh Vh]; [vm_compute; reflexivity|]. change (bpow radix2 (-23)) with (/ 8388608) in Vh.
  destruct (@sub_r _ o c54 c46 F5 F4) as [_ El]; [apply maxf_sf; rewrite V5, V4; apply Rabs_le; lra|]. fold lo in El. rewrite Vl in El.
  destruct (@add_r _ o c54 c46 F5 F4) as [_ Eh]; [apply maxf_sf; rewrite V5, V4; apply Rabs_le; lra|]. fold hi in Eh. rewrite Vh in Eh.
  destruct (@sub_r _ o c54 _ F5 Fm) as [Fs Es]; [apply maxf_sf; rewrite V5; rewrite V4 in Bm; apply Rabs_le; lra|].
  split; [exact Fs|]. change (@hamming_at _ G n i) with (@fsub _ G c54 (@fmul _ G c46 (@fcos _ G (@fdiv _ G (@fmul _ G (@fmul _ G (@flit _ G 2) (@fpi _ G)) (@fas _ G i)) (@fas _ G n))))).
  cbn [fcos ieee] in *. rewrite Es. split.
  - apply Rle_trans with (rn (val c54 - val c46)); [rewrite <- El; lra|apply rn_mono; lra].
  - apply Rle_trans with (rn (val c54 + val c46)); [apply rn_mono; lra|rewrite <- Eh; lra].
Qed.
(* ---- distance to the formulas ---- *)
Definition nearv (a : f32) (A e : R) : Prop := fin a /\ Rabs (val a - A) <= e.
Lemma rn_small r : Rabs r <= 3 -> Rabs (rn r - r) <= 2 / 10000000.
Proof.
  intros Hr. eapply Rle_trans; [apply rn_err|]. pose proof (v0_small B32). pose proof (v0_pos B32). pose proof (eta_small B32). pose proof (ui_small B32). pose proof (ui_pos B32). pose proof (Rabs_pos r). nra.
Qed.
Lemma near_mul kb k c K C e1 e2 : nearv k K e1 -> nearv c C e2 -> Rabs K <= kb <= 1 -> Rabs C <= 1 -> 0 <= e1 <= / 10 -> 0 <= e2 <= / 10 -> nearv (@fmul _ G k c) (K * C) (e1 + kb * e2 + e1 * e2 + 2 / 10000000).
Proof.
  intros [Fk Ek] [Fc Ec] HK HC B1 B2.
  assert (E : Rabs (val k * val c - K * C) <= e1 + kb * e2 + e1 * e2).
  { replace (val k * val c - K * C) with ((val k - K) * C + K * (val c - C) + (val k - K) * (val c - C)) by ring.
    eapply Rle_trans; [apply Rabs_triang|]. apply Rplus_le_compat; [eapply Rle_trans; [apply Rabs_triang|]; apply Rplus_le_compat|]; rewrite Rabs_mult; pose proof (Rabs_pos (val k - K)); pose proof (Rabs_pos (val c - C)); pose proof (Rabs_pos K); pose proof (Rabs_pos C); nra. }
  assert (Bd : Rabs (val k * val c) <= 3).
  { replace (val k * val c) with (K * C + (val k * val c - K * C)) by ring. eapply Rle_trans; [apply Rabs_triang|]. rewrite Rabs_mult. pose proof (Rabs_pos K). pose proof (Rabs_pos C). nra. }
  destruct (@mul_r _ o k c Fk Fc) as [F V]; [apply maxf_sf; lra|]. split; [exact F|]. rewrite V.
  replace (rn (val k * val c) - K * C) with ((rn (val k * val c) - val k * val c) + (val k * val c - K * C)) by ring. eapply Rle_trans; [apply Rabs_triang|]. pose proof (@rn_small _ Bd). lra.
Qed.
Lemma near_add a b A B e1 e2 : nearv a A e1 -> nearv b B e2 -> Rabs (A + B) <= 2 -> 0 <= e1 <= / 10 -> 0 <= e2 <= / 10 -> nearv (@fadd _ G a b) (A + B) (e1 + e2 + 2 / 10000000).
Proof.
  intros [Fa Ea] [Fb Eb] HS B1 B2.
  assert (E : Rabs (val a + val b - (A + B)) <= e1 + e2). { replace (val a + val b - (A + B)) with ((val a - A) + (val b - B)) by ring. eapply Rle_trans; [apply Rabs_triang|]. lra. }
  assert (Bd : Rabs (val a + val b) <= 3). { replace (val a + val b) with ((A + B) + (val a + val b - (A + B))) by ring. eapply Rle_trans; [apply Rabs_triang|]. lra. }
  destruct (@add_r _ o a b Fa Fb) as [F V]; [apply maxf_sf; lra|]. split; [exact F|]. rewrite V.
  replace (rn (val a + val b) - (A + B)) with ((rn (val a + val b) - (val a + val b)) + (val a + val b - (A + B))) by ring. eapply Rle_trans; [apply Rabs_triang|]. pose proof (@rn_small _ Bd). lra.
Qed.
Lemma near_sub a b A B e1 e2 : nearv a A e1 -> nearv b B e2 -> Rabs (A - B) <= 2 -> 0 <= e1 <= / 10 -> 0 <= e2 <= / 10 -> nearv (@fsub _ G a b) (A - B) (e1 + e2 + 2 / 10000000).
Proof.
  intros [Fa Ea] [Fb Eb] HS B1 B2.
  assert (E : Rabs (val a - val b - (A - B)) <= e1 + e2). { replace (val a - val b - (A - B)) with ((val a - A) + - (val b - B)) by ring. eapply Rle_trans; [apply Rabs_triang|]. rewrite Rabs_Ropp. lra. }
  assert (Bd : Rabs (val a - val b) <= 3). { replace (val a - val b) with ((A - B) + (val a - val b - (A - B))) by ring. eapply Rle_trans; [apply Rabs_triang|]. lra. }
  destruct (@sub_r _ o a b Fa Fb) as [F V]; [apply maxf_sf; lra|]. split; [exact F|]. rewrite V.
  replace (rn (val a - val b) - (A - B)) with ((rn (val a - val b) - (val a - val b)) + (val a - val b - (A - B))) by ring. eapply Rle_trans; [apply Rabs_triang|]. pose proof (@rn_small _ Bd). lra.
Qed.
Lemma near_cos t a e : cos_accurate o -> nearv t a e -> nearv (o_cos o t) (cos a) (e + / 8000000).
Proof.
  intros HC [Ft Et]. destruct (HC _ Ft) as [F E]. split; [exact F|]. replace (val (o_cos o t) - cos a) with ((val (o_cos o t) - cos (val t)) + (cos (val t) - cos a)) by ring.
  eapply Rle_trans; [apply Rabs_triang|]. pose proof (@cos_near _ _ _ Et). lra.
Qed.
Lemma near_lit (a : f32) m e A : kflt m e a -> Rabs (IZR (Zpos m) * bpow radix2 e - A) <= / 30000000 -> nearv a A (/ 30000000).
Proof. intros K E. destruct (kflt_val K) as [F V]. split; [exact F|]. rewrite V. exact E. Qed.
Lemma half_n : nearv (@M_rfft.half _ G) (/ 2) (/ 30000000).
Proof. destruct (half_v o) as [F V]. split; [exact F|]. rewrite V. rewrite Rminus_diag_eq by reflexivity. rewrite Rabs_R0. lra. Qed.
Lemma cosb a : Rabs (cos a) <= 1. Proof. apply Rabs_le, COS_bound. Qed.
Lemma hann_n n i : cos_accurate o -> (i < n)%nat -> usize_len n -> nearv (@hann_at _ G n i) (ideal_hann n i) (/ 200000).
Proof.
  intros HC Hi Hn. pose proof (cosb (2 * PI * INR i / INR n)) as Cb. apply Rabs_le_inv in Cb.
  pose proof (near_cos HC (cos_arg Hi Hn)) as N1. pose proof (@near_mul (/ 2) _ _ _ _ _ _ half_n N1 ltac:(rewrite Rabs_pos_eq; lra) (cosb _) ltac:(lra) ltac:(lra)) as N2.
  destruct (near_sub half_n N2 ltac:(apply Rabs_le; lra) ltac:(lra) ltac:(lra)) as [F E]. split; [exact F|]. eapply Rle_trans; [exact E|]. lra.
Qed.
Lemma c54_n : nearv c54 0.54 (/ 30000000). Proof. destruct c54_v as [F V]. split; [exact F|]. rewrite V. apply Rabs_le. lra. Qed.
Lemma c46_n : nearv c46 0.46 (/ 30000000). Proof. destruct c46_v as [F V]. split; [exact F|]. rewrite V. apply Rabs_le. lra. Qed.
Lemma hamming_n n i : cos_accurate o -> (i < n)%nat -> usize_len n -> nearv (@hamming_at _ G n i) (ideal_hamming n i) (/ 200000).
Proof.
  intros HC Hi Hn. pose proof (cosb (2 * PI * INR i / INR n)) as Cb. apply Rabs_le_inv in Cb.
  pose proof (near_cos HC (cos_arg Hi Hn)) as N1. pose proof (@near_mul (/ 2) _ _ _ _ _ _ c46_n N1 ltac:(rewrite Rabs_pos_eq; lra) (cosb _) ltac:(lra) ltac:(lra)) as N2.
  destruct (near_sub c54_n N2 ltac:(apply Rabs_le; lra) ltac:(lra) ltac:(lra)) as [F E]. split; [exact F|]. eapply Rle_trans; [exact E|]. lra.
Qed.
Lemma c42_n : nearv (@flit _ G (42 # 100)) 0.42 (/ 30000000).
Proof. apply (@near_lit _ 14092861 (-25)); [vm_compute; reflexivity|]. cbn. apply Rabs_le. lra. Qed.
Lemma c08_n : nearv (@flit _ G (8 # 100)) 0.08 (/ 30000000).
Proof. apply (@near_lit _ 10737418 (-27)); [vm_compute; reflexivity|]. cbn. apply Rabs_le. lra. Qed.
Lemma blackman_n n i : cos_accurate o -> (i < n)%nat -> usize_len n -> nearv (@blackman_at _ G n i) (ideal_blackman n i) (/ 200000).
Proof.
  intros HC Hi Hn. pose proof (cosb (2 * PI * INR i / INR n)) as Cb. apply Rabs_le_inv in Cb. pose proof (cosb (4 * PI * INR i / INR n)) as Cc. apply Rabs_le_inv in Cc.
  pose proof PI_bounds as Pb. destruct (two_v o) as [F2 V2]. destruct (four_v o) as [F4 V4].
  pose proof (@angle2 o _ 2 n i F2 V2 ltac:(lra) ltac:(lia) ltac:(lia) Hn) as A1. cbv zeta in A1. pose proof (@angle2 o _ 4 n i F4 V4 ltac:(lra) ltac:(lia) ltac:(lia) Hn) as A2. cbv zeta in A2.
  assert (L1 : nearv (@fmul _ G (@fmul _ G (@flit _ G 2) (@fpi _ G)) (@fdiv _ G (@fas _ G i) (@fas _ G n))) (2 * PI * INR i / INR n) (32 / 10000000)) by (destruct A1 as [? A1]; split; [assumption|lra]).
  assert (L2 : nearv (@fmul _ G (@fmul _ G (@flit _ G 4) (@fpi _ G)) (@fdiv _ G (@fas _ G i) (@fas _ G n))) (4 * PI * INR i / INR n) (63 / 10000000)) by (destruct A2 as [? A2]; split; [assumption|lra]).
  pose proof (near_cos HC L1) as N1. pose proof (near_cos HC L2) as N2.
  pose proof (@near_mul (/ 2) _ _ _ _ _ _ half_n N1 ltac:(rewrite Rabs_pos_eq; lra) (cosb _) ltac:(lra) ltac:(lra)) as M1.
  pose proof (@near_mul 0.08 _ _ _ _ _ _ c08_n N2 ltac:(rewrite Rabs_pos_eq; lra) (cosb _) ltac:(lra) ltac:(lra)) as M2.
  pose proof (near_sub c42_n M1 ltac:(apply Rabs_le; lra) ltac:(lra) ltac:(lra)) as S1.
  destruct (near_add S1 M2 ltac:(apply Rabs_le; lra) ltac:(lra) ltac:(lra)) as [F E]. split; [exact F|].
  eapply Rle_trans; [|eapply Rle_trans; [exact E|]].
  - right. do 2 f_equal. unfold ideal_blackman. replace 0.5 with (/ 2) by lra. reflexivity.
  - lra.
Qed.
(* ---- windows centred on the middle sample ---- *)
Definition ctr (n i : nat) : R := (2 * INR i - (INR n - 1)) / (INR n - 1).
Lemma ctr_b n i : (2 <= n)%nat -> (i < n)%nat -> -1 <= ctr n i <= 1.
Proof.
  intros Hn Hi. assert (2 <= INR n) by (change 2 with (INR 2); apply le_INR; lia). assert (Hi' : INR i + 1 <= INR n) by (rewrite <- S_INR; apply le_INR; lia). pose proof (pos_INR i).
  unfold ctr. split; apply Rmult_le_reg_r with (INR n - 1); try lra; unfold Rdiv; rewrite Rmult_assoc, Rinv_l by lra; lra.
Qed.
Lemma ctr_mirror n i : (2 <= n)%nat -> (i < n)%nat -> ctr n (n - 1 - i) = - ctr n i.
Proof.
  intros Hn Hi. unfold ctr. rewrite !minus_INR by lia. change (INR 1) with 1. assert (2 <= INR n) by (change 2 with (INR 2); apply le_INR; lia). field. lra.
Qed.
Lemma halfint n i : INR n <= 16777216 -> (i < n)%nat -> (2 <= n)%nat -> rn (INR i - (INR n - 1) / 2) = INR i - (INR n - 1) / 2.
Proof.
  intros Hm Hi Hn. replace (INR i - (INR n - 1) / 2) with (IZR (2 * Z.of_nat i - (Z.of_nat n - 1)) * bpow radix2 (-1)).
  - apply int_format; [|lia]. rewrite INR_IZR_INZ in Hm. apply le_IZR in Hm. lia.
  - rewrite minus_IZR, mult_IZR, minus_IZR, <- !INR_IZR_INZ. change (bpow radix2 (-1)) with (/ 2). lra.
Qed.
Lemma centred n i (m : f32) : fin m -> val m = (INR n - 1) / 2 -> (2 <= n)%nat -> INR n <= 16777216 -> (i < n)%nat ->
  let r := @fdiv _ G (@fsub _ G (@fas _ G i) m) m in fin r /\ val r = rn (ctr n i) /\ -1 <= val r <= 1.
Proof.
  intros Fm Vm Hn Hm Hi r. pose proof (ctr_b Hn Hi) as Cb.
  assert (N2 : 2 <= INR n) by (change 2 with (INR 2); apply le_INR; lia). assert (Hi' : INR i + 1 <= INR n) by (rewrite <- S_INR; apply le_INR; lia). pose proof (pos_INR i).
  destruct (@as_exact _ o i ltac:(lra)) as [Fi Vi].
  destruct (@sub_r _ o (@fas _ G i) m Fi Fm) as [Fs Vs]; [apply maxf_sf; rewrite Vi, Vm; apply Rabs_le; lra|]. rewrite Vi, Vm, (halfint Hm Hi Hn) in Vs.
  assert (Q : val (@fsub _ G (@fas _ G i) m) / val m = ctr n i) by (rewrite Vs, Vm; unfold ctr; field; lra).
  destruct (@div_r _ o (@fsub _ G (@fas _ G i) m) m Fs Fm) as [Fr Vr]; [rewrite Vm; lra|rewrite Q; apply maxf_sf, Rabs_le; lra|]. rewrite Q in Vr.
  split; [exact Fr|]. split; [exact Vr|]. unfold r. rewrite Vr. destruct (one_v o) as [F1 V1]. destruct (opp_v F1) as [Fo Vo]. rewrite V1 in Vo.
  split; [replace (-1) with (val (Bopp (@fone _ G))) by lra; apply rn_ge; lra|rewrite <- V1; apply rn_le; lra].
Qed.
Lemma middle n : (2 <= n)%nat -> INR n <= 16777216 -> let m := @fdiv _ G (@fsub _ G (@fas _ G n) (@fone _ G)) (@flit _ G 2) in fin m /\ val m = (INR n - 1) / 2.
Proof.
  intros Hn Hm m. assert (N2 : 2 <= INR n) by (change 2 with (INR 2); apply le_INR; lia). destruct (@as_exact _ o n Hm) as [Fn Vn]. destruct (one_v o) as [F1 V1]. destruct (two_v o) as [F2 V2].
  destruct (@sub_r _ o (@fas _ G n) (@fone _ G) Fn F1) as [Fs Vs]; [apply maxf_sf; rewrite Vn, V1; apply Rabs_le; lra|]. rewrite Vn, V1 in Vs.
  replace (INR n - 1) with (IZR (Z.of_nat n - 1) * bpow radix2 0) in Vs by (rewrite minus_IZR, <- INR_IZR_INZ; cbn; ring).
  rewrite int_format in Vs; [|rewrite INR_IZR_INZ in Hm; apply le_IZR in Hm; lia|lia].
  destruct (@div_r _ o (@fsub _ G (@fas _ G n) (@fone _ G)) (@flit _ G 2) Fs F2) as [Fd Vd]; [lra|rewrite Vs, V2; apply maxf_sf; rewrite minus_IZR, <- INR_IZR_INZ; cbn; apply Rabs_le; lra|].
  split; [exact Fd|]. unfold m. rewrite Vd, Vs, V2. replace (IZR (Z.of_nat n - 1) * bpow radix2 0 / 2) with (IZR (Z.of_nat n - 1) * bpow radix2 (-1)) by (change (bpow radix2 0) with 1; change (bpow radix2 (-1)) with (/ 2); lra).
  rewrite int_format; [|rewrite INR_IZR_INZ in Hm; apply le_IZR in Hm; lia|lia]. rewrite minus_IZR, <- INR_IZR_INZ. change (bpow radix2 (-1)) with (/ 2). lra.
Qed.
Lemma middle_k n : (2 <= n)%nat -> INR n <= 16777216 -> let m := @fdiv _ G (@fas _ G (n - 1)) (@flit _ G 2) in fin m /\ val m = (INR n - 1) / 2.
Proof.
  intros Hn Hm m. assert (N2 : 2 <= INR n) by (change 2 with (INR 2); apply le_INR; lia). destruct (two_v o) as [F2 V2].
  assert (En : INR (n - 1) = INR n - 1) by (rewrite minus_INR by lia; reflexivity).
  destruct (@as_exact _ o (n - 1) ltac:(lra)) as [Fn Vn].
  destruct (@div_r _ o (@fas _ G (n - 1)) (@flit _ G 2) Fn F2) as [Fd Vd]; [lra|rewrite Vn, En, V2; apply maxf_sf, Rabs_le; lra|].
  split; [exact Fd|]. unfold m. rewrite Vd, Vn, En, V2. replace ((INR n - 1) / 2) with (IZR (Z.of_nat n - 1) * bpow radix2 (-1)) by (change (bpow radix2 (-1)) with (/ 2); rewrite minus_IZR, <- INR_IZR_INZ; lra).
  apply int_format; [rewrite INR_IZR_INZ in Hm; apply le_IZR in Hm; lia|lia].
Qed.
Definition bart (n i : nat) : f32 := let h := @fdiv _ G (@fsub _ G (@fas _ G n) (@fone _ G)) (@flit _ G 2) in @fsub _ G (@fone _ G) (@fabs _ H (@fdiv _ G (@fsub _ G (@fas _ G i) h) h)).
Lemma fill_g n (g : nat -> exec f32) h : (forall k, (k < n)%nat -> g k = Done (h k)) -> @fill f32 (@zvec _ G n) g = Done (tab n h).
Proof. intros E. assert (L : length (@zvec _ G n) = n) by apply repeat_length. rewrite (@fill_tab _ (@zvec _ G n) g h); rewrite L; [reflexivity|exact E]. Qed.
Lemma bartlett_tab n : @bartlett _ G H n = Done (tab n (bart n)).
Proof. unfold bartlett. apply fill_g. intros k Hk. reflexivity. Qed.
Lemma sub_sign (a b : f32) : fin a -> fin b -> Bsign a = false -> 0 <= val a - val b -> Bsign (@fsub _ G a b) = false.
Proof.
  intros Fa Fb Sa Hd. pose proof (Bminus_correct (precf B32) (emaxf B32) (precf_pos B32) (precf_emax B32) mode_NE a b Fa Fb) as P.
  destruct (Rlt_bool _ _) in P.
  - destruct P as (_ & _ & P). etransitivity; [exact P|]. unfold L_ieee.val in Hd. rewrite Sa. destruct (Rcompare_spec (B2R a - B2R b) 0) as [E|E|E]; [lra|reflexivity|reflexivity].
  - destruct P as (P & _). cbn [fsub ieee]. rewrite Sa in P. destruct (Bminus mode_NE a b) as [s|s| |s m e Hb]; cbn in P; try discriminate P; cbn; congruence.
Qed.
Lemma bart_ok n i : (2 <= n)%nat -> INR n <= 16777216 -> (i < n)%nat -> fin (bart n i) /\ 0 <= val (bart n i) <= 1 /\ val (bart n i) = rn (1 - Rabs (rn (ctr n i))) /\ Bsign (bart n i) = false /\
  bart n (n - 1 - i) = bart n i.
Proof.
  intros Hn Hm Hi. destruct (middle Hn Hm) as [Fm Vm]. destruct (one_v o) as [F1 V1].
  assert (K : forall j, (j < n)%nat -> fin (bart n j) /\ 0 <= val (bart n j) <= 1 /\ val (bart n j) = rn (1 - Rabs (rn (ctr n j))) /\ Bsign (bart n j) = false).
  { intros j Hj. destruct (centred Fm Vm Hn Hm Hj) as (Fr & Vr & Br). cbv zeta in *. destruct (abs_r x Fr) as [Fa Va].
    assert (A : 0 <= Rabs (val (@fdiv _ G (@fsub _ G (@fas _ G j) (@fdiv _ G (@fsub _ G (@fas _ G n) (@fone _ G)) (@flit _ G 2))) (@fdiv _ G (@fsub _ G (@fas _ G n) (@fone _ G)) (@flit _ G 2)))) <= 1) by (split; [apply Rabs_pos|apply Rabs_le; exact Br]).
    destruct (@sub_b o (@fone _ G) _ (@fzero _ G) (@fone _ G) F1 Fa eq_refl F1) as [Fb Bb]; [rewrite Va, V1; change (val (@fzero _ G)) with 0; lra|].
    destruct (@sub_r _ o (@fone _ G) _ F1 Fa) as [_ Vb]; [rewrite Va, V1; apply maxf_sf, Rabs_le; lra|].
    rewrite V1 in Bb. change (val (@fzero _ G)) with 0 in Bb. split; [exact Fb|]. split; [exact Bb|]. split; [unfold bart; rewrite Vb, V1, Va, Vr; reflexivity|].
    apply (@sub_sign (@fone _ G) _ F1 Fa); [vm_compute; reflexivity|rewrite V1, Va; lra]. }
  destruct (K i Hi) as (F & B & V & S). repeat (split; [assumption|]).
  destruct (K (n - 1 - i)%nat ltac:(lia)) as (F' & B' & V' & S').
  apply B2R_Bsign_inj; [exact F'|exact F| |rewrite S, S'; reflexivity]. change (val (bart n (n - 1 - i)) = val (bart n i)). rewrite V, V', (ctr_mirror Hn Hi), rn_neg, Rabs_Ropp. reflexivity.
Qed.
(* ---- the Kaiser window: bessel0 is monotone in f32 ---- *)
Definition dom (a b : f32) : Prop := fin a /\ fin b /\ 0 <= val a <= val b.
Lemma emax_lt r s : 0 <= r <= s -> Rlt_bool (Rabs (rn s)) (bpow radix2 (emaxf B32)) = true -> Rlt_bool (Rabs (rn r)) (bpow radix2 (emaxf B32)) = true /\ 0 <= rn r <= rn s.
Proof.
  intros Hr Hs. assert (M : 0 <= rn r <= rn s) by (split; [apply rn_pos; lra|apply rn_mono; lra]). split; [|exact M].
  destruct (Rlt_bool_spec (Rabs (rn s)) (bpow radix2 (emaxf B32))); [|discriminate Hs]. apply Rlt_bool_true. rewrite Rabs_pos_eq in * by lra. lra.
Qed.
Lemma overflow_inf (a : f32) s : B2SF a = binary_overflow (precf B32) (emaxf B32) mode_NE s -> ~ fin a.
Proof. intros E F. unfold L_ieee.fin in F. destruct a as [t|t| |t m e Hb]; cbn in E; try discriminate E; discriminate F. Qed.
Lemma dom_add a b c d : dom a b -> dom c d -> fin (@fadd _ G b d) -> dom (@fadd _ G a c) (@fadd _ G b d).
Proof.
  intros (Fa & Fb & Vab) (Fc & Fd & Vcd) F. pose proof (Bplus_correct (precf B32) (emaxf B32) (precf_pos B32) (precf_emax B32) mode_NE b d Fb Fd) as P.
  change (round radix2 (SpecFloat.fexp (precf B32) (emaxf B32)) (round_mode mode_NE) (B2R b + B2R d)) with (rn (val b + val d)) in P.
  destruct (Rlt_bool (Rabs (rn (val b + val d))) (bpow radix2 (emaxf B32))) eqn:E; [|destruct P as [P _]; exfalso; exact (overflow_inf P F)]. destruct P as (P & _).
  destruct (@emax_lt (val a + val c) (val b + val d) ltac:(lra) E) as [E' M].
  pose proof (Bplus_correct (precf B32) (emaxf B32) (precf_pos B32) (precf_emax B32) mode_NE a c Fa Fc) as Q.
  change (round radix2 (SpecFloat.fexp (precf B32) (emaxf B32)) (round_mode mode_NE) (B2R a + B2R c)) with (rn (val a + val c)) in Q. rewrite E' in Q. destruct Q as (Q & Q2 & _).
  split; [exact Q2|]. split; [exact F|]. change (0 <= B2R (Bplus mode_NE a c) <= B2R (Bplus mode_NE b d)). rewrite P, Q. exact M.
Qed.
Lemma dom_mul a b c d : dom a b -> dom c d -> fin (@fmul _ G b d) -> dom (@fmul _ G a c) (@fmul _ G b d).
Proof.
  intros (Fa & Fb & Vab) (Fc & Fd & Vcd) F. pose proof (Bmult_correct (precf B32) (emaxf B32) (precf_pos B32) (precf_emax B32) mode_NE b d) as P.
  change (round radix2 (SpecFloat.fexp (precf B32) (emaxf B32)) (round_mode mode_NE) (B2R b * B2R d)) with (rn (val b * val d)) in P.
  destruct (Rlt_bool (Rabs (rn (val b * val d))) (bpow radix2 (emaxf B32))) eqn:E; [|exfalso; exact (overflow_inf P F)]. destruct P as (P & _).
  destruct (@emax_lt (val a * val c) (val b * val d) ltac:(nra) E) as [E' M].
  pose proof (Bmult_correct (precf B32) (emaxf B32) (precf_pos B32) (precf_emax B32) mode_NE a c) as Q.
  change (round radix2 (SpecFloat.fexp (precf B32) (emaxf B32)) (round_mode mode_NE) (B2R a * B2R c)) with (rn (val a * val c)) in Q. rewrite E' in Q. destruct Q as (Q & Q2 & _).
  split; [unfold L_ieee.fin in *; cbn [fmul ieee]; rewrite Q2, Fa, Fc; reflexivity|]. split; [exact F|]. change (0 <= B2R (Bmult mode_NE a c) <= B2R (Bmult mode_NE b d)). rewrite P, Q. exact M.
Qed.
Lemma dom_div a b (k : f32) : dom a b -> fin k -> 1 <= val k -> dom (@fdiv _ G a k) (@fdiv _ G b k).
Proof.
  intros (Fa & Fb & Vab) Fk Vk. assert (I : 0 < / val k <= 1). { split; [apply Rinv_0_lt_compat; lra|]. rewrite <- Rinv_1. apply Rinv_le_contravar; lra. }
  assert (Hb : 0 <= val a / val k <= val b / val k) by (unfold Rdiv; split; [nra|apply Rmult_le_compat_r; lra]). assert (Hc : val b / val k <= val b) by (unfold Rdiv; nra).
  destruct (@div_r _ o b k Fb Fk) as [F1 V1]; [lra|apply (@between (@fzero _ G) b _ eq_refl Fb); change (val (@fzero _ G)) with 0; lra|].
  destruct (@div_r _ o a k Fa Fk) as [F2 V2]; [lra|apply (@between (@fzero _ G) b _ eq_refl Fb); change (val (@fzero _ G)) with 0; lra|].
  split; [exact F2|]. split; [exact F1|]. rewrite V1, V2. split; [apply rn_pos; lra|apply rn_mono; lra].
Qed.
(* the loop of bessel0 *)
Fixpoint bes (y sum t k : f32) (ns : list nat) : f32 :=
  match ns with
  | [] => sum
  | n :: ns => let k := @fmul _ G k (@fas _ G n) in bes y (@fadd _ G sum (@fdiv _ G t (@fmul _ G k k))) (@fmul _ G t y) k ns
  end.
(* every intermediate result that is used is finite *)
Fixpoint bok (y sum t k : f32) (ns : list nat) : bool :=
  match ns with
  | [] => true
  | n :: ns => let k := @fmul _ G k (@fas _ G n) in let s := @fadd _ G sum (@fdiv _ G t (@fmul _ G k k)) in
      is_finite (@fmul _ G k k) && Bleb (@fone _ G) (@fmul _ G k k) && is_finite s && match ns with [] => true | _ => is_finite (@fmul _ G t y) end && bok y s (@fmul _ G t y) k ns
  end.
Lemma bessel_bes a : @bessel0 _ G a = let y := @fdiv _ G (@fmul _ G a a) (@flit _ G 4) in bes y (@fone _ G) y (@fone _ G) (seq 1 19).
Proof.
  unfold bessel0. cbv zeta. set (y := fdiv _ _).
  assert (K : forall ns s t k, (let '(sum, _, _) := fold_left (fun '(sum, t, k) n => let k := @fmul _ G k (@fas _ G n) in (@fadd _ G sum (@fdiv _ G t (@fmul _ G k k)), @fmul _ G t y, k)) ns (s, t, k) in sum) = bes y s t k ns).
  { induction ns as [|n ns IH]; intros s t k; [reflexivity|]. cbn [fold_left bes]. cbv zeta. apply IH. }
  apply K.
Qed.
Lemma bes_dom ns : forall y y' s s' t t' k, dom y y' -> dom s s' -> dom t t' -> 1 <= val s -> bok y' s' t' k ns = true ->
  bok y s t k ns = true /\ dom (bes y s t k ns) (bes y' s' t' k ns) /\ 1 <= val (bes y s t k ns).
Proof.
  induction ns as [|n ns IH]; intros y y' s s' t t' k Dy Ds Dt S1 B; [repeat split; try apply Ds; exact S1|].
  cbn [bok] in B. cbv zeta in B. cbn [bok bes]. cbv zeta. set (k' := @fmul _ G k (@fas _ G n)) in *.
  apply andb_prop in B. destruct B as [B B5]. apply andb_prop in B. destruct B as [B B4]. apply andb_prop in B. destruct B as [B B3]. apply andb_prop in B. destruct B as [B1 B2].
  rewrite B1, B2. cbn [andb].
  assert (K1 : 1 <= val (@fmul _ G k' k')). { destruct (one_v o) as [F1 V1]. rewrite (Bleb_correct _ _ _ _ F1 B1) in B2. destruct (Rle_bool_spec (B2R (@fone _ G)) (B2R (@fmul _ G k' k'))) as [Q|Q]; [|discriminate B2]. rewrite <- V1. exact Q. }
  pose proof (dom_div Dt B1 K1) as Dq. pose proof (dom_add Ds Dq B3) as Dn. set (s2 := @fadd _ G s (@fdiv _ G t (@fmul _ G k' k'))) in *.
  assert (S2 : 1 <= val s2).
  { destruct (one_v o) as [F1 V1]. rewrite <- V1. destruct Dn as (Fn & Fn' & _). destruct Ds as (Fs & _ & Vs). destruct Dq as (Fq & _ & Vq). unfold s2.
    pose proof (Bplus_correct (precf B32) (emaxf B32) (precf_pos B32) (precf_emax B32) mode_NE s (@fdiv _ G t (@fmul _ G k' k')) Fs Fq) as P.
    destruct (Rlt_bool _ _) in P; [|destruct P as [P _]; exfalso; exact (overflow_inf P Fn)]. destruct P as (P & _). unfold L_ieee.val at 2. cbn [fadd ieee]. rewrite P.
    apply (@rn_ge B32). change (val (@fone _ G) <= val s + val (@fdiv _ G t (@fmul _ G k' k'))). rewrite V1. lra. }
  destruct ns as [|n2 ns].
  - cbn [bok bes] in *. destruct Dn as (Fn & Fn' & Vn). unfold L_ieee.fin in Fn. rewrite Fn. repeat split; try assumption; lra.
  - pose proof (dom_mul Dt Dy B4) as Dm. destruct (IH _ _ _ _ _ _ k' Dy Dn Dm S2 B5) as (I1 & I2 & I3). destruct Dn as (Fn & _). destruct Dm as (Fm & _). unfold L_ieee.fin in Fn, Fm. rewrite Fn, Fm, I1. repeat split; try assumption; apply I2.
Qed.
Definition besy (a : f32) : f32 := @fdiv _ G (@fmul _ G a a) (@flit _ G 4).
Definition f20 : f32 := @fas _ G 20.
Lemma f20_v : fin f20 /\ val f20 = 20. Proof. destruct (@as_exact _ o 20) as [F V]; [cbn; lra|]. split; [exact F|]. unfold f20. rewrite V. cbn. lra. Qed.
Lemma besy_dom a b : fin a -> fin b -> Rabs (val a) <= Rabs (val b) <= 20 -> dom (besy a) (besy b).
Proof.
  intros Fa Fb Hab. pose proof (Rabs_pos (val a)). destruct (four_v o) as [F4 V4].
  assert (Sa : 0 <= val a * val a <= val b * val b). { split; [apply Rle_0_sqr|]. change (Rsqr (val a) <= Rsqr (val b)). apply Rsqr_le_abs_1. lra. }
  assert (Sb : val b * val b <= 400). { replace 400 with (Rsqr 20) by (unfold Rsqr; lra). change (Rsqr (val b) <= Rsqr 20). apply Rsqr_le_abs_1. rewrite (Rabs_pos_eq 20) by lra. lra. }
  destruct (@mul_r _ o a a Fa Fa) as [F1 V1]; [apply maxf_sf, Rabs_le; lra|]. destruct (@mul_r _ o b b Fb Fb) as [F2 V2]; [apply maxf_sf, Rabs_le; lra|].
  unfold besy. apply dom_div; [|exact F4|lra]. split; [exact F1|]. split; [exact F2|]. rewrite V1, V2. split; [apply rn_pos; lra|apply rn_mono; lra].
Qed.
Lemma bok20 : bok (besy f20) (@fone _ G) (besy f20) (@fone _ G) (seq 1 19) = true. Proof. vm_compute. reflexivity. Qed.
Lemma one_dom : dom (@fone _ G) (@fone _ G). Proof. destruct (one_v o) as [F1 V1]. repeat split; try exact F1; lra. Qed.
Lemma bes20 : val (@bessel0 _ G f20) <= bpow radix2 26.
Proof. rewrite bessel_bes. destruct (@kflt_val 10889029 2 (bes (besy f20) (@fone _ G) (besy f20) (@fone _ G) (seq 1 19))) as [F V]; [vm_compute; reflexivity|]. unfold besy in V. cbv zeta. rewrite V. cbn. lra. Qed.
Lemma bessel_mono a b : fin a -> fin b -> Rabs (val a) <= Rabs (val b) <= 20 -> dom (@bessel0 _ G a) (@bessel0 _ G b) /\ 1 <= val (@bessel0 _ G a) /\ val (@bessel0 _ G b) <= bpow radix2 26.
Proof.
  intros Fa Fb Hab. destruct f20_v as [F2 V2]. assert (D2 : dom (besy b) (besy f20)) by (apply besy_dom; [exact Fb|exact F2|rewrite V2, (Rabs_pos_eq 20) by lra; lra]).
  assert (S1 : 1 <= val (@fone _ G)) by (rewrite (proj2 (one_v o)); lra).
  destruct (@bes_dom (seq 1 19) (besy b) (besy f20) (@fone _ G) (@fone _ G) (besy b) (besy f20) (@fone _ G) D2 one_dom D2 S1 bok20) as (B1 & B2 & _).
  pose proof (besy_dom Fa Fb Hab) as D1.
  destruct (@bes_dom (seq 1 19) (besy a) (besy b) (@fone _ G) (@fone _ G) (besy a) (besy b) (@fone _ G) D1 one_dom D1 S1 B1) as (_ & C2 & C3).
  pose proof bes20 as B20. rewrite bessel_bes in B20. cbv zeta in B20. rewrite !bessel_bes. cbv zeta. split; [exact C2|]. split; [exact C3|]. eapply Rle_trans; [apply B2|exact B20].
Qed.
Definition kai (n : nat) (beta : f32) (i : nat) : f32 :=
  let m := @fdiv _ G (@fas _ G (n - 1)) (@flit _ G 2) in let r := @fdiv _ G (@fsub _ G (@fas _ G i) m) m in
  @fdiv _ G (@bessel0 _ G (@fmul _ G beta (@fsqrt _ H (@fsub _ G (@fone _ G) (@fmul _ G r r))))) (@bessel0 _ G beta).
Lemma kaiser_tab n beta : (1 <= n)%nat -> @kaiser _ G H n beta = Done (tab n (kai n beta)).
Proof. intros Hn. unfold kaiser. rewrite P_cep.usub_ok by lia. cbn [bind]. apply f_equal. unfold kai. cbv zeta. reflexivity. Qed.
Lemma kai_ok n beta i : (2 <= n)%nat -> INR n <= 16777216 -> (i < n)%nat -> fin beta -> Rabs (val beta) <= 20 ->
  fin (kai n beta i) /\ bpow radix2 (-26) <= val (kai n beta i) <= 1 /\ kai n beta (n - 1 - i) = kai n beta i /\ ((n - 1 = 2 * i)%nat -> val (kai n beta i) = 1).
Proof.
  intros Hn Hm Hi Fb Hb. destruct (middle_k Hn Hm) as [Fm Vm]. set (m := @fdiv _ G (@fas _ G (n - 1)) (@flit _ G 2)) in *. cbv zeta in *. destruct (one_v o) as [F1 V1].
  assert (K : forall j, (j < n)%nat -> let r := @fdiv _ G (@fsub _ G (@fas _ G j) m) m in
     fin (@fmul _ G r r) /\ val (@fmul _ G r r) = rn (rn (ctr n j) * rn (ctr n j)) /\ 0 <= val (@fmul _ G r r) <= 1 /\ Bsign (@fmul _ G r r) = false).
  { intros j Hj r. destruct (centred Fm Vm Hn Hm Hj) as (Fr & Vr & Br). cbv zeta in *. fold r in Fr, Vr, Br.
    assert (Sq : 0 <= val r * val r <= 1) by nra. destruct (@mul_r _ o r r Fr Fr) as [F V]; [apply maxf_sf, Rabs_le; lra|].
    split; [exact F|]. split; [rewrite V, Vr; reflexivity|]. split; [rewrite V; split; [apply rn_pos; lra|rewrite <- V1; apply rn_le; lra]|].
    pose proof (Bmult_correct (precf B32) (emaxf B32) (precf_pos B32) (precf_emax B32) mode_NE r r) as P.
    destruct (Rlt_bool _ _) in P; [|exfalso; exact (overflow_inf P F)]. destruct P as (_ & _ & P). cbn [fmul ieee]. rewrite P.
    - apply xorb_nilpotent.
    - destruct (Bmult mode_NE r r) eqn:E; try reflexivity. exfalso. unfold L_ieee.fin in F. cbn [fmul ieee] in F. rewrite E in F. discriminate F. }
  destruct (K i Hi) as (Fq & Vq & Bq & Sq). cbv zeta in *. set (r := @fdiv _ G (@fsub _ G (@fas _ G i) m) m) in *.
  destruct (@sub_b o (@fone _ G) (@fmul _ G r r) (@fzero _ G) (@fone _ G) F1 Fq eq_refl F1) as [Fs Bs]; [rewrite V1; change (val (@fzero _ G)) with 0; lra|]. rewrite V1 in Bs. change (val (@fzero _ G)) with 0 in Bs.
  destruct (sqrt_r x Fs (proj1 Bs)) as [Ft Vt]. set (t := @fsqrt _ H (@fsub _ G (@fone _ G) (@fmul _ G r r))) in *.
  assert (Bt : 0 <= val t <= 1). { rewrite Vt. assert (0 <= sqrt (val (@fsub _ G (@fone _ G) (@fmul _ G r r))) <= 1) by (split; [apply sqrt_pos|]; rewrite <- sqrt_1; apply sqrt_le_1_alt; lra). split; [apply rn_pos; lra|rewrite <- V1; apply rn_le; lra]. }
  assert (Pb : Rabs (val beta * val t) <= Rabs (val beta)) by (rewrite Rabs_mult, (Rabs_pos_eq (val t)) by lra; pose proof (Rabs_pos (val beta)); nra).
  destruct (@mul_r _ o beta t Fb Ft) as [Fa Va]; [apply maxf_sf; lra|].
  assert (Ba : Rabs (val (@fmul _ G beta t)) <= Rabs (val beta)).
  { rewrite Va. unfold L_ieee.rn. apply abs_round_le_generic; [apply fexp_correct, precf_pos|typeclasses eauto|apply generic_format_abs, (@val_format B32)|exact Pb]. }
  destruct (bessel_mono Fa Fb (conj Ba Hb)) as ((Fx & Fy & Vxy) & X1 & Y1).
  set (bx := @bessel0 _ G (@fmul _ G beta t)) in *. set (by_ := @bessel0 _ G beta) in *.
  assert (Q : bpow radix2 (-26) <= val bx / val by_ <= 1).
  { assert (I : 0 < / val by_) by (apply Rinv_0_lt_compat; lra). unfold Rdiv. split.
    - apply Rle_trans with (/ val by_); [|nra]. change (bpow radix2 (-26)) with (/ bpow radix2 26). apply Rinv_le_contravar; [lra|exact Y1].
    - apply Rmult_le_reg_r with (val by_); [lra|]. rewrite Rmult_assoc, Rinv_l by lra. lra. }
  destruct (@div_r _ o bx by_ Fx Fy) as [Fk Vk]; [lra|apply maxf_sf, Rabs_le; pose proof (bpow_gt_0 radix2 (-26)); lra|].
  assert (Ek : kai n beta i = @fdiv _ G bx by_) by reflexivity. rewrite Ek. split; [exact Fk|]. split; [|split].
  - rewrite Vk. split; [|rewrite <- V1; apply rn_le; lra]. apply Rle_trans with (rn (bpow radix2 (-26))); [|apply rn_mono; lra]. right. symmetry. apply round_generic; [typeclasses eauto|].
    apply (@generic_format_bpow radix2 (FLT_exp (SpecFloat.emin 24 128) 24)). cbn. lia.
  - rewrite <- Ek. destruct (K (n - 1 - i)%nat ltac:(lia)) as (Fq' & Vq' & _ & Sq'). cbv zeta in *. unfold kai. fold m. fold r.
    assert (E : @fmul _ G (@fdiv _ G (@fsub _ G (@fas _ G (n - 1 - i)) m) m) (@fdiv _ G (@fsub _ G (@fas _ G (n - 1 - i)) m) m) = @fmul _ G r r).
    { apply B2R_Bsign_inj; [exact Fq'|exact Fq| |rewrite Sq, Sq'; reflexivity]. etransitivity; [exact Vq'|]. etransitivity; [|symmetry; exact Vq]. rewrite (ctr_mirror Hn Hi), rn_neg. f_equal. ring. }
    rewrite E. reflexivity.
  - intros Hc. assert (C0 : ctr n i = 0). { unfold ctr. replace (INR n - 1) with (2 * INR i); [unfold Rdiv; ring|]. assert (E : INR (n - 1) = INR (2 * i)) by (rewrite Hc; reflexivity). rewrite minus_INR in E by lia. rewrite mult_INR in E. cbn [INR] in E. lra. }
    assert (Zq : val (@fmul _ G r r) = 0) by (rewrite Vq, C0, (@rn_0 B32), Rmult_0_l; apply (@rn_0 B32)).
    destruct (@sub_r _ o (@fone _ G) (@fmul _ G r r) F1 Fq) as [_ Vs]; [rewrite V1, Zq; apply maxf_sf, Rabs_le; lra|]. rewrite Zq, Rminus_0_r, (@rn_val B32 (@fone _ G)), V1 in Vs.
    rewrite Vs, sqrt_1, <- V1, (@rn_val B32 (@fone _ G)), V1 in Vt. rewrite Vt, Rmult_1_r, (@rn_val B32 beta) in Va.
    destruct (@bessel_mono beta (@fmul _ G beta t) Fb Fa ltac:(rewrite Va; lra)) as ((_ & _ & Vyx) & _). fold bx by_ in Vyx.
    assert (Exy : val bx = val by_) by lra. assert (E1 : val bx / val by_ = 1) by (rewrite Exy; unfold Rdiv; apply Rinv_r; lra).
    rewrite Vk, E1, <- V1. apply (@rn_val B32).
Qed.
(* ---- the Tukey window ---- *)
Lemma floor_le (q : f32) : fin q -> 0 <= val q -> INR (@ffloor _ H q) <= val q.
Proof.
  intros Fq Hq. cbn [ffloor ieeex]. destruct q as [s|s| |s m e Hb]; try discriminate Fq; [exact Hq|].
  unfold to_usize, sat. assert (S : s = false). { destruct s; [|reflexivity]. exfalso. unfold L_ieee.val, B2R in Hq. cbn [cond_Zopp] in Hq. pose proof (@F2R_lt_0 radix2 (Flocq.Core.Defs.Float radix2 (- Zpos m) e) ltac:(cbn; lia)). cbn in *. lra. }
  subst s. assert (K : (0 <= zfloor false m e)%Z /\ IZR (zfloor false m e) <= val (B754_finite false m e Hb)).
  { unfold zfloor, L_ieee.val, B2R, F2R. cbn [cond_Zopp Fnum Fexp]. destruct (Z.leb_spec 0 e) as [E|E].
    - split; [apply Z.mul_nonneg_nonneg; [lia|apply Z.pow_nonneg; lia]|]. rewrite mult_IZR. right. f_equal. rewrite <- (IZR_Zpower radix2) by exact E. reflexivity.
    - assert (P : (0 < 2 ^ (- e))%Z) by (apply Z.pow_pos_nonneg; lia). split; [apply Z.div_pos; lia|].
      assert (D : (Zpos m / 2 ^ (- e) * 2 ^ (- e) <= Zpos m)%Z) by (rewrite Z.mul_comm; apply Z.mul_div_le; exact P). apply IZR_le in D. rewrite mult_IZR in D.
      assert (B : IZR (2 ^ (- e)) = bpow radix2 (- e)) by (rewrite <- (IZR_Zpower radix2) by lia; reflexivity). rewrite B in D.
      assert (Q : bpow radix2 (- e) * bpow radix2 e = 1) by (rewrite <- bpow_plus, Z.add_opp_diag_l; reflexivity).
      apply Rmult_le_compat_r with (r := bpow radix2 e) in D; [|apply bpow_ge_0]. rewrite Rmult_assoc, Q, Rmult_1_r in D. exact D. }
  destruct K as [K1 K2]. eapply Rle_trans; [|exact K2]. rewrite INR_IZR_INZ, Z2Nat.id by lia. apply IZR_le. lia.
Qed.
Lemma clamp_ok (a : f32) : let c := @fclamp _ H a (@fzero _ G) (@fone _ G) in is_nan c = true \/ (fin c /\ 0 <= val c <= 1).
Proof.
  destruct (one_v o) as [F1 V1]. unfold fclamp. destruct a as [s|s| |s m e Hb] eqn:Ea.
  - right. destruct s; cbn; (split; [reflexivity|lra]).
  - right. destruct s; [cbn; split; [reflexivity|lra]|]. change (@fltb _ H (B754_infinity false) (@fzero _ G)) with false. replace (@fltb _ H (@fone _ G) (B754_infinity false)) with true by (vm_compute; reflexivity). split; [exact F1|rewrite V1; lra].
  - left. reflexivity.
  - right. rewrite <- Ea. assert (Fa : fin a) by (rewrite Ea; reflexivity). rewrite (ltb_r x Fa (proj1 (fz false) : fin (@fzero _ G))), (ltb_r x F1 Fa). change (val (@fzero _ G)) with 0. rewrite V1.
    destruct (Rlt_bool_spec (val a) 0); [split; [reflexivity|change (val (@fzero _ G)) with 0; lra]|]. destruct (Rlt_bool_spec 1 (val a)); [split; [exact F1|rewrite V1; lra]|split; [exact Fa|lra]].
Qed.
(* half of one plus a cosine *)
Lemma rise_b (t : f32) : cos_bounded o -> fin t -> let w := @fmul _ G (@M_rfft.half _ G) (@fadd _ G (@fone _ G) (@fcos _ G t)) in fin w /\ 0 <= val w <= 1.
Proof.
  intros HC Ft w. destruct (HC t Ft) as [Fc Bc]. destruct (one_v o) as [F1 V1]. destruct (two_v o) as [F2 V2]. destruct (half_v o) as [Fh Vh].
  destruct (@add_b o (@fone _ G) (@fcos _ G t) (@fzero _ G) (@flit _ G 2) F1 Fc eq_refl F2) as [Fa Ba]; [change (val (@fzero _ G)) with 0; change (@fcos _ G t) with (o_cos o t); lra|].
  change (val (@fzero _ G)) with 0 in Ba. rewrite V2 in Ba.
  destruct (@mul_b o (@M_rfft.half _ G) _ (@fzero _ G) (@fone _ G) Fh Fa eq_refl F1) as [Fm Bm]; [change (val (@fzero _ G)) with 0; rewrite Vh, V1; lra|].
  change (val (@fzero _ G)) with 0 in Bm. rewrite V1 in Bm. split; [exact Fm|exact Bm].
Qed.
Lemma fin_mul (a b : f32) M N : fin a -> fin b -> Rabs (val a) <= M -> Rabs (val b) <= N -> M * N <= 1000000000000000000000000000000 -> fin (@fmul _ G a b) /\ Rabs (val (@fmul _ G a b)) <= 2 * (M * N) + 1.
Proof.
  intros Fa Fb Ha Hb HM. pose proof (Rabs_pos (val a)). pose proof (Rabs_pos (val b)). assert (E : Rabs (val a * val b) <= M * N) by (rewrite Rabs_mult; apply Rmult_le_compat; lra).
  destruct (@mul_r _ o a b Fa Fb) as [F V]; [apply maxf_sf; lra|]. split; [exact F|]. rewrite V. replace (rn (val a * val b)) with (rn (val a * val b) - val a * val b + val a * val b) by ring.
  eapply Rle_trans; [apply Rabs_triang|]. pose proof (rn_err B32 (val a * val b)). pose proof (v0_small B32). pose proof (v0_pos B32). pose proof (eta_small B32). pose proof (ui_small B32). pose proof (Rabs_pos (val a * val b)). nra.
Qed.
Lemma rn_abs r M : Rabs r <= M -> Rabs (rn r) <= 2 * M + 1.
Proof.
  intros E. replace (rn r) with (rn r - r + r) by ring. eapply Rle_trans; [apply Rabs_triang|]. pose proof (rn_err B32 r). pose proof (v0_small B32). pose proof (v0_pos B32). pose proof (eta_small B32). pose proof (ui_small B32). pose proof (Rabs_pos r). nra.
Qed.
Lemma tukey_ok n alpha : cos_bounded o -> usize_len n -> exists w, @tukey _ G H n alpha = Done w /\ length w = n /\ ranged 0 1 w.
Proof.
  intros HC Hn. unfold usize_len in Hn. rewrite u64 in Hn. unfold tukey. cbv zeta. set (a := fclamp alpha fzero fone). pose proof (clamp_ok alpha) as Ca. cbv zeta in Ca. fold a in Ca.
  destruct (one_v o) as [F1 V1]. destruct (two_v o) as [F2 V2].
  assert (Fin : forall g, (forall k, (k < n)%nat -> exists v, g k = Done v /\ fin v /\ 0 <= val v <= 1) -> exists w, @fill f32 (@zvec _ G n) g = Done w /\ length w = n /\ ranged 0 1 w).
  { intros g Hg. set (h := fun k => match g k with Done v => v | _ => B754_nan end). exists (tab n h). rewrite tab_length. split; [|split; [reflexivity|]].
    - apply fill_g. intros k Hk. destruct (Hg k Hk) as (v & E & _). unfold h. rewrite E. reflexivity.
    - intros k Hk. rewrite tab_length in Hk. rewrite nth_tab' by exact Hk. destruct (Hg k Hk) as (v & E & V). unfold h. rewrite E. exact V. }
  assert (Zero : forall e, e = 0%nat -> exists w, @fill f32 (@zvec _ G n) (fun k => if (k <? e)%nat then Done (@fmul _ G (@M_rfft.half _ G) (@fadd _ G (@fone _ G) (@fcos _ G (@fmul _ G (@fpi _ G) (@fsub _ G (@fdiv _ G (@fmul _ G (@flit _ G 2) (@fas _ G k)) (@fmul _ G a (@fsub _ G (@fas _ G n) (@fone _ G)))) (@fone _ G)))))) else
      d <- usub n e ;; Done (if (k <? d)%nat then @fone _ G else @fmul _ G (@M_rfft.half _ G) (@fadd _ G (@fone _ G) (@fcos _ G (@fmul _ G (@fpi _ G) (@fadd _ G (@fsub _ G (@fdiv _ G (@fmul _ G (@flit _ G 2) (@fas _ G k)) (@fmul _ G a (@fsub _ G (@fas _ G n) (@fone _ G)))) (@fdiv _ G (@flit _ G 2) a)) (@fone _ G))))))) = Done w /\ length w = n /\ ranged 0 1 w).
  { intros e ->. apply Fin. intros k Hk. change (k <? 0)%nat with false. cbv iota. rewrite usub_ok by lia. cbn [bind]. rewrite Nat.sub_0_r. destruct (Nat.ltb_spec k n); [|lia]. exists (@fone _ G). split; [reflexivity|]. split; [exact F1|rewrite V1; lra]. }
  destruct Ca as [Na|[Fa Ba]].
  - apply Zero. destruct a as [s|s| |s m e Hb]; try discriminate Na. reflexivity.
  - destruct n as [|n']; [exists []; split; [reflexivity|split; [reflexivity|intros i Hi; cbn in Hi; lia]]|]. set (n := S n') in *.
    assert (N1 : 1 <= INR n) by (change 1 with (INR 1); apply le_INR; unfold n; lia).
    destruct (@as_r _ o n) as [Fn Vn]; [pose proof p100; lra|].
    assert (Bn : 1 <= val (@fas _ G n) <= INR n * (1 + / 8000000)).
    { rewrite Vn. split; [rewrite <- V1; apply rn_ge; lra|]. assert (On : okr (INR n)) by (right; lra). pose proof (rn_rel On) as Q. unfold rel in Q. lra. }
    destruct (@sub_b o (@fas _ G n) (@fone _ G) (@fzero _ G) (@fas _ G n) Fn F1 eq_refl Fn) as [Fl Bl]; [change (val (@fzero _ G)) with 0; lra|]. change (val (@fzero _ G)) with 0 in Bl. set (l1 := @fsub _ G (@fas _ G n) (@fone _ G)) in *.
    destruct (@mul_b o a l1 (@fzero _ G) l1 Fa Fl eq_refl Fl) as [Fp Bp]; [change (val (@fzero _ G)) with 0; nra|]. change (val (@fzero _ G)) with 0 in Bp. set (p := @fmul _ G a l1) in *.
    destruct (@div_b o p (@flit _ G 2) (@fzero _ G) p Fp F2 ltac:(lra) eq_refl Fp) as [Fq Bq]; [change (val (@fzero _ G)) with 0; rewrite V2; lra|]. change (val (@fzero _ G)) with 0 in Bq. set (q := @fdiv _ G p (@flit _ G 2)) in *.
    assert (Vq : val q = rn (val p / 2)). { destruct (@div_r _ o p (@flit _ G 2) Fp F2 ltac:(lra)) as [_ V]; [rewrite V2; apply maxf_sf, Rabs_le; lra|]. unfold q. rewrite V, V2. reflexivity. }
    pose proof (floor_le Fq (proj1 Bq)) as Fle. set (e := @ffloor _ H q) in *.
    destruct (Nat.eq_dec e 0) as [E0|E0]; [exact (Zero e E0)|].
    assert (E1 : 1 <= INR e) by (change 1 with (INR 1); apply le_INR; lia).
    assert (P1 : 1 <= val p). { apply Rnot_lt_le. intros Hlt. destruct (half_v o) as [Fh Vh]. assert (val q <= / 2) by (rewrite Vq, <- Vh; apply rn_le; lra). lra. }
    assert (En : (e <= n)%nat).
    { apply INR_le. eapply Rle_trans; [exact Fle|]. rewrite Vq. assert (Op : okr (val p / 2)) by (right; lra). pose proof (rn_rel Op) as Q. unfold rel in Q. lra. }
    assert (A1 : / 40000000000000000000 <= val a).
    { destruct (@mul_r _ o a l1 Fa Fl) as [_ Vp]; [apply maxf_sf, Rabs_le; split; nra|]. fold p in Vp. assert (L : / 2 <= val a * val l1). { apply Rnot_lt_le. intros Hlt. destruct (half_v o) as [Fh Vh]. assert (val p <= / 2) by (rewrite Vp, <- Vh; apply rn_le; lra). lra. }
      assert (val l1 <= 20000000000000000000) by lra. apply Rnot_lt_le. intros Hlt. assert (val a * val l1 < / 40000000000000000000 * 20000000000000000000); [|lra]. apply Rle_lt_trans with (val a * 20000000000000000000); [apply Rmult_le_compat_l; lra|lra]. }
    match goal with |- context [@ffloor _ H ?z] => change (@ffloor _ H z) with e end. apply Fin. intros k Hk. cbv beta.
    assert (Kn : INR k <= INR n) by (apply le_INR; lia). pose proof (pos_INR k) as K0. destruct (@as_r _ o k) as [Fk Vk]; [pose proof p100; lra|].
    destruct (@fin_mul (@flit _ G 2) (@fas _ G k) 2 40000000000000000000 F2 Fk) as [Ft Bt]; [rewrite V2, Rabs_pos_eq; lra| |lra|].
    { rewrite Vk. eapply Rle_trans; [apply (@rn_abs (INR k) 18446744073709551616); rewrite Rabs_pos_eq; lra|lra]. }
    assert (Bd : Rabs (val (@fmul _ G (@flit _ G 2) (@fas _ G k)) / val p) <= 200000000000000000000).
    { unfold Rdiv. rewrite Rabs_mult, (Rabs_pos_eq (/ val p)) by (left; apply Rinv_0_lt_compat; lra). assert (0 < / val p <= 1) by (split; [apply Rinv_0_lt_compat; lra|rewrite <- Rinv_1; apply Rinv_le_contravar; lra]). pose proof (Rabs_pos (val (@fmul _ G (@flit _ G 2) (@fas _ G k)))). nra. }
    destruct (@div_r _ o _ p Ft Fp ltac:(lra)) as [Fu Vu]; [apply maxf_sf; lra|]. pose proof (@rn_abs _ _ Bd) as Bu. rewrite <- Vu in Bu. set (u := @fdiv _ G (@fmul _ G (@flit _ G 2) (@fas _ G k)) p) in *.
    destruct (pi_rel o) as [Fpi Epi]. pose proof PI_bounds as Pb. assert (Bpi : Rabs (val (@fpi _ G)) <= 4) by (unfold rel in Epi; apply Rabs_le; lra).
    destruct (Nat.ltb_spec k e) as [Hke|Hke].
    + eexists. split; [reflexivity|]. apply Rabs_le_inv in Bu.
      assert (Bs : Rabs (val u - val (@fone _ G)) <= 500000000000000000000) by (apply Rabs_le; lra).
      destruct (@sub_r _ o u (@fone _ G) Fu F1) as [Fv Vv]; [apply maxf_sf; lra|]. pose proof (@rn_abs _ _ Bs) as Bv. rewrite <- Vv in Bv.
      destruct (@fin_mul (@fpi _ G) _ 4 2000000000000000000000 Fpi Fv Bpi) as [Fw _]; [lra|lra|]. apply (rise_b HC Fw).
    + rewrite usub_ok by exact En. cbn [bind]. eexists. split; [reflexivity|]. destruct (k <? n - e)%nat; [split; [exact F1|rewrite V1; lra]|].
      assert (Ba2 : Rabs (val (@flit _ G 2) / val a) <= 80000000000000000000).
      { rewrite V2. unfold Rdiv. rewrite Rabs_mult, (Rabs_pos_eq 2), (Rabs_pos_eq (/ val a)) by (try lra; left; apply Rinv_0_lt_compat; lra). assert (/ val a <= 40000000000000000000) by (rewrite <- (Rinv_inv 40000000000000000000); apply Rinv_le_contravar; lra). lra. }
      destruct (@div_r _ o (@flit _ G 2) a F2 Fa ltac:(lra)) as [Fd Vd]; [apply maxf_sf; lra|]. pose proof (@rn_abs _ _ Ba2) as Bdd. rewrite <- Vd in Bdd.
      apply Rabs_le_inv in Bu. apply Rabs_le_inv in Bdd.
      assert (Bs : Rabs (val u - val (@fdiv _ G (@flit _ G 2) a)) <= 1000000000000000000000) by (apply Rabs_le; lra).
      destruct (@sub_r _ o u (@fdiv _ G (@flit _ G 2) a) Fu Fd) as [Fv Vv]; [apply maxf_sf; lra|]. pose proof (@rn_abs _ _ Bs) as Bv. rewrite <- Vv in Bv. apply Rabs_le_inv in Bv.
      set (v := @fsub _ G u (@fdiv _ G (@flit _ G 2) a)) in *. assert (Bs2 : Rabs (val v + val (@fone _ G)) <= 5000000000000000000000) by (apply Rabs_le; lra).
      destruct (@add_r _ o v (@fone _ G) Fv F1) as [Fx Vx]; [apply maxf_sf; lra|]. pose proof (@rn_abs _ _ Bs2) as Bx. rewrite <- Vx in Bx.
      destruct (@fin_mul (@fpi _ G) _ 4 20000000000000000000000 Fpi Fx Bpi) as [Fw _]; [lra|lra|]. apply (rise_b HC Fw).
Qed.
(* ---- the Nuttall window ---- *)
Lemma pos_sign (a : f32) : fin a -> 0 < val a -> Bsign a = false.
Proof.
  intros F V. destruct a as [s|s| |s m e Hb]; try discriminate F; [cbn in V; lra|]. destruct s; [|reflexivity]. exfalso. unfold L_ieee.val, B2R in V. cbn [cond_Zopp] in V.
  pose proof (@F2R_lt_0 radix2 (Flocq.Core.Defs.Float radix2 (- Zpos m) e) ltac:(cbn; lia)). cbn in *. lra.
Qed.
Lemma less_one n : (2 <= n)%nat -> INR n <= 16777216 -> @fsub _ G (@fas _ G n) (@fone _ G) = @fas _ G (n - 1).
Proof.
  intros Hn Hm. assert (N2 : 2 <= INR n) by (change 2 with (INR 2); apply le_INR; lia). destruct (@as_exact _ o n Hm) as [Fn Vn]. destruct (one_v o) as [F1 V1].
  assert (En : INR (n - 1) = INR n - 1) by (rewrite minus_INR by lia; reflexivity). destruct (@as_exact _ o (n - 1) ltac:(lra)) as [Fp Vp].
  destruct (@sub_r _ o (@fas _ G n) (@fone _ G) Fn F1) as [Fs Vs]; [apply maxf_sf; rewrite Vn, V1; apply Rabs_le; lra|]. rewrite Vn, V1, <- En, <- Vp, (@rn_val B32) in Vs.
  apply B2R_Bsign_inj; [exact Fs|exact Fp|exact Vs|]. rewrite (pos_sign Fs), (pos_sign Fp); [reflexivity| |]; lra.
Qed.
Lemma near_scale (k t : f32) K a e : fin k -> val k = K -> 0 <= K <= 3 -> nearv t a e -> Rabs a <= 6.5 -> 0 <= e <= / 100 -> nearv (@fmul _ G k t) (K * a) (K * e + 13 / 10000000).
Proof.
  intros Fk Vk HK [Ft Et] Ha He. assert (E : Rabs (val k * val t - K * a) <= K * e) by (rewrite Vk; replace (K * val t - K * a) with (K * (val t - a)) by ring; rewrite Rabs_mult, (Rabs_pos_eq K) by lra; apply Rmult_le_compat_l; lra).
  assert (Bd : Rabs (val k * val t) <= 20). { replace (val k * val t) with (K * a + (val k * val t - K * a)) by ring. eapply Rle_trans; [apply Rabs_triang|]. rewrite Rabs_mult, (Rabs_pos_eq K) by lra. pose proof (Rabs_pos a). nra. }
  destruct (@mul_r _ o k t Fk Ft) as [F V]; [apply maxf_sf; lra|]. split; [exact F|]. rewrite V.
  replace (rn (val k * val t) - K * a) with ((rn (val k * val t) - val k * val t) + (val k * val t - K * a)) by ring. eapply Rle_trans; [apply Rabs_triang|].
  assert (Rabs (rn (val k * val t) - val k * val t) <= 13 / 10000000); [|lra]. eapply Rle_trans; [apply rn_err|]. pose proof (v0_small B32). pose proof (v0_pos B32). pose proof (eta_small B32). pose proof (ui_small B32). pose proof (ui_pos B32). pose proof (Rabs_pos (val k * val t)). nra.
Qed.
Definition ideal_nuttall (n i : nat) : R := let t := 2 * PI * INR i / (INR n - 1) in 0.355768 - 0.487396 * cos t + 0.144232 * cos (2 * t) - 0.012604 * cos (3 * t).
Definition nutt (n i : nat) : f32 :=
  let t := @fdiv _ G (@fmul _ G (@fmul _ G (@flit _ G 2) (@fpi _ G)) (@fas _ G i)) (@fsub _ G (@fas _ G n) (@fone _ G)) in
  @fsub _ G (@fadd _ G (@fsub _ G (@flit _ G (355768 # 1000000)) (@fmul _ G (@flit _ G (487396 # 1000000)) (@fcos _ G t)))
     (@fmul _ G (@flit _ G (144232 # 1000000)) (@fcos _ G (@fmul _ G (@flit _ G 2) t)))) (@fmul _ G (@flit _ G (12604 # 1000000)) (@fcos _ G (@fmul _ G (@flit _ G 3) t))).
Lemma nuttall_tab n : @nuttall _ G n = Done (tab n (nutt n)).
Proof. unfold nuttall. apply fill_g. intros k Hk. reflexivity. Qed.
Lemma three_v : fin (@flit _ G 3) /\ val (@flit _ G 3) = 3.
Proof. destruct (@kflt_val 12582912 (-22) (@flit _ G 3)) as [A B]; [vm_compute; reflexivity|]. split; [exact A|]. rewrite B. cbn. lra. Qed.
Lemma a0_n : nearv (@flit _ G (355768 # 1000000)) 0.355768 (/ 30000000).
Proof. apply (@near_lit _ 11937593 (-25)); [vm_compute; reflexivity|]. cbn. apply Rabs_le. lra. Qed.
Lemma a1_n : nearv (@flit _ G (487396 # 1000000)) 0.487396 (/ 30000000).
Proof. apply (@near_lit _ 16354296 (-25)); [vm_compute; reflexivity|]. cbn. apply Rabs_le. lra. Qed.
Lemma a2_n : nearv (@flit _ G (144232 # 1000000)) 0.144232 (/ 30000000).
Proof. apply (@near_lit _ 9679246 (-26)); [vm_compute; reflexivity|]. cbn. apply Rabs_le. lra. Qed.
Lemma a3_n : nearv (@flit _ G (12604 # 1000000)) 0.012604 (/ 30000000).
Proof. apply (@near_lit _ 13533442 (-30)); [vm_compute; reflexivity|]. cbn. apply Rabs_le. lra. Qed.
Lemma nutt_n n i : cos_accurate o -> (2 <= n)%nat -> INR n <= 16777216 -> (i < n)%nat -> nearv (nutt n i) (ideal_nuttall n i) (/ 200000).
Proof.
  intros HC Hn Hm Hi. unfold nutt. rewrite (less_one Hn Hm). cbv zeta. destruct (two_v o) as [F2 V2]. destruct three_v as [F3 V3]. pose proof PI_bounds as Pb.
  assert (N2 : 2 <= INR n) by (change 2 with (INR 2); apply le_INR; lia). assert (En : INR (n - 1) = INR n - 1) by (rewrite minus_INR by lia; reflexivity).
  destruct (@angle1 o _ 2 (n - 1) i F2 V2 ltac:(lra) ltac:(lia) ltac:(lia)) as [Ft Et]; [rewrite u64; lra|]. cbv zeta in *. rewrite En in Et.
  set (t := @fdiv _ G (@fmul _ G (@fmul _ G (@flit _ G 2) (@fpi _ G)) (@fas _ G i)) (@fas _ G (n - 1))) in *. set (a := 2 * PI * INR i / (INR n - 1)) in *.
  assert (Nt : nearv t a (32 / 10000000)) by (split; [exact Ft|lra]).
  assert (Ba : Rabs a <= 6.5).
  { unfold a. assert (Hi' : INR i <= INR n - 1) by (rewrite <- En; apply le_INR; lia). pose proof (pos_INR i). assert (0 <= INR i / (INR n - 1) <= 1). { assert (0 < / (INR n - 1)) by (apply Rinv_0_lt_compat; lra). unfold Rdiv. split; [nra|]. apply Rmult_le_reg_r with (INR n - 1); [lra|]. rewrite Rmult_assoc, Rinv_l by lra. lra. }
    replace (2 * PI * INR i / (INR n - 1)) with (2 * PI * (INR i / (INR n - 1))) by (unfold Rdiv; ring). rewrite Rabs_pos_eq by nra. nra. }
  pose proof (near_scale F2 V2 ltac:(lra) Nt Ba ltac:(lra)) as Nt2. pose proof (near_scale F3 V3 ltac:(lra) Nt Ba ltac:(lra)) as Nt3.
  pose proof (near_cos HC Nt) as N1. pose proof (near_cos HC Nt2) as N2'. pose proof (near_cos HC Nt3) as N3.
  pose proof (Rabs_le_inv _ _ (cosb a)) as C1. pose proof (Rabs_le_inv _ _ (cosb (2 * a))) as C2. pose proof (Rabs_le_inv _ _ (cosb (3 * a))) as C3.
  pose proof (@near_mul 0.487396 _ _ _ _ _ _ a1_n N1 ltac:(rewrite Rabs_pos_eq; lra) (cosb _) ltac:(lra) ltac:(lra)) as M1.
  pose proof (@near_mul 0.144232 _ _ _ _ _ _ a2_n N2' ltac:(rewrite Rabs_pos_eq; lra) (cosb _) ltac:(lra) ltac:(lra)) as M2.
  pose proof (@near_mul 0.012604 _ _ _ _ _ _ a3_n N3 ltac:(rewrite Rabs_pos_eq; lra) (cosb _) ltac:(lra) ltac:(lra)) as M3.
  pose proof (near_sub a0_n M1 ltac:(apply Rabs_le; lra) ltac:(lra) ltac:(lra)) as S1.
  pose proof (near_add S1 M2 ltac:(apply Rabs_le; lra) ltac:(lra) ltac:(lra)) as S2.
  destruct (near_sub S2 M3 ltac:(apply Rabs_le; lra) ltac:(lra) ltac:(lra)) as [F E]. split; [exact F|]. eapply Rle_trans; [exact E|]. lra.
Qed.
End One.
(* Every sample of hann and hamming is a number in its range, whatever cos does within [-1, 1]; tukey terminates normally
   for every alpha, infinities and NaN included. *)
Theorem C90_range : forall (o : libm B32) (x : libx B32) n alpha, cos_bounded o -> usize_len n ->
  ranged 0 1 (@hann _ (ieee o) n) /\ ranged 0.08 1 (@hamming _ (ieee o) n) /\
  exists w, @tukey _ (ieee o) (ieeex x) n alpha = Done w /\ length w = n /\ ranged 0 1 w.
Proof.
  intros o x n alpha HC Hn. split; [|split; [|apply tukey_ok; assumption]].
  - intros i Hi. unfold hann in *. rewrite tab_length in Hi. rewrite nth_tab' by exact Hi. apply hann_b; assumption.
  - intros i Hi. unfold hamming in *. rewrite tab_length in Hi. rewrite nth_tab' by exact Hi. apply hamming_b; assumption.
Qed.
Print Assumptions C90_range.
(* distance to the formulas *)
Theorem C90_formula : forall (o : libm B32) n, cos_accurate o ->
  (usize_len n -> follows (/ 200000) (@hann _ (ieee o) n) (ideal_hann n) /\ follows (/ 200000) (@hamming _ (ieee o) n) (ideal_hamming n) /\ follows (/ 200000) (@blackman _ (ieee o) n) (ideal_blackman n)) /\
  ((2 <= n)%nat -> INR n <= 16777216 -> exists w, @nuttall _ (ieee o) n = Done w /\ length w = n /\ follows (/ 200000) w (ideal_nuttall n)).
Proof.
  intros o n HC. split.
  - intros Hn. split; [|split]; intros i Hi; unfold hann, hamming, blackman in *; rewrite tab_length in Hi; rewrite nth_tab' by exact Hi; [apply hann_n|apply hamming_n|apply blackman_n]; assumption.
  - intros Hn Hm. exists (tab n (nutt o n)). rewrite tab_length. split; [apply nuttall_tab|]. split; [reflexivity|]. intros i Hi. rewrite tab_length in Hi. rewrite nth_tab' by exact Hi. apply nutt_n; assumption.
Qed.
Print Assumptions C90_formula.
Theorem C90_kaiser : forall (o : libm B32) (x : libx B32) n beta, (2 <= n)%nat -> INR n <= 16777216 -> fin beta -> Rabs (val beta) <= 20 ->
  exists w, @kaiser _ (ieee o) (ieeex x) n beta = Done w /\ length w = n /\ ranged (bpow radix2 (-26)) 1 w /\ bit_mirror w /\
    (forall h, n = (2 * h + 1)%nat -> val (nth h w B754_nan) = 1).
Proof.
  intros o x n beta Hn Hm Fb Hb. exists (tab n (kai o x n beta)). rewrite tab_length. split; [apply kaiser_tab; lia|]. split; [reflexivity|]. split; [|split].
  - intros i Hi. rewrite tab_length in Hi. rewrite nth_tab' by exact Hi. destruct (kai_ok o x Hn Hm Hi Fb Hb) as (F & B & _). split; assumption.
  - intros i Hi. rewrite tab_length in *. rewrite !nth_tab' by lia. apply (kai_ok o x Hn Hm Hi Fb Hb).
  - intros h Hh. assert (Hi : (h < n)%nat) by lia. rewrite nth_tab' by exact Hi. apply (kai_ok o x Hn Hm Hi Fb Hb). lia.
Qed.
Print Assumptions C90_kaiser.
Theorem C90_bartlett : forall (o : libm B32) (x : libx B32) n, (2 <= n)%nat -> INR n <= 16777216 ->
  exists w, @bartlett _ (ieee o) (ieeex x) n = Done w /\ length w = n /\ ranged 0 1 w /\ bit_mirror w /\ val (nth 0 w B754_nan) = 0 /\
    follows (/ 2000000) w (fun i => 1 - Rabs ((2 * INR i - (INR n - 1)) / (INR n - 1))).
Proof.
  intros o x n Hn Hm. exists (tab n (bart o x n)). rewrite tab_length. split; [apply bartlett_tab|]. split; [reflexivity|]. split; [|split; [|split]].
  - intros i Hi. rewrite tab_length in Hi. rewrite nth_tab' by exact Hi. destruct (bart_ok o x Hn Hm Hi) as (F & B & _). split; assumption.
  - intros i Hi. rewrite tab_length in *. rewrite !nth_tab' by lia. apply (bart_ok o x Hn Hm Hi).
  - rewrite nth_tab' by lia. destruct (@bart_ok o x n 0 Hn Hm ltac:(lia)) as (_ & _ & V & _). rewrite V.
    assert (N2 : 2 <= INR n) by (change 2 with (INR 2); apply le_INR; lia). replace (ctr n 0) with (- val (@fone _ (ieee o))) by (rewrite (proj2 (one_v o)); unfold ctr; cbn [INR]; field; lra).
    rewrite rn_neg, (@rn_val B32), (proj2 (one_v o)), Rabs_Ropp, Rabs_R1, Rminus_diag_eq by reflexivity. apply (@rn_0 B32).
  - intros i Hi. rewrite tab_length in Hi. rewrite nth_tab' by exact Hi. destruct (bart_ok o x Hn Hm Hi) as (F & B & V & _). split; [exact F|]. rewrite V. pose proof (ctr_b Hn Hi) as Cb. fold (ctr n i).
    assert (E1 : Rabs (rn (ctr n i) - ctr n i) <= 2 / 10000000) by (apply rn_small, Rabs_le; lra).
    pose proof (Rabs_triang_inv2 (rn (ctr n i)) (ctr n i)) as E2. apply Rabs_le_inv in E1.
    assert (E3 : Rabs (rn (1 - Rabs (rn (ctr n i))) - (1 - Rabs (rn (ctr n i)))) <= 2 / 10000000) by (apply rn_small, Rabs_le; pose proof (Rabs_pos (rn (ctr n i))); assert (Rabs (rn (ctr n i)) <= 2) by (apply Rabs_le; lra); lra).
    replace (rn (1 - Rabs (rn (ctr n i))) - (1 - Rabs (ctr n i))) with ((rn (1 - Rabs (rn (ctr n i))) - (1 - Rabs (rn (ctr n i)))) + - (Rabs (rn (ctr n i)) - Rabs (ctr n i))) by ring.
    eapply Rle_trans; [apply Rabs_triang|]. rewrite Rabs_Ropp. assert (Rabs (rn (ctr n i) - ctr n i) <= 2 / 10000000) by (apply Rabs_le; lra). lra.
Qed.
Print Assumptions C90_bartlett.

(* ---- refutations ---- *)
(* one-sample windows divide zero by zero *)
Lemma bessel_nan (o : libm B32) : @bessel0 _ (ieee o) B754_nan = B754_nan. Proof. vm_compute. reflexivity. Qed.
Theorem C90_single_refuted : forall (o : libm B32) (x : libx B32) beta,
  @kaiser _ (ieee o) (ieeex x) 1 beta = Done [B754_nan] /\ @bartlett _ (ieee o) (ieeex x) 1 = Done [B754_nan] /\ @bohman _ (ieee o) (ieeex x) 1 = Done [B754_nan] /\
  (o_cos o B754_nan = B754_nan -> @nuttall _ (ieee o) 1 = Done [B754_nan]).
Proof.
  intros o x beta. split; [|split; [|split]].
  - rewrite kaiser_tab by lia. unfold tab. cbn [seq map]. do 2 f_equal. unfold kai. cbv zeta.
    match goal with |- context [@fsqrt _ (ieeex x) ?z] => replace (@fsqrt _ (ieeex x) z) with (@B754_nan (precf B32) (emaxf B32)) by (vm_compute; reflexivity) end.
    replace (@fmul _ (ieee o) beta B754_nan) with (@B754_nan (precf B32) (emaxf B32)) by (destruct beta; reflexivity). rewrite bessel_nan. reflexivity.
  - rewrite bartlett_tab. unfold tab. cbn [seq map]. do 2 f_equal.
  - unfold bohman. rewrite (fill_g o (n := 1) _ (fun _ => B754_nan)); [reflexivity|]. intros k Hk. assert (k = 0)%nat by lia. subst k. f_equal.
  - intros E. rewrite nuttall_tab. unfold tab. cbn [seq map]. do 2 f_equal. unfold nutt. cbv zeta.
      match goal with |- context [@fsub _ (ieee o) (@fas _ (ieee o) 1) ?z] => replace (@fdiv _ (ieee o) (@fmul _ (ieee o) (@fmul _ (ieee o) (@flit _ (ieee o) 2) (@fpi _ (ieee o))) (@fas _ (ieee o) 0)) (@fsub _ (ieee o) (@fas _ (ieee o) 1) z)) with (@B754_nan (precf B32) (emaxf B32)) by (vm_compute; reflexivity) end.
      change (@fcos _ (ieee o)) with (o_cos o). replace (@fmul _ (ieee o) (@flit _ (ieee o) 3) B754_nan) with (@B754_nan (precf B32) (emaxf B32)) by (vm_compute; reflexivity). replace (@fmul _ (ieee o) (@flit _ (ieee o) 2) B754_nan) with (@B754_nan (precf B32) (emaxf B32)) by (vm_compute; reflexivity).
      rewrite E. vm_compute. reflexivity.
Qed.
Print Assumptions C90_single_refuted.
(* the power series of bessel0 overflows: every odd Kaiser window of shape 21 has NaN in the middle *)
Theorem C90_kaiser_overflow_refuted : forall (o : libm B32) (x : libx B32) h, (1 <= h)%nat -> INR (2 * h + 1) <= 16777216 ->
  exists beta w, fin beta /\ val beta = 21 /\ @kaiser _ (ieee o) (ieeex x) (2 * h + 1) beta = Done w /\ length w = (2 * h + 1)%nat /\ nth h w (@fzero _ (ieee o)) = B754_nan.
Proof.
  intros o x h Hh Hm. set (n := (2 * h + 1)%nat) in *. set (beta := @fas _ (ieee o) 21). destruct (@as_exact _ o 21) as [Fb Vb]; [cbn; lra|]. fold beta in Fb, Vb. replace (INR 21) with 21 in Vb by (cbn; lra).
  assert (Hn : (2 <= n)%nat) by (unfold n; lia). assert (Hi : (h < n)%nat) by (unfold n; lia).
  exists beta, (tab n (kai o x n beta)). split; [exact Fb|]. split; [exact Vb|]. split; [apply kaiser_tab; lia|]. split; [apply tab_length|].
  etransitivity; [apply nth_tab; exact Hi|].
  destruct (middle_k o Hn Hm) as [Fm Vm]. destruct (one_v o) as [F1 V1]. cbv zeta in *. unfold kai. cbv zeta. set (m := @fdiv _ (ieee o) (@fas _ (ieee o) (n - 1)) (@flit _ (ieee o) 2)) in *.
  change (@fdiv _ (ieee o) (@fas _ (ieee o) (n - 1)) two) with m.
  destruct (centred o Fm Vm Hn Hm Hi) as (Fr & Vr & _). cbv zeta in *. set (r := @fdiv _ (ieee o) (@fsub _ (ieee o) (@fas _ (ieee o) h) m) m) in *.
  assert (C0 : ctr n h = 0). { unfold ctr. replace (INR n - 1) with (2 * INR h); [unfold Rdiv; ring|]. unfold n. rewrite plus_INR, mult_INR. cbn [INR]. ring. }
  rewrite C0, (@rn_0 B32) in Vr. destruct (@mul_r _ o r r Fr Fr) as [Fq Vq]; [rewrite Vr; apply maxf_sf, Rabs_le; lra|]. rewrite Vr, Rmult_0_l, (@rn_0 B32) in Vq.
  destruct (@sub_r _ o (@fone _ (ieee o)) (@fmul _ (ieee o) r r) F1 Fq) as [Fs Vs]; [rewrite V1, Vq; apply maxf_sf, Rabs_le; lra|]. rewrite Vq, Rminus_0_r, (@rn_val B32), V1 in Vs.
  destruct (sqrt_r x Fs ltac:(lra)) as [Ft Vt]. rewrite Vs, sqrt_1, <- V1, (@rn_val B32), V1 in Vt. set (t := @fsqrt _ (ieeex x) (@fsub _ (ieee o) (@fone _ (ieee o)) (@fmul _ (ieee o) r r))) in *.
  destruct (@mul_r _ o beta t Fb Ft) as [Fa Va]; [rewrite Vt, Vb; apply maxf_sf, Rabs_le; lra|]. rewrite Vt, Rmult_1_r, (@rn_val B32) in Va.
  assert (E : @fmul _ (ieee o) beta t = beta) by (apply B2R_Bsign_inj; [exact Fa|exact Fb|exact Va|rewrite (pos_sign Fa), (pos_sign Fb); [reflexivity| |]; lra]). rewrite E.
  replace (@bessel0 _ (ieee o) beta) with (@B754_infinity (precf B32) (emaxf B32) false) by (vm_compute; reflexivity). reflexivity.
Qed.
Print Assumptions C90_kaiser_overflow_refuted.
(* the three literals of the Blackman window do not cancel: its first sample is negative *)
Theorem C90_blackman_refuted : forall (o : libm B32) n, (1 <= n)%nat -> usize_len n -> o_cos o (B754_zero false) = @fone _ (ieee o) ->
  val (nth 0 (@blackman _ (ieee o) n) B754_nan) < 0.
Proof.
  intros o n Hn Hm HC. unfold blackman. rewrite nth_tab' by lia. unfold blackman_at. cbv zeta.
  assert (Z : @fdiv _ (ieee o) (@fas _ (ieee o) 0) (@fas _ (ieee o) n) = B754_zero false).
  { destruct (@as_rel o n Hm) as [F E]. assert (1 <= INR n) by (change 1 with (INR 1); apply le_INR; lia). assert (V : 0 < val (@fas _ (ieee o) n)) by (unfold rel in E; lra). pose proof (pos_sign F V) as S.
    destruct (@fas _ (ieee o) n) as [s|s| |s m e Hb] eqn:Ef; try discriminate F; [cbn in V; lra|]. cbn in S. subst s. reflexivity. }
  rewrite Z. replace (@fmul _ (ieee o) (@fmul _ (ieee o) two (@fpi _ (ieee o))) (B754_zero false)) with (@B754_zero (precf B32) (emaxf B32) false) by (vm_compute; reflexivity).
  replace (@fmul _ (ieee o) (@fmul _ (ieee o) (flit 4) (@fpi _ (ieee o))) (B754_zero false)) with (@B754_zero (precf B32) (emaxf B32) false) by (vm_compute; reflexivity).
  change (@fcos _ (ieee o)) with (o_cos o). rewrite HC.
  match goal with |- val ?z < 0 => destruct (@SF_val B32 z true 8388608 (-49)) as [_ V]; [vm_compute; reflexivity|]; rewrite V end.
  cbn. lra.
Qed.
Print Assumptions C90_blackman_refuted.

(* ---- the hypotheses hold of a correctly rounding library ---- *)
Lemma near_float_range r : -1 <= r <= 1 -> -1 <= val (near_float B32 r) <= 1.
Proof.
  intros Hr. destruct (@norm_ok B32 (ZnearestE (scaled_mantissa radix2 (SpecFloat.fexp (precf B32) (emaxf B32)) r)) (cexp radix2 (SpecFloat.fexp (precf B32) (emaxf B32)) r) (rn r) eq_refl) as [F E].
  - apply maxf_sf. eapply Rle_trans; [apply (@rn_abs r 1); apply Rabs_le; lra|lra].
  - unfold near_float. rewrite E. destruct (one_v (exact_libm B32)) as [F1 V1]. destruct (opp_v F1) as [Fo Vo]. assert (Q : - val (@fone _ (ieee (exact_libm B32))) <= rn r <= val (@fone _ (ieee (exact_libm B32)))).
    { split; [rewrite <- Vo; apply rn_ge; lra|apply rn_le; lra]. }
    replace (rn (rn r)) with (rn r); [lra|]. symmetry. apply round_generic; [typeclasses eauto|]. apply generic_format_round; [apply fexp_correct, precf_pos|typeclasses eauto].
Qed.
Example C90_library : cos_bounded (exact_libm B32) /\ cos_accurate (exact_libm B32).
Proof.
  split; intros t Ft; cbn [o_cos exact_libm]; destruct (COS_bound (val t)) as [A B]; (destruct (@near_float_ok B32 (cos (val t))) as [F E]; [apply Rabs_le; lra|]); (split; [exact F|]).
  - apply near_float_range. lra.
  - eapply Rle_trans; [exact E|]. pose proof (v0_small B32). unfold v0 in *. cbn [precf] in *. lra.
Qed.
Example C90_hypotheses : usize_len 1000 /\ (fin (norm B32 17 (-1)) /\ Rabs (val (norm B32 17 (-1))) <= 20).
Proof.
  split; [unfold usize_len; rewrite u64, INR_IZR_INZ; cbn; lra|]. destruct (@SF_val B32 (norm B32 17 (-1)) false 8912896 (-20)) as [F V]; [vm_compute; reflexivity|]. split; [exact F|]. rewrite V. cbn. apply Rabs_le. lra.
Qed.

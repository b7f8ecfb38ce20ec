(* Window arithmetic in f32. *)
From Coq Require Import Reals Lra Lia ZArith.
From Flocq Require Import Core Relative BinarySingleNaN.
From Verif Require Import M_win L_trig P_trig P_win L_err L_flx L_pi L_ierr L_ieee L_ieeex P_ierr.
Set Implicit Arguments.
Open Scope R_scope.

Local Notation f32 := (L_ieee.num B32).
Local Notation fin := (fin (f := B32)).
Local Notation val := (val (f := B32)).
Local Notation rn := (rn B32).
Local Notation maxf := (maxf B32).

(* cos gives a number in [-1, 1], respectively a number close to the cosine *)
Definition cos_bounded (o : libm B32) : Prop := forall t, fin t -> fin (o_cos o t) /\ -1 <= val (o_cos o t) <= 1.
Definition cos_accurate (o : libm B32) : Prop := forall t, fin t -> fin (o_cos o t) /\ Rabs (val (o_cos o t) - cos (val t)) <= / 8000000.

Lemma fz s : fin (B754_zero s) /\ val (B754_zero s) = 0. Proof. split; reflexivity. Qed.
Lemma max_big : 1000000000000000000000000000000000000 <= maxf.
Proof. eapply Rle_trans; [exact p120|]. eapply Rle_trans; [|apply maxf_big]. pose proof (bpow_gt_0 radix2 (emaxf B32 - 2)). assert (bpow radix2 120 <= bpow radix2 (emaxf B32 - 1)) by (apply bpow_le; cbn; lia). lra. Qed.
Lemma maxf_sf r : Rabs r <= 1000000000000000000000000000000000000 -> Rabs r <= maxf.
Proof. pose proof max_big. lra. Qed.
Lemma u64 : bpow radix2 64 = 18446744073709551616. Proof. cbn. lra. Qed.

Section W.
Variable o : libm B32.
Variable x : libx B32.
Local Notation G := (ieee o).
Local Notation H := (ieeex x).
Definition kflt (m : positive) (e : Z) (a : f32) : Prop := B2SF a = SpecFloat.S754_finite false m e.
Lemma kflt_val m e a : kflt m e a -> fin a /\ val a = IZR (Zpos m) * bpow radix2 e.
Proof. intros E. exact (SF_val _ E). Qed.
Lemma one_v : fin (@fone _ G) /\ val (@fone _ G) = 1. Proof. apply one_ok. Qed.
Lemma half_v : fin (@M_rfft.half _ G) /\ val (@M_rfft.half _ G) = / 2.
Proof. destruct (@kflt_val 8388608 (-24) (@M_rfft.half _ G)) as [A B]; [vm_compute; reflexivity|]. split; [exact A|]. rewrite B. cbn. lra. Qed.
Lemma two_v : fin (@flit _ G 2) /\ val (@flit _ G 2) = 2. Proof. apply lit2. Qed.
Lemma four_v : fin (@flit _ G 4) /\ val (@flit _ G 4) = 4.
Proof. destruct (@kflt_val 8388608 (-21) (@flit _ G 4)) as [A B]; [vm_compute; reflexivity|]. split; [exact A|]. rewrite B. cbn. lra. Qed.

(* ---- an operation whose exact result lies between two floats ---- *)
Lemma between (lo hi : f32) r : fin lo -> fin hi -> val lo <= r <= val hi -> Rabs r <= maxf.
Proof.
  intros _ _ [A B]. pose proof (Rabs_le_inv _ _ (val_max lo)) as P. pose proof (Rabs_le_inv _ _ (val_max hi)) as Q. apply Rabs_le. lra.
Qed.
Lemma add_b (a b lo hi : f32) : fin a -> fin b -> fin lo -> fin hi -> val lo <= val a + val b <= val hi -> fin (@fadd _ G a b) /\ val lo <= val (@fadd _ G a b) <= val hi.
Proof. intros A B L U E. destruct (@add_r _ o a b A B (between L U E)) as [F V]. split; [exact F|]. rewrite V. split; [apply rn_ge|apply rn_le]; apply E. Qed.
Lemma sub_b (a b lo hi : f32) : fin a -> fin b -> fin lo -> fin hi -> val lo <= val a - val b <= val hi -> fin (@fsub _ G a b) /\ val lo <= val (@fsub _ G a b) <= val hi.
Proof. intros A B L U E. destruct (@sub_r _ o a b A B (between L U E)) as [F V]. split; [exact F|]. rewrite V. split; [apply rn_ge|apply rn_le]; apply E. Qed.
Lemma mul_b (a b lo hi : f32) : fin a -> fin b -> fin lo -> fin hi -> val lo <= val a * val b <= val hi -> fin (@fmul _ G a b) /\ val lo <= val (@fmul _ G a b) <= val hi.
Proof. intros A B L U E. destruct (@mul_r _ o a b A B (between L U E)) as [F V]. split; [exact F|]. rewrite V. split; [apply rn_ge|apply rn_le]; apply E. Qed.
Lemma div_b (a b lo hi : f32) : fin a -> fin b -> val b <> 0 -> fin lo -> fin hi -> val lo <= val a / val b <= val hi -> fin (@fdiv _ G a b) /\ val lo <= val (@fdiv _ G a b) <= val hi.
Proof. intros A B N L U E. destruct (@div_r _ o a b A B N (between L U E)) as [F V]. split; [exact F|]. rewrite V. split; [apply rn_ge|apply rn_le]; apply E. Qed.
Lemma opp_v (a : f32) : fin a -> fin (Bopp a) /\ val (Bopp a) = - val a.
Proof. intros A. unfold L_ieee.fin, L_ieee.val in *. rewrite is_finite_Bopp, B2R_Bopp. split; [exact A|reflexivity]. Qed.

(* ---- relative errors ---- *)
Definition rel (e y r : R) : Prop := r * (1 - e) <= y <= r * (1 + e).
Definition okr (r : R) : Prop := r = 0 \/ / 1000000000000000000000000000000 <= r <= 1000000000000000000000000000000000000.
Lemma okr_pos r : okr r -> 0 <= r. Proof. intros [->|E]; lra. Qed.
Lemma okr_max r : okr r -> Rabs r <= maxf.
Proof. intros E. apply maxf_sf. destruct E as [->|E]; [rewrite Rabs_R0; lra|rewrite Rabs_pos_eq; lra]. Qed.
Lemma rn_rel r : okr r -> rel (/ 16777215) (rn r) r.
Proof.
  intros E. destruct E as [->|E].
  - rewrite rn_0. unfold rel. lra.
  - assert (Hr : bpow radix2 (SpecFloat.emin 24 128 + 24 - 1) <= Rabs r). { rewrite Rabs_pos_eq by lra. apply Rle_trans with (bpow radix2 (Z.opp 115)); [apply bpow_le; cbn; lia|]. pose proof p115. lra. }
    pose proof (@relative_error_N_FLT radix2 (SpecFloat.emin 24 128) 24 eq_refl (fun t => negb (Z.even t)) r Hr) as P.
    change (round radix2 (FLT_exp (SpecFloat.emin 24 128) 24) (Znearest (fun t => negb (Z.even t))) r) with (rn r) in P. rewrite (Rabs_pos_eq r) in P by lra.
    change (bpow radix2 (- (24) + 1)) with (/ 8388608) in P. apply Rabs_le_inv in P. unfold rel. nra.
Qed.
Lemma rel_trans e1 e2 e3 y z r : 0 <= r -> 0 <= e1 <= 1 -> 0 <= e2 <= 1 -> e1 + e2 + e1 * e2 <= e3 -> rel e1 y r -> rel e2 z y -> rel e3 z r.
Proof.
  unfold rel. intros R E1 E2 E3 A B. assert (0 <= y) by nra. split.
  - apply Rle_trans with (y * (1 - e2)); [|lra]. apply Rle_trans with ((r * (1 - e1)) * (1 - e2)); [|apply Rmult_le_compat_r; lra]. replace (r * (1 - e1) * (1 - e2)) with (r * (1 - e1 - e2 + e1 * e2)) by ring. apply Rmult_le_compat_l; nra.
  - apply Rle_trans with (y * (1 + e2)); [lra|]. apply Rle_trans with ((r * (1 + e1)) * (1 + e2)); [apply Rmult_le_compat_r; lra|]. replace (r * (1 + e1) * (1 + e2)) with (r * (1 + (e1 + e2 + e1 * e2))) by ring. apply Rmult_le_compat_l; lra.
Qed.
Lemma rel_mult e1 e2 e3 y r z s : 0 <= r -> 0 <= s -> 0 <= e1 <= 1 -> 0 <= e2 <= 1 -> e1 + e2 + e1 * e2 <= e3 -> rel e1 y r -> rel e2 z s -> rel e3 (y * z) (r * s).
Proof.
  unfold rel. intros R S E1 E2 E3 A B. assert (0 <= y) by nra. assert (0 <= z) by nra. assert (0 <= r * s) by nra. split.
  - apply Rle_trans with ((r * (1 - e1)) * (s * (1 - e2))); [|apply Rmult_le_compat; nra]. replace (r * (1 - e1) * (s * (1 - e2))) with (r * s * (1 - e1 - e2 + e1 * e2)) by ring. apply Rmult_le_compat_l; nra.
  - apply Rle_trans with ((r * (1 + e1)) * (s * (1 + e2))); [apply Rmult_le_compat; nra|]. replace (r * (1 + e1) * (s * (1 + e2))) with (r * s * (1 + (e1 + e2 + e1 * e2))) by ring. apply Rmult_le_compat_l; lra.
Qed.
Lemma rel_inv e1 e2 y r : 0 < r -> 0 <= e1 <= / 10 -> e1 * (1 + 2 * e1) <= e2 -> rel e1 y r -> rel e2 (/ y) (/ r).
Proof.
  unfold rel. intros R E1 E2 A. assert (Y : 0 < y) by nra. pose proof (Rinv_0_lt_compat _ R) as Ir. split.
  - apply Rle_trans with (/ (r * (1 + e1))); [|apply Rinv_le_contravar; lra]. rewrite Rinv_mult. apply Rmult_le_compat_l; [lra|].
    apply Rmult_le_reg_r with (1 + e1); [lra|]. rewrite Rinv_l by lra. nra.
  - apply Rle_trans with (/ (r * (1 - e1))); [apply Rinv_le_contravar; [nra|lra]|]. rewrite Rinv_mult. apply Rmult_le_compat_l; [lra|].
    apply Rmult_le_reg_r with (1 - e1); [lra|]. rewrite Rinv_l by lra. nra.
Qed.
Lemma rel_abs e y r c : 0 <= r -> 0 <= e -> rel e y r -> r * e <= c -> Rabs (y - r) <= c.
Proof. unfold rel. intros. apply Rabs_le. lra. Qed.

Lemma as_rel n : INR n <= bpow radix2 64 -> fin (@fas _ G n) /\ rel (/ 16777215) (val (@fas _ G n)) (INR n).
Proof.
  intros Hn. rewrite u64 in Hn. destruct (@as_r _ o n) as [F E]; [pose proof p100; lra|]. split; [exact F|]. rewrite E. apply rn_rel.
  destruct n as [|n]; [left; reflexivity|]. right. rewrite S_INR in *. pose proof (pos_INR n). lra.
Qed.
Lemma pi_rel : fin (@fpi _ G) /\ rel (/ 16777215) (val (@fpi _ G)) PI.
Proof. destruct (pi_ok o) as [F E]. split; [exact F|]. unfold v0 in E. cbn [precf] in E. change (bpow radix2 (- (24))) with (/ 16777216) in E. apply Rabs_le_inv in E. unfold rel. pose proof PI_RGT_0. lra. Qed.
(* a power of two times pi *)
Lemma kpi_rel (k : f32) K : fin k -> val k = K -> 1 <= K <= 4 -> fin (@fmul _ G k (@fpi _ G)) /\ rel (/ 8000000) (val (@fmul _ G k (@fpi _ G))) (K * PI).
Proof.
  intros Fk Vk B. destruct pi_rel as [F E]. pose proof PI_bounds as Pb. assert (V : 3 <= val (@fpi _ G) <= 4) by (unfold rel in E; nra).
  assert (O : okr (val k * val (@fpi _ G))) by (right; rewrite Vk; nra).
  destruct (@mul_r _ o k (@fpi _ G) Fk F (okr_max O)) as [F2 E2]. split; [exact F2|]. rewrite E2.
  apply (@rel_trans (/ 16777215) (/ 16777215) _ (val k * val (@fpi _ G))); [nra|lra|lra|lra| |apply rn_rel, O].
  rewrite Vk. unfold rel in *. nra.
Qed.
(* sample angles: K pi i / n *)
Lemma angle1 (k : f32) K n i : fin k -> val k = K -> 1 <= K <= 4 -> (i <= n)%nat -> (0 < n)%nat -> INR n <= bpow radix2 64 ->
  let t := @fdiv _ G (@fmul _ G (@fmul _ G k (@fpi _ G)) (@fas _ G i)) (@fas _ G n) in fin t /\ Rabs (val t - K * PI * INR i / INR n) <= 5 / 10000000 * (K * PI).
Proof.
  intros Fk Vk B Hi Hn Hm t. destruct (kpi_rel Fk Vk B) as [F1 E1]. pose proof PI_bounds as Pb.
  assert (KP : 3 <= K * PI <= 16) by nra. assert (KI : 0 <= K * PI * INR i) by (apply Rmult_le_pos; [lra|apply pos_INR]).
  assert (Hi' : INR i <= INR n) by (apply le_INR; lia). assert (Hn1 : 1 <= INR n) by (change 1 with (INR 1); apply le_INR; lia).
  destruct (@as_rel i ltac:(lra)) as [F2 E2]. destruct (@as_rel n Hm) as [F3 E3]. rewrite u64 in Hm.
  pose proof (pos_INR i) as I0. assert (N1 : / 2 <= val (@fas _ G n) <= 20000000000000000000) by (unfold rel in E3; lra).
  assert (P1 : rel (2 / 10000000) (val (@fmul _ G k (@fpi _ G)) * val (@fas _ G i)) (K * PI * INR i)).
  { apply (@rel_mult (/ 8000000) (/ 16777215)); try lra; try nra; assumption. }
  assert (O1 : okr (val (@fmul _ G k (@fpi _ G)) * val (@fas _ G i))).
  { unfold rel in P1. destruct i as [|i]; [left|right].
    - cbn [INR] in P1. lra.
    - rewrite S_INR in *. pose proof (pos_INR i). assert (3 <= K * PI <= 16) by nra. assert (3 <= K * PI * (INR i + 1) <= 16 * 18446744073709551616) by nra. lra. }
  destruct (@mul_r _ o _ _ F1 F2 (okr_max O1)) as [F4 E4].
  assert (P2 : rel (27 / 100000000) (val (@fmul _ G (@fmul _ G k (@fpi _ G)) (@fas _ G i))) (K * PI * INR i)).
  { rewrite E4. apply (@rel_trans (2 / 10000000) (/ 16777215) _ (val (@fmul _ G k (@fpi _ G)) * val (@fas _ G i))); try lra; [exact P1|apply rn_rel, O1]. }
  assert (P3 : rel (35 / 100000000) (val (@fmul _ G (@fmul _ G k (@fpi _ G)) (@fas _ G i)) * / val (@fas _ G n)) (K * PI * INR i * / INR n)).
  { apply (@rel_mult (27 / 100000000) (7 / 100000000)); try lra; [left; apply Rinv_0_lt_compat; lra|exact P2|]. apply (@rel_inv (/ 16777215)); try lra. exact E3. }
  assert (Q : 0 <= INR i * / INR n <= 1). { assert (0 < / INR n) by (apply Rinv_0_lt_compat; lra). split; [nra|]. apply Rmult_le_reg_r with (INR n); [lra|]. rewrite Rmult_assoc, Rinv_l by lra. lra. }
  assert (O2 : okr (val (@fmul _ G (@fmul _ G k (@fpi _ G)) (@fas _ G i)) / val (@fas _ G n))).
  { unfold Rdiv. unfold rel in P3. destruct i as [|i]; [left; cbn [INR] in P3; lra|right].
    assert (L : / 18446744073709551616 <= INR (S i) * / INR n). { rewrite S_INR. pose proof (pos_INR i). assert (/ 18446744073709551616 <= / INR n) by (apply Rinv_le_contravar; lra). nra. }
    assert (3 * / 18446744073709551616 <= K * PI * INR (S i) * / INR n <= 16). { rewrite Rmult_assoc. assert (3 <= K * PI <= 16) by nra. nra. } lra. }
  destruct (@div_r _ o _ _ F4 F3 ltac:(lra) (okr_max O2)) as [F5 E5]. split; [exact F5|]. unfold t. rewrite E5.
  apply (@rel_abs (5 / 10000000)); [|lra| |].
  - unfold Rdiv. rewrite Rmult_assoc. nra.
  - apply (@rel_trans (35 / 100000000) (/ 16777215) _ (val (@fmul _ G (@fmul _ G k (@fpi _ G)) (@fas _ G i)) / val (@fas _ G n))); try lra; [unfold Rdiv; rewrite Rmult_assoc; nra|exact P3|apply rn_rel, O2].
  - unfold Rdiv. rewrite (Rmult_assoc (K * PI)). nra.
Qed.
Lemma angle2 (k : f32) K n i : fin k -> val k = K -> 1 <= K <= 4 -> (i <= n)%nat -> (0 < n)%nat -> INR n <= bpow radix2 64 ->
  let t := @fmul _ G (@fmul _ G k (@fpi _ G)) (@fdiv _ G (@fas _ G i) (@fas _ G n)) in fin t /\ Rabs (val t - K * PI * INR i / INR n) <= 5 / 10000000 * (K * PI).
Proof.
  intros Fk Vk B Hi Hn Hm t. destruct (kpi_rel Fk Vk B) as [F1 E1]. pose proof PI_bounds as Pb.
  assert (KP : 3 <= K * PI <= 16) by nra. assert (KI : 0 <= K * PI * INR i) by (apply Rmult_le_pos; [lra|apply pos_INR]).
  assert (Hi' : INR i <= INR n) by (apply le_INR; lia). assert (Hn1 : 1 <= INR n) by (change 1 with (INR 1); apply le_INR; lia).
  destruct (@as_rel i ltac:(lra)) as [F2 E2]. destruct (@as_rel n Hm) as [F3 E3]. rewrite u64 in Hm.
  pose proof (pos_INR i) as I0. assert (N1 : / 2 <= val (@fas _ G n) <= 20000000000000000000) by (unfold rel in E3; lra).
  assert (Q : 0 <= INR i * / INR n <= 1). { assert (0 < / INR n) by (apply Rinv_0_lt_compat; lra). split; [nra|]. apply Rmult_le_reg_r with (INR n); [lra|]. rewrite Rmult_assoc, Rinv_l by lra. lra. }
  assert (Q2 : INR i * / INR n = 0 \/ / 18446744073709551616 <= INR i * / INR n).
  { destruct i as [|i]; [left; cbn [INR]; ring|right]. rewrite S_INR. pose proof (pos_INR i). assert (/ 18446744073709551616 <= / INR n) by (apply Rinv_le_contravar; lra). nra. }
  assert (P1 : rel (14 / 100000000) (val (@fas _ G i) * / val (@fas _ G n)) (INR i * / INR n)).
  { apply (@rel_mult (/ 16777215) (7 / 100000000)); try lra; [left; apply Rinv_0_lt_compat; lra|exact E2|]. apply (@rel_inv (/ 16777215)); try lra. exact E3. }
  assert (O1 : okr (val (@fas _ G i) / val (@fas _ G n))). { unfold Rdiv, okr. unfold rel in P1. destruct Q2 as [Q2|Q2]; [left; rewrite Q2 in P1; lra|right; lra]. }
  destruct (@div_r _ o _ _ F2 F3 ltac:(lra) (okr_max O1)) as [F4 E4].
  assert (P2 : rel (21 / 100000000) (val (@fdiv _ G (@fas _ G i) (@fas _ G n))) (INR i * / INR n)).
  { rewrite E4. apply (@rel_trans (14 / 100000000) (/ 16777215) _ (val (@fas _ G i) / val (@fas _ G n))); try lra; [exact P1|apply rn_rel, O1]. }
  assert (P3 : rel (35 / 100000000) (val (@fmul _ G k (@fpi _ G)) * val (@fdiv _ G (@fas _ G i) (@fas _ G n))) (K * PI * (INR i * / INR n))).
  { apply (@rel_mult (/ 8000000) (21 / 100000000)); try lra; [exact E1|exact P2]. }
  assert (O2 : okr (val (@fmul _ G k (@fpi _ G)) * val (@fdiv _ G (@fas _ G i) (@fas _ G n)))).
  { unfold okr. unfold rel in P3. assert (3 <= K * PI <= 16) by nra. destruct Q2 as [Q2|Q2]; [left; rewrite Q2 in P3; lra|right]. assert (3 * / 18446744073709551616 <= K * PI * (INR i * / INR n) <= 16) by nra. lra. }
  destruct (@mul_r _ o _ _ F1 F4 (okr_max O2)) as [F5 E5]. split; [exact F5|]. unfold t. rewrite E5. unfold Rdiv. rewrite (Rmult_assoc (K * PI)).
  assert (0 < K * PI) by nra.
  apply (@rel_abs (5 / 10000000)); [nra|lra| |nra].
  apply (@rel_trans (35 / 100000000) (/ 16777215) _ (val (@fmul _ G k (@fpi _ G)) * val (@fdiv _ G (@fas _ G i) (@fas _ G n)))); try lra; [nra|exact P3|apply rn_rel, O2].
Qed.
End W.

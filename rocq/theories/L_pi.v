(* Sixteen decimals of pi, from the Machin series of the standard library. *)
From Coq Require Import Reals Lra Lia QArith Qreals Machin Ratan Alembert.
Set Implicit Arguments.
Open Scope R_scope.

Fixpoint qpow (q : Q) (n : nat) : Q := match n with O => 1%Q | S k => (q * qpow q k)%Q end.
Definition qterm (n : nat) : Q := ((2 * qpow (1 # 3) (2 * n + 1) + qpow (1 # 7) (2 * n + 1)) * (1 # Pos.of_nat (2 * n + 1)))%Q.
Fixpoint qsum (s : Q) (n : nat) : Q := match n with O => (s * qterm 0)%Q | S k => Qred (qsum (- s) k + s * qterm n)%Q end.
Lemma Q2R_pow q n : Q2R (qpow q n) = Q2R q ^ n.
Proof. induction n as [|n IH]; cbn [qpow pow]; [unfold Q2R; cbn; lra|]. rewrite Q2R_mult, IH. reflexivity. Qed.
Lemma Q2R_term n : Q2R (qterm n) = PI_2_3_7_tg n.
Proof.
  unfold qterm, PI_2_3_7_tg, Ratan_seq. rewrite Q2R_mult, Q2R_plus, Q2R_mult.
  rewrite !Q2R_pow.
  assert (E : Q2R (1 # Pos.of_nat (2 * n + 1)) = / INR (2 * n + 1)).
  { unfold Q2R. cbn [Qnum Qden]. rewrite Rmult_1_l, INR_IZR_INZ. do 2 f_equal. rewrite <- (Nat2Pos.id (2 * n + 1)) at 2 by lia. rewrite positive_nat_Z. reflexivity. }
  rewrite E. replace (Q2R 2) with 2 by (unfold Q2R; cbn; lra). replace (Q2R (1 # 3)) with (/ 3) by (unfold Q2R; cbn; lra).
  replace (Q2R (1 # 7)) with (/ 7) by (unfold Q2R; cbn; lra). field. apply not_0_INR. lia.
Qed.
Lemma Q2R_sum n : forall s, Q2R (qsum s n) = Q2R s * (-1) ^ n * sum_f_R0 (tg_alt PI_2_3_7_tg) n.
Proof.
  induction n as [|n IH]; intros s.
  - cbn [qsum sum_f_R0 pow]. rewrite Q2R_mult, Q2R_term. unfold tg_alt. cbn [pow]. ring.
  - cbn [qsum sum_f_R0]. rewrite (Qeq_eqR _ _ (Qred_correct _)), Q2R_plus, Q2R_mult, IH, Q2R_opp, Q2R_term. unfold tg_alt.
    assert (P : (-1) ^ S n * (-1) ^ S n = 1) by (rewrite <- Rpow_mult_distr; replace (-1 * -1) with 1 by ring; apply pow1).
    rewrite Rmult_plus_distr_l. replace (Q2R s * (-1) ^ S n * ((-1) ^ S n * PI_2_3_7_tg (S n))) with (Q2R s * ((-1) ^ S n * (-1) ^ S n) * PI_2_3_7_tg (S n)) by ring.
    rewrite P. cbn [pow]. ring.
Qed.
Lemma PI_bounds : 3141592653589793238 / 1000000000000000000 <= PI <= 3141592653589793239 / 1000000000000000000.
Proof.
  destruct (PI_2_3_7_ineq 20) as [H1 H2]. change (S (2 * 20)) with 41%nat in H1. change (2 * 20)%nat with 40%nat in H2.
  pose proof (Q2R_sum 41 (- (1))) as E1. pose proof (Q2R_sum 40 1) as E2.
  assert (P41 : (-1) ^ 41 = -1) by exact (pow_1_odd 20).
  assert (P40 : (-1) ^ 40 = 1) by exact (pow_1_even 20).
  rewrite P41 in E1. rewrite P40 in E2.
  replace (Q2R (- (1))) with (-1) in E1 by (unfold Q2R; cbn; lra). replace (Q2R 1) with 1 in E2 by (unfold Q2R; cbn; lra).
  assert (L : (3141592653589793238 # 4000000000000000000 <= qsum (- (1)) 41)%Q) by (vm_compute; discriminate).
  assert (U : (qsum 1 40 <= 3141592653589793239 # 4000000000000000000)%Q) by (vm_compute; discriminate).
  apply Qle_Rle in L. apply Qle_Rle in U. unfold Q2R in L at 1. unfold Q2R in U at 2. cbn [Qnum Qden] in L, U. lra.
Qed.

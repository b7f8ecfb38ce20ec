(* The trigonometric transforms: closed forms of the model for any T, sums of cosines over R. *)
From Coq Require Import Reals Lra ZArith Lia.
From Verif Require Export M_trig L_wave RX.
Set Implicit Arguments.
Open Scope nat_scope.

Section Any.
Context {T : Type} {F : Float T}.

Lemma fill_tab (out : list T) f g : (forall k, k < length out -> f k = Done (g k)) -> fill out f = Done (tab (length out) g).
Proof.
  intros H. unfold fill. rewrite (@for_set T (length out) f g out); [|lia|exact H].
  rewrite skipn_all, app_nil_r. reflexivity.
Qed.
Lemma fill_ext (o1 o2 : list T) f g : length o1 = length o2 -> (forall k, k < length o1 -> f k = Done (g k)) -> fill o1 f = fill o2 f.
Proof. intros E H. rewrite (@fill_tab o1 f g H), (@fill_tab o2 f g); [rewrite E; reflexivity|]. rewrite <- E. exact H. Qed.
Lemma zvec_length n : length (@zvec T F n) = n.
Proof. apply repeat_length. Qed.
Lemma enum_sum_app (f : nat -> T -> T) : forall l1 i l2 s, enum_sum f i (l1 ++ l2) s = enum_sum f (i + length l1) l2 (enum_sum f i l1 s).
Proof.
  induction l1 as [|a l IH]; intros i l2 s; cbn [enum_sum app length]; [rewrite Nat.add_0_r; reflexivity|].
  rewrite IH. f_equal. lia.
Qed.
End Any.

Open Scope R_scope.
Lemma rsum_S_l n f : rsum (S n) f = f 0%nat + rsum n (fun i => f (S i)).
Proof. induction n as [|n IH]; [cbn; ring|]. change (rsum (S (S n)) f) with (rsum (S n) f + f (S n)). rewrite IH. cbn [rsum]. ring. Qed.
Lemma rsum_scal_r n a f : rsum n (fun i => f i * a) = rsum n f * a.
Proof. rewrite Rmult_comm, <- rsum_scal. apply rsum_ext. intros; ring. Qed.
Lemma rsum_const n a : rsum n (fun _ => a) = INR n * a.
Proof. induction n as [|n IH]; [cbn; ring|]. cbn [rsum]. rewrite IH, S_INR. ring. Qed.
Lemma rsum_sub n f g : rsum n (fun i => f i - g i) = rsum n f - rsum n g.
Proof. induction n as [|n IH]; cbn [rsum]; [ring|]. rewrite IH. ring. Qed.
Lemma enum_sum_R (f : nat -> R -> R) : forall l i s, enum_sum f i l s = s + rsum (length l) (fun j => f (i + j)%nat (nth j l 0)).
Proof.
  induction l as [|a l IH]; intros i s; cbn [enum_sum length]; [cbn; ring|].
  rewrite IH, rsum_S_l. cbn [nth]. rewrite Nat.add_0_r.
  rewrite (@rsum_ext (length l) (fun j => f (S i + j)%nat (nth j l 0)) (fun j => f (i + S j)%nat (nth j l 0))); [cbn; ring|].
  intros j _. f_equal. lia.
Qed.

(* composition of two sums with kernels *)
Lemma kernel_inverse n (A B : nat -> nat -> R) (x : nat -> R) (k0 : R) j :
  (j < n)%nat -> (forall i, (i < n)%nat -> rsum n (fun k => A k i * B j k) = if (i =? j)%nat then k0 else 0) ->
  rsum n (fun k => rsum n (fun i => x i * A k i) * B j k) = k0 * x j.
Proof.
  intros Hj H.
  rewrite (@rsum_ext n _ (fun k => rsum n (fun i => x i * (A k i * B j k))))
    by (intros k _; rewrite <- rsum_scal_r; apply rsum_ext; intros; ring).
  rewrite rsum_swap.
  rewrite (@rsum_ext n _ (fun i => if (i =? j)%nat then k0 * x i else 0)).
  - rewrite rsum_pick_f. destruct (Nat.ltb_spec j n); [reflexivity|lia].
  - intros i Hi. rewrite (@rsum_scal n (x i) (fun k => A k i * B j k)), (H i Hi). destruct (i =? j)%nat; ring.
Qed.

Lemma sin_PI_Z m : sin (PI * IZR m) = 0.
Proof. apply sin_eq_0_1. exists m. ring. Qed.
Lemma cos_2PI_Z x m : cos (x + 2 * PI * IZR m) = cos x.
Proof.
  rewrite cos_plus. replace (2 * PI * IZR m) with (PI * IZR (2 * m)) by (rewrite mult_IZR; ring).
  rewrite sin_PI_Z. replace (PI * IZR (2 * m)) with (2 * (PI * IZR m)) by (rewrite mult_IZR; ring).
  rewrite cos_2a_sin, sin_PI_Z. ring.
Qed.
Lemma sin_2PI_Z x m : sin (x + 2 * PI * IZR m) = sin x.
Proof.
  rewrite sin_plus. replace (2 * PI * IZR m) with (PI * IZR (2 * m)) by (rewrite mult_IZR; ring).
  rewrite sin_PI_Z. replace (PI * IZR (2 * m)) with (2 * (PI * IZR m)) by (rewrite mult_IZR; ring).
  rewrite cos_2a_sin, sin_PI_Z. ring.
Qed.
Lemma cos_PI_odd a : cos (PI * IZR (2 * a + 1)) = -1.
Proof. rewrite plus_IZR, mult_IZR. replace (PI * (2 * IZR a + 1)) with (PI + 2 * PI * IZR a) by ring. rewrite cos_2PI_Z. apply cos_PI. Qed.
Lemma cos_PI_even a : cos (PI * IZR (2 * a)) = 1.
Proof. rewrite mult_IZR. replace (PI * (2 * IZR a)) with (0 + 2 * PI * IZR a) by ring. rewrite cos_2PI_Z. apply cos_0. Qed.
Lemma cos_PI_nat k : cos (PI * INR k) = if Nat.even k then 1 else -1.
Proof.
  rewrite INR_IZR_INZ. destruct (Nat.even k) eqn:E.
  - apply Nat.even_spec in E. destruct E as [a ->]. replace (Z.of_nat (2 * a)) with (2 * Z.of_nat a)%Z by lia. apply cos_PI_even.
  - assert (O : Nat.odd k = true) by (unfold Nat.odd; rewrite E; reflexivity).
    apply Nat.odd_spec in O. destruct O as [a ->]. replace (Z.of_nat (2 * a + 1)) with (2 * Z.of_nat a + 1)%Z by lia. apply cos_PI_odd.
Qed.

Lemma sin_frac_neq0 n m : (0 < n)%nat -> (m <> 0)%Z -> (- Z.of_nat n < m < Z.of_nat n)%Z -> sin (PI * IZR m / INR n) <> 0.
Proof.
  intros Hn Hm [H1 H2]. assert (P : 0 < INR n) by (apply lt_0_INR; lia). pose proof PI_RGT_0 as HP.
  apply IZR_lt in H1, H2. rewrite opp_IZR in H1. rewrite <- INR_IZR_INZ in H1, H2.
  assert (B : - INR n < IZR m < INR n) by lra.
  assert (Hb : - PI < PI * IZR m / INR n < PI).
  { split.
    - apply (Rmult_lt_reg_r (INR n)); [lra|]. unfold Rdiv. rewrite Rmult_assoc, Rinv_l by lra. nra.
    - apply (Rmult_lt_reg_r (INR n)); [lra|]. unfold Rdiv. rewrite Rmult_assoc, Rinv_l by lra. nra. }
  destruct (Z_lt_le_dec m 0) as [L|L].
  - apply IZR_lt in L.
    assert (PI * IZR m / INR n < 0).
    { apply (Rmult_lt_reg_r (INR n)); [lra|]. unfold Rdiv. rewrite Rmult_assoc, Rinv_l by lra. nra. }
    pose proof (@sin_lt_0_var (PI * IZR m / INR n)) as Q. lra.
  - assert (0 < m)%Z as L' by lia. apply IZR_lt in L'.
    assert (0 < PI * IZR m / INR n).
    { apply (Rmult_lt_reg_r (INR n)); [lra|]. unfold Rdiv. rewrite Rmult_assoc, Rinv_l by lra. nra. }
    pose proof (@sin_gt_0 (PI * IZR m / INR n)) as Q. lra.
Qed.

(* sum of cos((i + 1/2) m pi / n) *)
Definition SC (n : nat) (m : Z) : R := rsum n (fun i => cos (PI * IZR m * (INR i + / 2) / INR n)).
Lemma SC_0 n : SC n 0 = INR n.
Proof.
  unfold SC. rewrite (@rsum_ext n _ (fun _ => 1)); [rewrite rsum_const; ring|].
  intros i _. rewrite <- cos_0. f_equal. unfold Rdiv. ring.
Qed.
Lemma SC_zero n m : (0 < n)%nat -> (m <> 0)%Z -> (- (2 * Z.of_nat n) < m < 2 * Z.of_nat n)%Z -> SC n m = 0.
Proof.
  intros Hn Hm Hb. assert (P : INR n <> 0) by (apply not_0_INR; lia).
  set (t := PI * IZR m / (2 * INR n)).
  assert (S0 : sin t <> 0).
  { unfold t. replace (2 * INR n) with (INR (2 * n)) by (rewrite mult_INR; reflexivity). apply sin_frac_neq0; lia. }
  assert (K : forall N, 2 * sin t * rsum N (fun i => cos (PI * IZR m * (INR i + / 2) / INR n)) = sin (2 * INR N * t)).
  { induction N as [|N IH]; [cbn [rsum INR]; rewrite !Rmult_0_r, Rmult_0_l, sin_0; reflexivity|].
    cbn [rsum]. rewrite Rmult_plus_distr_l, IH. clear IH.
    replace (PI * IZR m * (INR N + / 2) / INR n) with (2 * INR N * t + t) by (unfold t; field; exact P).
    rewrite S_INR. replace (2 * (INR N + 1) * t) with (2 * INR N * t + t + t) by ring.
    rewrite (sin_plus (2 * INR N * t + t) t).
    replace (sin (2 * INR N * t)) with (sin (2 * INR N * t + t - t)) by (f_equal; ring).
    rewrite sin_minus. ring. }
  specialize (K n). replace (2 * INR n * t) with (PI * IZR m) in K by (unfold t; field; exact P).
  rewrite sin_PI_Z in K. apply Rmult_integral in K. destruct K as [K|K]; [|exact K]. lra.
Qed.

(* sum of cos(k m pi / n), k = 1 .. n-1 *)
Definition DC (n : nat) (m : Z) : R := rsum (n - 1) (fun k => cos (PI * IZR m * INR (S k) / INR n)).
Lemma DC_0 n : (0 < n)%nat -> DC n 0 = INR n - 1.
Proof.
  intros H. unfold DC. rewrite (@rsum_ext (n - 1) _ (fun _ => 1)).
  - rewrite rsum_const, minus_INR by lia. cbn [INR]. ring.
  - intros i _. rewrite <- cos_0. f_equal. unfold Rdiv. ring.
Qed.
Lemma DC_other n m : (0 < n)%nat -> (m <> 0)%Z -> (- (2 * Z.of_nat n) < m < 2 * Z.of_nat n)%Z ->
  DC n m = - (1 + cos (PI * IZR m)) / 2.
Proof.
  intros Hn Hm Hb. assert (P : INR n <> 0) by (apply not_0_INR; lia).
  set (t := PI * IZR m / (2 * INR n)).
  assert (S0 : sin t <> 0).
  { unfold t. replace (2 * INR n) with (INR (2 * n)) by (rewrite mult_INR; reflexivity). apply sin_frac_neq0; lia. }
  assert (K : forall N, 2 * sin t * rsum N (fun k => cos (PI * IZR m * INR (S k) / INR n)) = sin (2 * INR N * t + t) - sin t).
  { induction N as [|N IH]; [cbn [rsum INR]; rewrite !Rmult_0_r, Rmult_0_l, Rplus_0_l; ring|].
    cbn [rsum]. rewrite Rmult_plus_distr_l, IH. clear IH. rewrite !S_INR.
    replace (PI * IZR m * (INR N + 1) / INR n) with (2 * INR N * t + t + t) by (unfold t; field; exact P).
    replace (2 * (INR N + 1) * t + t) with (2 * INR N * t + t + t + t) by ring.
    rewrite (sin_plus (2 * INR N * t + t + t) t).
    replace (sin (2 * INR N * t + t)) with (sin (2 * INR N * t + t + t - t)) by (f_equal; ring).
    rewrite sin_minus. ring. }
  specialize (K (n - 1)%nat). fold (DC n m) in K.
  replace (2 * INR (n - 1) * t + t) with (PI * IZR m - t) in K
    by (rewrite minus_INR by lia; unfold t; cbn [INR]; field; exact P).
  rewrite sin_minus, sin_PI_Z in K. apply (Rmult_eq_reg_l (2 * sin t)); [|lra].
  rewrite K. field.
Qed.
Lemma DC_full n : (0 < n)%nat -> DC n (2 * Z.of_nat n) = INR n - 1.
Proof.
  intros H. rewrite <- (DC_0 H). unfold DC. apply rsum_ext. intros k _.
  rewrite mult_IZR, <- INR_IZR_INZ. assert (INR n <> 0) by (apply not_0_INR; lia).
  replace (PI * (2 * INR n) * INR (S k) / INR n) with (0 + 2 * PI * IZR (Z.of_nat (S k))) by (rewrite <- INR_IZR_INZ; field; assumption).
  rewrite cos_2PI_Z. f_equal. unfold Rdiv. ring.
Qed.
Lemma cos_cos a b : cos a * cos b = (cos (a - b) + cos (a + b)) / 2.
Proof. rewrite cos_minus, cos_plus. field. Qed.
Lemma sin_sin a b : sin a * sin b = (cos (a - b) - cos (a + b)) / 2.
Proof. rewrite cos_minus, cos_plus. field. Qed.

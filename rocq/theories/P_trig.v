(* Properties C44-C50: cosine, sine and Hartley transforms. *)
From Coq Require Import Reals Lra ZArith Lia.
From Verif Require Import L_trig L_prov P_rfft.
Set Implicit Arguments.
Open Scope R_scope.

(* ---------------------------------------------------------------- specification *)
(* the transforms of a real vector x of n samples, as formulas *)
Definition xat (x : list R) (i : nat) : R := nth i x 0.
Definition sum_spec (x : list R) (K : nat -> nat -> R) : list R :=
  tab (length x) (fun k => rsum (length x) (fun i => xat x i * K k i)).
Definition c2 (n k i : nat) : R := cos (PI * INR k * (INR i + / 2) / INR n).
Definition c3 (n k i : nat) : R := if (i =? 0)%nat then / 2 else cos (PI * INR i * (INR k + / 2) / INR n).
Definition c4 (n k i : nat) : R := cos (PI * (INR i + / 2) * (INR k + / 2) / INR n).
Definition c1 (n k i : nat) : R :=
  (if ((i =? 0) || (i =? n - 1))%nat then 1 else 2) * cos (PI * INR i * INR k / (INR n - 1)).
Definition s1 (n k i : nat) : R := sin (PI * INR (S i) * INR (S k) / INR (S n)).
Definition s2 (n k i : nat) : R := sin (PI * INR (S k) * (INR i + / 2) / INR n).
Definition s3 (n k i : nat) : R := if (i =? 0)%nat then / 2 else sin (PI * INR i * (INR k + / 2) / INR n).
Definition s4 (n k i : nat) : R := sin (PI * (INR i + / 2) * (INR k + / 2) / INR n).
Definition cas (n k i : nat) : R :=
  cos (2 * PI * INR (i * k) / INR n) + sin (2 * PI * INR (i * k) / INR n).
Definition scale (a : R) (x : list R) : list R := map (Rmult a) x.

Lemma Q2 : Q2R 2 = 2. Proof. unfold Q2R; cbn; lra. Qed.
Lemma Qh : Q2R (1 # 2) = / 2. Proof. unfold Q2R; cbn; lra. Qed.
Ltac fr := unfold ph, p1, two, M_rfft.half; cbn [fcos fsin fadd fsub fmul fdiv fneg fpi fas fofnat flit fone fzero RF RFloat_of];
  rewrite ?Q2, ?Qh.
Lemma sum0 (x : list R) (g : nat -> R -> R) (K : nat -> nat -> R) k :
  (forall i, (i < length x)%nat -> g i (xat x i) = xat x i * K k i) -> enum_sum g 0 x 0 = rsum (length x) (fun i => xat x i * K k i).
Proof. intros H. rewrite enum_sum_R, Rplus_0_l. apply rsum_ext. intros i Hi. cbn. apply H, Hi. Qed.
Lemma sum1 (x : list R) (g : nat -> R -> R) (K : nat -> nat -> R) k s : (0 < length x)%nat -> s = xat x 0 * K k 0%nat ->
  (forall i, (0 < i < length x)%nat -> g i (xat x i) = xat x i * K k i) ->
  enum_sum g 1 (skipn 1 x) s = rsum (length x) (fun i => xat x i * K k i).
Proof.
  intros Hn Hs H. rewrite enum_sum_R. destruct x as [|a l]; [cbn in Hn; lia|]. cbn [skipn length] in *.
  rewrite rsum_S_l, <- Hs. f_equal. apply rsum_ext. intros i Hi. apply (H (S i)). lia.
Qed.
Ltac kern := let k := fresh "k" in intros k ?; f_equal.
Lemma fill_spec (x : list R) f K : (forall k, (k < length x)%nat -> f k = Done (rsum (length x) (fun i => xat x i * K k i))) ->
  fill (zvec (length x)) f = Done (sum_spec x K).
Proof. intros H. rewrite (@fill_tab R _ f (fun k => rsum (length x) (fun i => xat x i * K k i))); rewrite zvec_length; [reflexivity|exact H]. Qed.

Lemma nz (x : list R) k : (k < length x)%nat -> INR (length x) <> 0.
Proof. intros. apply not_0_INR. lia. Qed.
Lemma dct2_R x : dct2 x = Done (sum_spec x (c2 (length x))).
Proof.
  unfold dct2. apply fill_spec. intros k Hk. unfold dct2_sum. f_equal. apply sum0. intros i Hi. fr. unfold c2.
  f_equal. f_equal. field. apply (@nz x k Hk).
Qed.
Lemma dct4_R x : dct4 x = Done (sum_spec x (c4 (length x))).
Proof.
  unfold dct4. apply fill_spec. intros k Hk. unfold dct4_sum. f_equal. apply sum0. intros i Hi. fr. unfold c4.
  f_equal. f_equal. field. apply (@nz x k Hk).
Qed.
Lemma get0 (x : list R) : (0 < length x)%nat -> get x 0 = Done (xat x 0).
Proof. intros. apply get_nth. assumption. Qed.
Lemma dct3_R x : dct3 x = Done (sum_spec x (c3 (length x))).
Proof.
  unfold dct3. apply fill_spec. intros k Hk. unfold dct3_sum. rewrite get0 by lia. cbn [bind]. f_equal. apply sum1; [lia| |].
  - fr. unfold c3. cbn [Nat.eqb]. reflexivity.
  - intros i Hi. fr. unfold c3. destruct (Nat.eqb_spec i 0); [lia|]. f_equal. f_equal. field. apply (@nz x k Hk).
Qed.
Lemma dst1_R x : dst1 x = Done (sum_spec x (s1 (length x))).
Proof.
  unfold dst1. apply fill_spec. intros k Hk. unfold dst1_sum. f_equal. apply sum0. intros i Hi. fr. unfold s1.
  f_equal. f_equal. rewrite !S_INR. field. pose proof (pos_INR (length x)). lra.
Qed.
Lemma dst2_R x : dst2 x = Done (sum_spec x (s2 (length x))).
Proof.
  unfold dst2. apply fill_spec. intros k Hk. unfold dst2_sum. f_equal. apply sum0. intros i Hi. fr. unfold s2.
  f_equal. f_equal. rewrite S_INR. field. apply (@nz x k Hk).
Qed.
Lemma dst4_R x : dst4 x = Done (sum_spec x (s4 (length x))).
Proof.
  unfold dst4. apply fill_spec. intros k Hk. unfold dst4_sum. f_equal. apply sum0. intros i Hi. fr. unfold s4.
  f_equal. f_equal. field. apply (@nz x k Hk).
Qed.
Lemma dst3_R x : dst3 x = Done (sum_spec x (s3 (length x))).
Proof.
  unfold dst3. apply fill_spec. intros k Hk. unfold dst3_sum. rewrite get0 by lia. cbn [bind]. f_equal. apply sum1; [lia| |].
  - fr. unfold s3. cbn [Nat.eqb]. reflexivity.
  - intros i Hi. fr. unfold s3. destruct (Nat.eqb_spec i 0); [lia|]. f_equal. f_equal. field. apply (@nz x k Hk).
Qed.
Lemma dht_R x : dht x = Done (sum_spec x (cas (length x))).
Proof.
  unfold dht. apply fill_spec. intros k Hk. unfold dht_sum. f_equal. apply sum0. intros i Hi. fr. unfold cas.
  f_equal. replace (2 * PI / INR (length x) * INR (i * k)) with (2 * PI * INR (i * k) / INR (length x)); [reflexivity|].
  field. apply (@nz x k Hk).
Qed.
Lemma nth_firstn' (x : list R) n i : (i < n)%nat -> nth i (firstn n x) 0 = nth i x 0.
Proof. revert x i. induction n as [|n IH]; intros [|a x] [|i] H; cbn; try lia; try reflexivity. apply IH. lia. Qed.
Lemma dct1_R x : (2 <= length x)%nat -> dct1 x = Done (sum_spec x (c1 (length x))).
Proof.
  intros Hn.
  assert (E : dct1 x = fill (zvec (length x)) (dct1_sum (fdiv fpi (fsub (fas (length x)) fone)) x)).
  { destruct x as [|a [|b l]]; cbn in Hn; try lia. reflexivity. }
  rewrite E. clear E. apply fill_spec. intros k Hk. unfold dct1_sum.
  rewrite get0 by lia. cbn [bind]. rewrite (@get_nth R x (length x - 1) 0) by lia. cbn [bind]. f_equal.
  fold (xat x (length x - 1)).
  assert (D : INR (length x) - 1 <> 0).
  { replace (INR (length x) - 1) with (INR (length x - 1)) by (rewrite minus_INR by lia; reflexivity). apply not_0_INR. lia. }
  rewrite enum_sum_R. rewrite skipn_length, firstn_length, Nat.min_l by lia.
  assert (S2 : length x = S (S (length x - 1 - 1))) by lia.
  replace (rsum (length x) (fun i => xat x i * c1 (length x) k i)) with (rsum (S (S (length x - 1 - 1))) (fun i => xat x i * c1 (length x) k i)) by (rewrite <- S2; reflexivity).
  rewrite rsum_S_l. cbn [rsum].
  replace (S (length x - 1 - 1)) with (length x - 1)%nat by lia.
  assert (E0 : c1 (length x) k 0 = 1).
  { unfold c1. cbn [Nat.eqb orb]. replace (PI * INR 0 * INR k / (INR (length x) - 1)) with 0 by (cbn [INR]; unfold Rdiv; ring). rewrite cos_0. ring. }
  assert (E1 : c1 (length x) k (length x - 1) = if Nat.even k then 1 else -1).
  { unfold c1. rewrite Nat.eqb_refl, Bool.orb_true_r.
    replace (PI * INR (length x - 1) * INR k / (INR (length x) - 1)) with (PI * INR k)
      by (rewrite minus_INR by lia; cbn [INR]; field; exact D).
    rewrite cos_PI_nat. ring. }
  rewrite E0, E1. fr.
  rewrite (@rsum_ext (length x - 1 - 1) _ (fun i => xat x (S i) * c1 (length x) k (S i))).
  - destruct (Nat.even k); ring.
  - intros i Hi. rewrite nth_skipn, nth_firstn' by lia. unfold xat, c1. change (1 + i)%nat with (S i).
    destruct (Nat.eqb_spec (S i) 0); [lia|]. destruct (Nat.eqb_spec (S i) (length x - 1)); [lia|]. cbn [orb].
    replace (PI / (INR (length x) - 1) * INR (S i) * INR k) with (PI * INR (S i) * INR k / (INR (length x) - 1)) by (field; exact D). ring.
Qed.

Lemma sum_spec_length x K : length (sum_spec x K) = length x.
Proof. apply tab_length. Qed.
Lemma xat_spec x K k : (k < length x)%nat -> xat (sum_spec x K) k = rsum (length x) (fun i => xat x i * K k i).
Proof. intros. unfold xat at 1, sum_spec. rewrite nth_tab by assumption. reflexivity. Qed.
Lemma spec_inverse (x : list R) A B a :
  (forall i j, (i < length x)%nat -> (j < length x)%nat -> rsum (length x) (fun k => A k i * B j k) = if (i =? j)%nat then a else 0) ->
  sum_spec (sum_spec x A) B = scale a x.
Proof.
  intros H. unfold scale. assert (E : map (Rmult a) x = tab (length x) (fun j => a * xat x j)) by (rewrite (@list_tab R x 0) at 1; rewrite map_tab; reflexivity).
  rewrite E. clear E.
  unfold sum_spec at 1. rewrite sum_spec_length. apply tab_ext. intros j Hj.
  rewrite (@rsum_ext (length x) _ (fun k => rsum (length x) (fun i => xat x i * A k i) * B j k)) by (intros k Hk; rewrite xat_spec by assumption; reflexivity).
  rewrite (@kernel_inverse (length x) A B (xat x) a j Hj); [reflexivity|]. intros i Hi. apply H; assumption.
Qed.

(* ------------------------------------------------------------------ C44 *)
Lemma INR_Z i : INR i = IZR (Z.of_nat i).
Proof. apply INR_IZR_INZ. Qed.

Section Prod.
Variables (n : nat) (a b : R) (d s : Z).
Hypotheses (Hn : (0 < n)%nat) (Hd : a - b = IZR d) (Hs : a + b = IZR s).
Lemma half_cc : rsum n (fun k => cos (PI * a * (INR k + / 2) / INR n) * cos (PI * b * (INR k + / 2) / INR n)) = (SC n d + SC n s) / 2.
Proof.
  assert (P : INR n <> 0) by (apply not_0_INR; lia). unfold SC. rewrite <- rsum_add. match goal with |- _ = ?X / 2 => change (X / 2) with (X * / 2) end. rewrite <- rsum_scal_r. apply rsum_ext. intros k _.
  rewrite cos_cos. match goal with |- ?X / 2 = _ => change (X / 2) with (X * / 2) end. f_equal. rewrite <- Hd, <- Hs. f_equal; f_equal; field; exact P.
Qed.
Lemma half_ss : rsum n (fun k => sin (PI * a * (INR k + / 2) / INR n) * sin (PI * b * (INR k + / 2) / INR n)) = (SC n d - SC n s) / 2.
Proof.
  assert (P : INR n <> 0) by (apply not_0_INR; lia). unfold SC. rewrite <- rsum_sub. match goal with |- _ = ?X / 2 => change (X / 2) with (X * / 2) end. rewrite <- rsum_scal_r. apply rsum_ext. intros k _.
  rewrite sin_sin. match goal with |- ?X / 2 = _ => change (X / 2) with (X * / 2) end. f_equal. rewrite <- Hd, <- Hs. f_equal; f_equal; field; exact P.
Qed.
Lemma full_cc : rsum (n - 1) (fun k => cos (PI * a * INR (S k) / INR n) * cos (PI * b * INR (S k) / INR n)) = (DC n d + DC n s) / 2.
Proof.
  assert (P : INR n <> 0) by (apply not_0_INR; lia). unfold DC. rewrite <- rsum_add. match goal with |- _ = ?X / 2 => change (X / 2) with (X * / 2) end. rewrite <- rsum_scal_r. apply rsum_ext. intros k _.
  rewrite cos_cos. match goal with |- ?X / 2 = _ => change (X / 2) with (X * / 2) end. f_equal. rewrite <- Hd, <- Hs. f_equal; f_equal; field; exact P.
Qed.
Lemma full_ss : rsum (n - 1) (fun k => sin (PI * a * INR (S k) / INR n) * sin (PI * b * INR (S k) / INR n)) = (DC n d - DC n s) / 2.
Proof.
  assert (P : INR n <> 0) by (apply not_0_INR; lia). unfold DC. rewrite <- rsum_sub. match goal with |- _ = ?X / 2 => change (X / 2) with (X * / 2) end. rewrite <- rsum_scal_r. apply rsum_ext. intros k _.
  rewrite sin_sin. match goal with |- ?X / 2 = _ => change (X / 2) with (X * / 2) end. f_equal. rewrite <- Hd, <- Hs. f_equal; f_equal; field; exact P.
Qed.
End Prod.
Ltac izr := rewrite ?plus_IZR, ?minus_IZR, <- ?INR_IZR_INZ; lra.
(* cos(pi (i-j)) and cos(pi (i+j+1)) have opposite signs *)
Lemma parity_opp (i j : nat) : cos (PI * IZR (Z.of_nat i + Z.of_nat j + 1)) = - cos (PI * IZR (Z.of_nat i - Z.of_nat j)).
Proof.
  replace (PI * IZR (Z.of_nat i + Z.of_nat j + 1)) with (PI * IZR (Z.of_nat i - Z.of_nat j) + PI + 2 * PI * IZR (Z.of_nat j)) by izr.
  rewrite cos_2PI_Z. apply neg_cos.
Qed.
Lemma parity_same (i j : nat) : cos (PI * IZR (Z.of_nat i + Z.of_nat j)) = cos (PI * IZR (Z.of_nat i - Z.of_nat j)).
Proof.
  replace (PI * IZR (Z.of_nat i + Z.of_nat j)) with (PI * IZR (Z.of_nat i - Z.of_nat j) + 2 * PI * IZR (Z.of_nat j)) by izr.
  apply cos_2PI_Z.
Qed.
Lemma orth_23 n i j : (i < n)%nat -> (j < n)%nat -> rsum n (fun k => c2 n k i * c3 n j k) = if (i =? j)%nat then INR n / 2 else 0.
Proof.
  intros Hi Hj. assert (Hn : (0 < n)%nat) by lia. assert (P : INR n <> 0) by (apply not_0_INR; lia).
  replace (rsum n (fun k => c2 n k i * c3 n j k)) with (rsum (S (n - 1)) (fun k => c2 n k i * c3 n j k)) by (f_equal; lia).
  rewrite rsum_S_l. unfold c2 at 1, c3 at 1. cbn [Nat.eqb].
  replace (PI * INR 0 * (INR i + / 2) / INR n) with 0 by (cbn [INR]; unfold Rdiv; ring). rewrite cos_0.
  rewrite (@rsum_ext (n - 1) _ (fun k => cos (PI * (INR i + / 2) * INR (S k) / INR n) * cos (PI * (INR j + / 2) * INR (S k) / INR n))).
  2:{ intros k Hk. unfold c2, c3. cbn [Nat.eqb]. f_equal; f_equal; field; exact P. }
  rewrite (@full_cc n (INR i + / 2) (INR j + / 2) (Z.of_nat i - Z.of_nat j) (Z.of_nat i + Z.of_nat j + 1)); [|lia|izr|izr].
  rewrite (@DC_other n (Z.of_nat i + Z.of_nat j + 1)) by lia. rewrite parity_opp.
  destruct (Nat.eqb_spec i j) as [->|Hne].
  - rewrite Z.sub_diag, Rmult_0_r, cos_0, DC_0 by lia. field.
  - rewrite DC_other by lia. field.
Qed.
Lemma orth_32 n i j : (i < n)%nat -> (j < n)%nat -> rsum n (fun k => c3 n k i * c2 n j k) = if (i =? j)%nat then INR n / 2 else 0.
Proof.
  intros Hi Hj. assert (Hn : (0 < n)%nat) by lia. assert (P : INR n <> 0) by (apply not_0_INR; lia).
  unfold c3. destruct (Nat.eqb_spec i 0) as [->|Hi0].
  - rewrite rsum_scal. assert (E : rsum n (c2 n j) = SC n (Z.of_nat j)) by (unfold SC, c2; apply rsum_ext; intros; rewrite <- INR_IZR_INZ; reflexivity).
    rewrite E. destruct (Nat.eqb_spec 0 j) as [<-|Hne]; [change (Z.of_nat 0) with 0%Z; rewrite SC_0; field|rewrite SC_zero by lia; ring].
  - unfold c2. rewrite (@half_cc n (INR i) (INR j) (Z.of_nat i - Z.of_nat j) (Z.of_nat i + Z.of_nat j)); [|lia|izr|izr].
    rewrite (@SC_zero n (Z.of_nat i + Z.of_nat j)) by lia.
    destruct (Nat.eqb_spec i j) as [->|Hne]; [rewrite Z.sub_diag, SC_0; field|rewrite SC_zero by lia; field].
Qed.

(* the outputs are the DCT-II and DCT-III sums *)
Theorem C44_dct2_dct3_formula : forall x : list R,
  dct2 x = Done (tab (length x) (fun k => rsum (length x) (fun i =>
     nth i x 0 * cos (PI * INR k * (INR i + 1 / 2) / INR (length x))))) /\
  dct3 x = Done (tab (length x) (fun k => rsum (length x) (fun i =>
     nth i x 0 * (if (i =? 0)%nat then 1 / 2 else cos (PI * INR i * (INR k + 1 / 2) / INR (length x)))))).
Proof.
  intros x. replace (1 / 2) with (/ 2) by lra. split; [apply dct2_R|apply dct3_R].
Qed.
Print Assumptions C44_dct2_dct3_formula.
Theorem C44_dct2_dct3_inverse : forall x : list R,
  (exists y, dct2 x = Done y /\ length y = length x /\ dct3 y = Done (scale (INR (length x) / 2) x)) /\
  (exists y, dct3 x = Done y /\ length y = length x /\ dct2 y = Done (scale (INR (length x) / 2) x)).
Proof.
  intros x. split.
  - exists (sum_spec x (c2 (length x))). split; [apply dct2_R|]. split; [apply sum_spec_length|].
    rewrite dct3_R, sum_spec_length. f_equal. apply spec_inverse. intros; apply orth_23; assumption.
  - exists (sum_spec x (c3 (length x))). split; [apply dct3_R|]. split; [apply sum_spec_length|].
    rewrite dct2_R, sum_spec_length. f_equal. apply spec_inverse. intros; apply orth_32; assumption.
Qed.
Print Assumptions C44_dct2_dct3_inverse.
Theorem C44_empty : forall (T : Type) (F : Float T), dct2 (T := T) [] = Done [] /\ dct3 (T := T) [] = Done [].
Proof. intros. split; reflexivity. Qed.
Print Assumptions C44_empty.
(* for any float type both are total and keep the length *)
Theorem C44_total : forall (T : Type) (F : Float T) (x : list T),
  (exists y, dct2 x = Done y /\ length y = length x) /\ (exists y, dct3 x = Done y /\ length y = length x).
Proof.
  intros T F x. split.
  - eexists. split; [unfold dct2; apply fill_tab; intros; reflexivity|]. rewrite tab_length. apply zvec_length.
  - destruct x as [|a l]; [exists []; split; reflexivity|].
    eexists. split; [unfold dct3; apply fill_tab; intros; unfold dct3_sum; rewrite (@get_nth T _ 0 a) by (cbn; lia); reflexivity|].
    rewrite tab_length. apply zvec_length.
Qed.
Print Assumptions C44_total.
Example C44_example : scale (INR (length [1; 2; 3]) / 2) [1; 2; 3] = [3 / 2; 3; 9 / 2].
Proof. unfold scale. cbn [map length INR]. f_equal; [lra|f_equal; [lra|f_equal; lra]]. Qed.

(* ------------------------------------------------------------------ C45 *)
Lemma orth_44 n i j : (i < n)%nat -> (j < n)%nat -> rsum n (fun k => c4 n k i * c4 n j k) = if (i =? j)%nat then INR n / 2 else 0.
Proof.
  intros Hi Hj. assert (Hn : (0 < n)%nat) by lia. assert (P : INR n <> 0) by (apply not_0_INR; lia).
  rewrite (@rsum_ext n _ (fun k => cos (PI * (INR i + / 2) * (INR k + / 2) / INR n) * cos (PI * (INR j + / 2) * (INR k + / 2) / INR n))).
  2:{ intros k Hk. unfold c4. f_equal. f_equal. field. exact P. }
  rewrite (@half_cc n (INR i + / 2) (INR j + / 2) (Z.of_nat i - Z.of_nat j) (Z.of_nat i + Z.of_nat j + 1)); [|lia|izr|izr].
  rewrite (@SC_zero n (Z.of_nat i + Z.of_nat j + 1)) by lia.
  destruct (Nat.eqb_spec i j) as [->|Hne]; [rewrite Z.sub_diag, SC_0; field|rewrite SC_zero by lia; field].
Qed.
(* both ends counted once, the inside twice *)
Definition GC (n : nat) (m : Z) : R := 1 + cos (PI * IZR m) + 2 * DC n m.
Lemma GC_val n m : (0 < n)%nat -> (- (2 * Z.of_nat n) < m <= 2 * Z.of_nat n)%Z -> GC n m = if (m =? 0)%Z || (m =? 2 * Z.of_nat n)%Z then 2 * INR n else 0.
Proof.
  intros Hn Hm. unfold GC. destruct (Z.eqb_spec m 0) as [->|Hz]; cbn [orb].
  - rewrite Rmult_0_r, cos_0, DC_0 by lia. ring.
  - destruct (Z.eqb_spec m (2 * Z.of_nat n)) as [->|Hz'].
    + rewrite cos_PI_even, DC_full by lia. ring.
    + rewrite DC_other by lia. field.
Qed.
Lemma orth_11 n i j : (2 <= n)%nat -> (i < n)%nat -> (j < n)%nat -> rsum n (fun k => c1 n k i * c1 n j k) = if (i =? j)%nat then 2 * (INR n - 1) else 0.
Proof.
  intros Hn Hi Hj. set (N := (n - 1)%nat). assert (HN : (0 < N)%nat) by lia. assert (P : INR N <> 0) by (apply not_0_INR; lia).
  assert (EN : INR n - 1 = INR N) by (unfold N; rewrite minus_INR by lia; reflexivity).
  set (w := fun i => (if ((i =? 0) || (i =? N))%nat then 1 else 2)).
  assert (E : rsum n (fun k => c1 n k i * c1 n j k) = w i * ((GC N (Z.of_nat i - Z.of_nat j) + GC N (Z.of_nat i + Z.of_nat j)) / 2)).
  { rewrite (@rsum_ext n _ (fun k => w i * (w k * (cos (PI * INR i * INR k / INR N) * cos (PI * INR j * INR k / INR N))))).
    2:{ intros k _. unfold c1. fold N. fold (w i) (w k). rewrite EN.
        replace (PI * INR k * INR j / INR N) with (PI * INR j * INR k / INR N) by (field; exact P). ring. }
    rewrite rsum_scal. f_equal.
    replace n with (S (S (N - 1))) by lia. rewrite rsum_S_l. cbn [rsum]. replace (S (N - 1)) with N by lia.
    assert (w0 : w 0%nat = 1) by reflexivity.
    assert (wN : w N = 1) by (unfold w; rewrite Nat.eqb_refl, Bool.orb_true_r; reflexivity).
    rewrite w0, wN.
    rewrite (@rsum_ext (N - 1) _ (fun k => 2 * (cos (PI * INR i * INR (S k) / INR N) * cos (PI * INR j * INR (S k) / INR N)))).
    2:{ intros k Hk. unfold w. destruct (Nat.eqb_spec (S k) 0); [lia|]. destruct (Nat.eqb_spec (S k) N); [lia|]. reflexivity. }
    rewrite rsum_scal.
    rewrite (@full_cc N (INR i) (INR j) (Z.of_nat i - Z.of_nat j) (Z.of_nat i + Z.of_nat j)); [|lia|izr|izr].
    unfold GC. rewrite parity_same.
    replace (PI * INR i * INR N / INR N) with (PI * INR i) by (field; exact P).
    replace (PI * INR j * INR N / INR N) with (PI * INR j) by (field; exact P).
    replace (PI * INR i * INR 0 / INR N) with 0 by (cbn [INR]; unfold Rdiv; ring).
    replace (PI * INR j * INR 0 / INR N) with 0 by (cbn [INR]; unfold Rdiv; ring). rewrite cos_0.
    replace (PI * IZR (Z.of_nat i - Z.of_nat j)) with (PI * INR i - PI * INR j) by izr.
    pose proof (cos_cos (PI * INR i) (PI * INR j)) as K.
    replace (cos (PI * INR i + PI * INR j)) with (cos (PI * INR i - PI * INR j)) in K.
    - lra.
    - replace (PI * INR i - PI * INR j) with (PI * IZR (Z.of_nat i - Z.of_nat j)) by izr.
      replace (PI * INR i + PI * INR j) with (PI * IZR (Z.of_nat i + Z.of_nat j)) by izr. symmetry. apply parity_same. }
  rewrite E, EN, !GC_val by lia. unfold w.
  destruct (Nat.eqb_spec i j) as [<-|Hne].
  - rewrite Z.sub_diag, Z.eqb_refl. cbn [orb].
    destruct (Nat.eqb_spec i 0), (Nat.eqb_spec i N), (Z.eqb_spec (Z.of_nat i + Z.of_nat i) 0), (Z.eqb_spec (Z.of_nat i + Z.of_nat i) (2 * Z.of_nat N)); cbn [orb]; try lia; field.
  - destruct (Z.eqb_spec (Z.of_nat i - Z.of_nat j) 0), (Z.eqb_spec (Z.of_nat i - Z.of_nat j) (2 * Z.of_nat N)),
      (Z.eqb_spec (Z.of_nat i + Z.of_nat j) 0), (Z.eqb_spec (Z.of_nat i + Z.of_nat j) (2 * Z.of_nat N)); cbn [orb]; try lia; field.
Qed.
Theorem C45_dct4_involution : forall x : list R,
  exists y, dct4 x = Done y /\ length y = length x /\ dct4 y = Done (scale (INR (length x) / 2) x).
Proof.
  intros x. exists (sum_spec x (c4 (length x))). split; [apply dct4_R|]. split; [apply sum_spec_length|].
  rewrite dct4_R, sum_spec_length. f_equal. apply spec_inverse. intros; apply orth_44; assumption.
Qed.
Print Assumptions C45_dct4_involution.
Theorem C45_dct1_involution : forall x : list R, (2 <= length x)%nat ->
  exists y, dct1 x = Done y /\ length y = length x /\ dct1 y = Done (scale (2 * (INR (length x) - 1)) x).
Proof.
  intros x H. exists (sum_spec x (c1 (length x))). split; [apply dct1_R, H|]. split; [apply sum_spec_length|].
  rewrite dct1_R by (rewrite sum_spec_length; exact H). rewrite sum_spec_length. f_equal. apply spec_inverse. intros; apply orth_11; assumption.
Qed.
Print Assumptions C45_dct1_involution.
(* the sums they compute; the two short lengths of DCT-I *)
Theorem C45_formula : forall x : list R,
  dct4 x = Done (tab (length x) (fun k => rsum (length x) (fun i =>
     nth i x 0 * cos (PI * (INR i + 1 / 2) * (INR k + 1 / 2) / INR (length x))))) /\
  ((2 <= length x)%nat -> dct1 x = Done (tab (length x) (fun k =>
     rsum (length x) (fun i => nth i x 0 * ((if (i =? 0)%nat || (i =? length x - 1)%nat then 1 else 2) * cos (PI * INR i * INR k / (INR (length x) - 1))))))) /\
  (forall v, dct1 [v] = Done [v * 2]) /\ dct1 (T := R) [] = Done [].
Proof.
  intros x. replace (1 / 2) with (/ 2) by lra. split; [apply dct4_R|]. split; [apply dct1_R|].
  split; [|reflexivity]. intros v. cbn [dct1]. fr. reflexivity.
Qed.
Print Assumptions C45_formula.
Example C45_example : (2 <= length [1; 2; 3])%nat /\ 2 * (INR (length [1; 2; 3]) - 1) = 4.
Proof. cbn. split; [lia|lra]. Qed.

(* ------------------------------------------------------------------ C47 *)
Lemma orth_s1 n i j : (i < n)%nat -> (j < n)%nat -> rsum n (fun k => s1 n k i * s1 n j k) = if (i =? j)%nat then (INR n + 1) / 2 else 0.
Proof.
  intros Hi Hj. assert (P : INR (S n) <> 0) by (apply not_0_INR; lia).
  rewrite (@rsum_ext n _ (fun k => sin (PI * INR (S i) * INR (S k) / INR (S n)) * sin (PI * INR (S j) * INR (S k) / INR (S n)))).
  2:{ intros k Hk. unfold s1. f_equal. f_equal. field. exact P. }
  replace n with (S n - 1)%nat at 1 by lia.
  rewrite (@full_ss (S n) (INR (S i)) (INR (S j)) (Z.of_nat (S i) - Z.of_nat (S j)) (Z.of_nat (S i) + Z.of_nat (S j))); [|lia|izr|izr].
  rewrite (@DC_other (S n) (Z.of_nat (S i) + Z.of_nat (S j))) by lia. rewrite parity_same.
  destruct (Nat.eqb_spec i j) as [->|Hne].
  - rewrite Z.sub_diag, Rmult_0_r, cos_0, DC_0, S_INR by lia. field.
  - rewrite DC_other by lia. field.
Qed.
Lemma orth_s4 n i j : (i < n)%nat -> (j < n)%nat -> rsum n (fun k => s4 n k i * s4 n j k) = if (i =? j)%nat then INR n / 2 else 0.
Proof.
  intros Hi Hj. assert (Hn : (0 < n)%nat) by lia. assert (P : INR n <> 0) by (apply not_0_INR; lia).
  rewrite (@rsum_ext n _ (fun k => sin (PI * (INR i + / 2) * (INR k + / 2) / INR n) * sin (PI * (INR j + / 2) * (INR k + / 2) / INR n))).
  2:{ intros k Hk. unfold s4. f_equal. f_equal. field. exact P. }
  rewrite (@half_ss n (INR i + / 2) (INR j + / 2) (Z.of_nat i - Z.of_nat j) (Z.of_nat i + Z.of_nat j + 1)); [|lia|izr|izr].
  rewrite (@SC_zero n (Z.of_nat i + Z.of_nat j + 1)) by lia.
  destruct (Nat.eqb_spec i j) as [->|Hne]; [rewrite Z.sub_diag, SC_0; field|rewrite SC_zero by lia; field].
Qed.
Theorem C47_dst1_involution : forall x : list R,
  exists y, dst1 x = Done y /\ length y = length x /\ dst1 y = Done (scale ((INR (length x) + 1) / 2) x).
Proof.
  intros x. exists (sum_spec x (s1 (length x))). split; [apply dst1_R|]. split; [apply sum_spec_length|].
  rewrite dst1_R, sum_spec_length. f_equal. apply spec_inverse. intros; apply orth_s1; assumption.
Qed.
Print Assumptions C47_dst1_involution.
Theorem C47_dst4_involution : forall x : list R,
  exists y, dst4 x = Done y /\ length y = length x /\ dst4 y = Done (scale (INR (length x) / 2) x).
Proof.
  intros x. exists (sum_spec x (s4 (length x))). split; [apply dst4_R|]. split; [apply sum_spec_length|].
  rewrite dst4_R, sum_spec_length. f_equal. apply spec_inverse. intros; apply orth_s4; assumption.
Qed.
Print Assumptions C47_dst4_involution.
Theorem C47_formula : forall x : list R,
  dst1 x = Done (tab (length x) (fun k => rsum (length x) (fun i =>
     nth i x 0 * sin (PI * INR (S i) * INR (S k) / INR (S (length x)))))) /\
  dst4 x = Done (tab (length x) (fun k => rsum (length x) (fun i =>
     nth i x 0 * sin (PI * (INR i + 1 / 2) * (INR k + 1 / 2) / INR (length x))))).
Proof. intros x. replace (1 / 2) with (/ 2) by lra. split; [apply dst1_R|apply dst4_R]. Qed.
Print Assumptions C47_formula.
Example C47_example : scale ((INR (length [1; 2]) + 1) / 2) [1; 2] = [3 / 2; 3].
Proof. unfold scale. cbn [map length INR]. f_equal; [lra|f_equal; lra]. Qed.

(* ------------------------------------------------------------------ C48 *)
Theorem C48_formula : forall x : list R,
  dst2 x = Done (tab (length x) (fun k => rsum (length x) (fun i =>
     nth i x 0 * sin (PI * INR (S k) * (INR i + 1 / 2) / INR (length x))))) /\
  dst3 x = Done (tab (length x) (fun k => rsum (length x) (fun i =>
     nth i x 0 * (if (i =? 0)%nat then 1 / 2 else sin (PI * INR i * (INR k + 1 / 2) / INR (length x)))))).
Proof. intros x. replace (1 / 2) with (/ 2) by lra. split; [apply dst2_R|apply dst3_R]. Qed.
Print Assumptions C48_formula.
(* on two points dst3 always returns two equal values *)
Lemma dst3_2 a b : exists v, dst3 [a; b] = Done [v; v].
Proof.
  exists (a / 2 + b * sin (PI / 4)). rewrite dst3_R. unfold sum_spec, tab, s3, xat. cbn [length map seq rsum nth Nat.eqb].
  f_equal. cbn [INR]. f_equal; [|f_equal].
  - replace (PI * 1 * (0 + / 2) / (1 + 1)) with (PI / 4) by field. field.
  - replace (PI * 1 * (1 + / 2) / (1 + 1)) with (PI - PI / 4) by field. rewrite sin_PI_x. field.
Qed.
Theorem C48_dst3_dst2_refuted : exists x : list R, (0 < length x)%nat /\
  forall y z, dst2 x = Done y -> dst3 y = Done z -> forall a, a <> 0 -> z <> scale a x.
Proof.
  exists [1; 0]. split; [cbn; lia|]. intros y z H2 H3 a Ha E.
  rewrite dst2_R in H2. injection H2 as <-. unfold sum_spec, tab in H3. cbn [length map seq] in H3.
  match type of H3 with dst3 [?u; ?w] = _ => destruct (dst3_2 u w) as [v Hv]; rewrite Hv in H3 end.
  injection H3 as <-. unfold scale in E. cbn [map] in E. injection E as E1 E2. lra.
Qed.
Print Assumptions C48_dst3_dst2_refuted.
(* what would invert dst2: the last sample halved, the others multiplied by the
   DST-II kernel. dst3 halves the first sample and shifts the frequencies by one. *)
Theorem C48_inverse_of_dst2 : forall (x y : list R), dst2 x = Done y -> forall j, (j < length x)%nat ->
  rsum (length x) (fun k => nth k y 0 * (if (k =? length x - 1)%nat then 1 / 2 else 1) *
                            sin (PI * INR (S k) * (INR j + 1 / 2) / INR (length x))) = INR (length x) / 2 * nth j x 0.
Proof.
  intros x y H j Hj. rewrite dst2_R in H. injection H as <-. replace (1 / 2) with (/ 2) by lra. set (n := length x) in *.
  assert (P : INR n <> 0) by (apply not_0_INR; lia).
  rewrite (@rsum_ext n _ (fun k => rsum n (fun i => xat x i * s2 n k i) * ((if (k =? n - 1)%nat then / 2 else 1) * s2 n k j))).
  2:{ intros k Hk. fold (xat (sum_spec x (s2 n)) k). rewrite xat_spec by exact Hk. fold n. unfold s2 at 3. ring. }
  apply (@kernel_inverse n (s2 n) (fun j k => (if (k =? n - 1)%nat then / 2 else 1) * s2 n k j) (xat x) (INR n / 2) j Hj).
  intros i Hi. replace (rsum n) with (rsum (S (n - 1))) by (f_equal; lia). cbn [rsum]. rewrite Nat.eqb_refl.
  rewrite (@rsum_ext (n - 1) _ (fun k => sin (PI * (INR i + / 2) * INR (S k) / INR n) * sin (PI * (INR j + / 2) * INR (S k) / INR n))).
  2:{ intros k Hk. destruct (Nat.eqb_spec k (n - 1)); [lia|]. unfold s2.
      replace (PI * INR (S k) * (INR i + / 2) / INR n) with (PI * (INR i + / 2) * INR (S k) / INR n) by (field; exact P).
      replace (PI * INR (S k) * (INR j + / 2) / INR n) with (PI * (INR j + / 2) * INR (S k) / INR n) by (field; exact P). ring. }
  rewrite (@full_ss n (INR i + / 2) (INR j + / 2) (Z.of_nat i - Z.of_nat j) (Z.of_nat i + Z.of_nat j + 1)); [|lia|izr|izr].
  unfold s2. replace (S (n - 1)) with n by lia.
  replace (PI * INR n * (INR i + / 2) / INR n) with (PI * (INR i + / 2)) by (field; exact P).
  replace (PI * INR n * (INR j + / 2) / INR n) with (PI * (INR j + / 2)) by (field; exact P).
  replace (sin (PI * (INR i + / 2)) * (/ 2 * sin (PI * (INR j + / 2)))) with (sin (PI * (INR i + / 2)) * sin (PI * (INR j + / 2)) / 2) by field.
  rewrite sin_sin.
  replace (PI * (INR i + / 2) - PI * (INR j + / 2)) with (PI * IZR (Z.of_nat i - Z.of_nat j)) by izr.
  replace (PI * (INR i + / 2) + PI * (INR j + / 2)) with (PI * IZR (Z.of_nat i + Z.of_nat j + 1)) by izr.
  rewrite (@DC_other n (Z.of_nat i + Z.of_nat j + 1)) by lia. rewrite parity_opp.
  destruct (Nat.eqb_spec i j) as [->|Hne].
  - rewrite Z.sub_diag, Rmult_0_r, cos_0, DC_0 by lia. field.
  - rewrite DC_other by lia. field.
Qed.
Print Assumptions C48_inverse_of_dst2.
Example C48_example : exists y, dst2 [1; 2; 3] = Done y /\ length y = 3%nat.
Proof. eexists. split; [apply dst2_R|apply sum_spec_length]. Qed.

(* ------------------------------------------------------------------ C50 *)
Lemma W_cs n a : W n a = mkcx (cos (2 * PI * INR a / INR n)) (- sin (2 * PI * INR a / INR n)).
Proof. unfold W, cis. rewrite cos_neg, sin_neg. reflexivity. Qed.
Lemma cos_sum n d : (0 < n)%nat -> rsum n (fun k => cos (2 * PI * INR (k * d) / INR n)) = if (d mod n =? 0)%nat then INR n else 0.
Proof.
  intros H. pose proof (@W_sum n d H) as K. apply (f_equal re) in K. rewrite re_csum in K.
  rewrite (@rsum_ext n _ (fun k => re (W n (k * d)))) by (intros; rewrite W_cs; reflexivity). rewrite K. destruct (_ =? _)%nat; reflexivity.
Qed.
Lemma sin_sum n d : (0 < n)%nat -> rsum n (fun k => sin (2 * PI * INR (k * d) / INR n)) = 0.
Proof.
  intros H. pose proof (@W_sum n d H) as K. apply (f_equal im) in K. rewrite im_csum in K.
  rewrite (@rsum_ext n _ (fun k => -1 * im (W n (k * d)))) by (intros; rewrite W_cs; cbn [im]; ring). rewrite rsum_scal, K. destruct (_ =? _)%nat; cbn; ring.
Qed.
Lemma orth_cas n i j : (i < n)%nat -> (j < n)%nat -> rsum n (fun k => cas n k i * cas n j k) = if (i =? j)%nat then INR n else 0.
Proof.
  intros Hi Hj. assert (Hn : (0 < n)%nat) by lia. assert (P : INR n <> 0) by (apply not_0_INR; lia).
  rewrite (@rsum_ext n _ (fun k => cos (2 * PI * INR (k * (i + (n - j))) / INR n) + sin (2 * PI * INR (k * (i + j)) / INR n))).
  - rewrite rsum_add, cos_sum, sin_sum by lia. rewrite Rplus_0_r.
    destruct (Nat.eqb_spec i j) as [->|Hne].
    + replace (j + (n - j))%nat with n by lia. rewrite Nat.mod_same by lia. reflexivity.
    + destruct (Nat.eqb_spec ((i + (n - j)) mod n) 0) as [E|E]; [exfalso|reflexivity].
      apply Nat.mod_divide in E; [|lia]. destruct E as [q E]. destruct q as [|[|q]]; [lia|lia|nia].
  - intros k _. unfold cas.
    replace (2 * PI * INR (k * (i + (n - j))) / INR n) with (2 * PI * INR (i * k) / INR n - 2 * PI * INR (k * j) / INR n + 2 * PI * IZR (Z.of_nat k)).
    2:{ rewrite <- INR_IZR_INZ, !mult_INR, plus_INR, minus_INR by lia. field. exact P. }
    rewrite cos_2PI_Z, cos_minus.
    replace (2 * PI * INR (k * (i + j)) / INR n) with (2 * PI * INR (i * k) / INR n + 2 * PI * INR (k * j) / INR n).
    2:{ rewrite !mult_INR, plus_INR. field. exact P. }
    rewrite sin_plus. ring.
Qed.
Theorem C50_dht_involution : forall x : list R,
  exists y, dht x = Done y /\ length y = length x /\ dht y = Done (scale (INR (length x)) x).
Proof.
  intros x. exists (sum_spec x (cas (length x))). split; [apply dht_R|]. split; [apply sum_spec_length|].
  rewrite dht_R, sum_spec_length. f_equal. apply spec_inverse. intros; apply orth_cas; assumption.
Qed.
Print Assumptions C50_dht_involution.
(* dft n x k = sum_j x[j] exp(-2 pi i j k / n) *)
Theorem C50_dht_from_dft : forall x : list R,
  dht x = Done (tab (length x) (fun k => let X := dft (length x) (fun j => RtoC (nth j x 0)) k in re X - im X)).
Proof.
  intros x. rewrite dht_R. f_equal. unfold sum_spec. apply tab_ext. intros k Hk. cbv zeta. unfold dft. rewrite re_csum, im_csum, <- rsum_sub.
  apply rsum_ext. intros j Hj. rewrite W_cs. unfold cas, xat. cbn [re im Cmul RtoC]. ring.
Qed.
Print Assumptions C50_dht_from_dft.
Example C50_example : dht [1; 2] = Done [3; -1].
Proof.
  rewrite dht_R. f_equal. unfold sum_spec, tab, cas, xat. cbn [length map seq rsum nth Nat.mul Nat.add INR].
  replace (2 * PI * 0 / (1 + 1)) with 0 by field. replace (2 * PI * 1 / (1 + 1)) with PI by field.
  rewrite cos_0, sin_0, cos_PI, sin_PI. f_equal; [lra|f_equal; lra].
Qed.

(* ------------------------------------------------------------------ C49 *)
Lemma stack_bad_spec n : (stack_bad n = false <-> exists m, n = (2 ^ S m)%nat) /\
  ((n <? 2)%nat || negb (Nat.even n) || negb (is_pow2 n) = stack_bad n).
Proof.
  unfold stack_bad. split.
  - split.
    + intros H. apply Bool.orb_false_iff in H. destruct H as [H H3]. apply Bool.orb_false_iff in H. destruct H as [H1 H2].
      apply Nat.eqb_neq in H1. apply Bool.negb_false_iff in H2, H3. unfold is_pow2 in H3. apply Nat.eqb_eq in H3.
      destruct (Nat.log2 n) as [|m] eqn:E; [cbn in H3; subst n; discriminate|exists m; symmetry; exact H3].
    + intros [m ->]. assert (Z0 : (2 ^ S m <> 0)%nat) by (apply Nat.pow_nonzero; lia). apply Nat.eqb_neq in Z0. rewrite Z0.
      cbn [orb]. rewrite Nat.even_pow by lia. cbn [Nat.even negb orb]. unfold is_pow2. rewrite Nat.log2_pow2, Nat.eqb_refl by lia. reflexivity.
  - destruct n as [|[|n]]; reflexivity.
Qed.
(* a stack version of a heap version *)
Definition stack_of {T} (stack : list T -> list T -> exec (list T * rres)) (heap : list T -> exec (list T)) : Prop :=
  forall x out, length out = length x ->
    ((exists m, length x = (2 ^ S m)%nat) -> exists y, heap x = Done y /\ stack x out = Done (y, ROk)) /\
    (~ (exists m, length x = (2 ^ S m)%nat) -> stack x out = Done (out, RErr NonPowerOfTwoNoStd)).
Lemma stack_of_run {T} {F : Float T} (f : nat -> list T -> nat -> exec T) stack heap :
  (forall x out, stack x out = stack_run (stack_bad (length x)) (f (length x) x) out) ->
  (forall x, (1 < length x)%nat -> heap x = fill (zvec (length x)) (f (length x) x)) ->
  (forall x k, (1 < length x)%nat -> (k < length x)%nat -> exists v, f (length x) x k = Done v) -> stack_of stack heap.
Proof.
  intros Hs Hh Hf x out Hl. destruct (stack_bad_spec (length x)) as [[H1 H2] _]. split; intros H.
  - rewrite Hs. rewrite (H2 H). cbn [stack_run]. destruct H as [m Hm].
    assert (L : (1 < length x)%nat) by (rewrite Hm; cbn [Nat.pow]; pose proof (Nat.pow_nonzero 2 m); lia).
    assert (G : exists g, forall k, (k < length x)%nat -> f (length x) x k = Done (g k)).
    { exists (fun k => match f (length x) x k with Done v => v | _ => fzero end). intros k Hk. destruct (Hf x k L Hk) as [v ->]. reflexivity. }
    destruct G as [g' G]. exists (tab (length x) g'). rewrite Hh by exact L. unfold stack_run.
    rewrite (@fill_tab T (zvec (length x)) _ g') by (rewrite zvec_length; exact G).
    rewrite (@fill_tab T out _ g') by (rewrite Hl; exact G). rewrite zvec_length, Hl. split; reflexivity.
  - rewrite Hs. destruct (stack_bad (length x)) eqn:E; [reflexivity|]. exfalso. apply H, H1. reflexivity.
Qed.
Lemma get_some {T} (x : list T) i : (i < length x)%nat -> exists v, get x i = Done v.
Proof. intros H. destruct x as [|a l]; [cbn in H; lia|]. exists (nth i (a :: l) a). apply get_nth. exact H. Qed.
Theorem C49_dct_stack : forall (T : Type) (F : Float T),
  stack_of dct1_inplace_stack (dct1 (T := T)) /\ stack_of dct2_inplace_stack (dct2 (T := T)).
Proof.
  intros T F. split.
  - apply (@stack_of_run T F (fun n => dct1_sum (fdiv fpi (fsub (fas n) fone)))).
    + intros x out. unfold dct1_inplace_stack. rewrite (proj2 (stack_bad_spec (length x))). reflexivity.
    + intros x H. destruct x as [|a [|b l]]; cbn in H; try lia. reflexivity.
    + intros x k H Hk. unfold dct1_sum. destruct (@get_some T x 0) as [u ->]; [lia|]. destruct (@get_some T x (length x - 1)) as [w ->]; [lia|].
      eexists. reflexivity.
  - apply (@stack_of_run T F (fun n => dct2_sum (fdiv fpi (fas n)))).
    + reflexivity. + reflexivity. + intros. eexists. reflexivity.
Qed.
Print Assumptions C49_dct_stack.
Theorem C49_dst_stack : forall (T : Type) (F : Float T),
  stack_of dst2_inplace_stack (dst2 (T := T)) /\ stack_of dst2_inplace_stack_fft (dst2 (T := T)) /\
  stack_of dst3_inplace_stack_fft (dst3 (T := T)) /\ stack_of dst4_inplace_stack (dst4 (T := T)).
Proof.
  intros T F. split; [|split; [|split]].
  - apply (@stack_of_run T F (fun n => dst2_sum (fdiv fpi (fas n)))).
    + reflexivity. + reflexivity. + intros. eexists. reflexivity.
  - apply (@stack_of_run T F (fun n => dst2_sum (fdiv fpi (fas n)))).
    + reflexivity. + reflexivity. + intros. eexists. reflexivity.
  - apply (@stack_of_run T F (fun n => dst3_sum (fdiv fpi (fas n)))).
    + reflexivity. + reflexivity. + intros x k H Hk. unfold dst3_sum. destruct (@get_some T x 0) as [u ->]; [lia|]. eexists. reflexivity.
  - apply (@stack_of_run T F (fun n => dst4_sum (fdiv fpi (fas n)))).
    + reflexivity. + reflexivity. + intros. eexists. reflexivity.
Qed.
Print Assumptions C49_dst_stack.
(* every vector of a batch is replaced by its transform *)
Definition batch_of {T} (b : list (list T) -> exec (list (list T))) (f : list T -> exec (list T)) : Prop :=
  forall xs, exists ys, b xs = Done ys /\ Forall2 (fun x y => f x = Done y /\ length y = length x) xs ys.
Lemma each_vec_of {T} (f : list T -> exec (list T)) : (forall x, exists y, f x = Done y /\ length y = length x) -> batch_of (each_vec f) f.
Proof.
  intros H xs. induction xs as [|x xs IH]; [exists []; split; [reflexivity|constructor]|].
  destruct IH as (ys & E & HF). destruct (H x) as (y & Ey & Hl). exists (y :: ys). split.
  - cbn [each_vec]. rewrite Ey. cbn [bind]. unfold copy_from. rewrite Hl, Nat.eqb_refl. cbn [bind]. rewrite E. reflexivity.
  - constructor; [split; assumption|exact HF].
Qed.
Lemma fill_total {T} {F : Float T} (x : list T) f : (forall k, (k < length x)%nat -> exists v, f k = Done v) ->
  exists y, fill (zvec (length x)) f = Done y /\ length y = length x.
Proof.
  intros H. exists (tab (length x) (fun k => match f k with Done v => v | _ => fzero end)).
  rewrite (@fill_tab T (zvec (length x)) f (fun k => match f k with Done v => v | _ => fzero end)).
  - rewrite zvec_length, tab_length. split; reflexivity.
  - rewrite zvec_length. intros k Hk. destruct (H k Hk) as [v ->]. reflexivity.
Qed.
Theorem C49_batch : forall (T : Type) (F : Float T),
  batch_of dct_batch_i (dct1 (T := T)) /\ batch_of dct_batch_ii (dct2 (T := T)) /\ batch_of dct_batch_iii (dct3 (T := T)) /\ batch_of dct_batch_iv (dct4 (T := T)) /\
  batch_of dst_batch_i (dst1 (T := T)) /\ batch_of dst_batch_ii (dst2 (T := T)) /\ batch_of dst_batch_iii (dst3 (T := T)) /\ batch_of dst_batch_iv (dst4 (T := T)) /\
  batch_of dht_batch (dht (T := T)).
Proof.
  assert (G0 : forall (T : Type) (x : list T) k, (k < length x)%nat -> exists u, get x 0 = Done u) by (intros; apply get_some; lia).
  intros T F. repeat match goal with |- _ /\ _ => split end; apply each_vec_of; intros x; try (apply fill_total; intros k Hk; eexists; reflexivity).
  - destruct x as [|a [|b l]]; [exists []; split; reflexivity|exists [fmul a two]; split; reflexivity|].
    change (dct1 (a :: b :: l)) with (fill (zvec (length (a :: b :: l))) (dct1_sum (fdiv fpi (fsub (fas (length (a :: b :: l))) fone)) (a :: b :: l))).
    apply fill_total. intros k Hk. unfold dct1_sum. destruct (@get_some T (a :: b :: l) 0) as [u ->]; [cbn; lia|].
    destruct (@get_some T (a :: b :: l) (length (a :: b :: l) - 1)) as [w ->]; [cbn; lia|]. eexists. reflexivity.
  - apply fill_total. intros k Hk. unfold dct3_sum. destruct (G0 T x k Hk) as [u ->]. eexists. reflexivity.
  - apply fill_total. intros k Hk. unfold dst3_sum. destruct (G0 T x k Hk) as [u ->]. eexists. reflexivity.
Qed.
Print Assumptions C49_batch.
(* the multi-channel names are the batch functions *)
Theorem C49_multi_channel : forall (T : Type) (F : Float T),
  batch_of dct_multi_i (dct1 (T := T)) /\ batch_of dct_multi_ii (dct2 (T := T)) /\ batch_of dct_multi_iii (dct3 (T := T)) /\ batch_of dct_multi_iv (dct4 (T := T)) /\
  batch_of dst_multi_i (dst1 (T := T)) /\ batch_of dst_multi_ii (dst2 (T := T)) /\ batch_of dst_multi_iii (dst3 (T := T)) /\ batch_of dst_multi_iv (dst4 (T := T)) /\
  batch_of dht_multi (dht (T := T)).
Proof. exact C49_batch. Qed.
Print Assumptions C49_multi_channel.
Example C49_example : (exists m, length [1; 2; 3; 4] = (2 ^ S m)%nat) /\ ~ (exists m, length [1; 2; 3] = (2 ^ S m)%nat) /\ ~ (exists m, length [1] = (2 ^ S m)%nat).
Proof.
  split; [exists 1%nat; reflexivity|]. split; intros [m Hm]; cbn [length Nat.pow] in Hm; lia.
Qed.

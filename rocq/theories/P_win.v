(* Properties C56, C57, C64 and the window part of C49. *)
From Coq Require Import Reals Lra ZArith Lia.
From Verif Require Import M_win L_trig P_trig P_det P_cep.
Set Implicit Arguments.
Open Scope R_scope.

(* i-th value of a window *)
Definition wat (w : list R) (i : nat) : R := nth i w 0.
Definition in01 (w : list R) : Prop := forall i, (i < length w)%nat -> 0 <= wat w i <= 1.
(* w[n-1-i] = w[i] *)
Definition mirror (w : list R) : Prop := forall i, (i < length w)%nat -> wat w (length w - 1 - i) = wat w i.
(* w[n-i] = w[i] *)
Definition periodic_mirror (w : list R) : Prop := forall i, (0 < i < length w)%nat -> wat w (length w - i) = wat w i.
Lemma wat_tab n f i : (i < n)%nat -> wat (tab n f) i = f i.
Proof. intros H. apply nth_tab. exact H. Qed.
Lemma fill_R n f g : (forall k, (k < n)%nat -> f k = Done (g k)) -> fill (zvec n) f = Done (tab n g).
Proof. intros H. assert (L : length (@zvec R RF n) = n) by apply repeat_length. rewrite (@fill_tab R (zvec n) f g); rewrite L; [reflexivity|exact H]. Qed.

(* angle of sample i *)
Lemma cos_mirror n i : (0 < n)%nat -> (i <= n)%nat -> cos (2 * PI * INR (n - i) / INR n) = cos (2 * PI * INR i / INR n).
Proof.
  intros Hn Hi. rewrite minus_INR by exact Hi. assert (INR n <> 0) by (apply not_0_INR; lia).
  replace (2 * PI * (INR n - INR i) / INR n) with (- (2 * PI * INR i / INR n) + 2 * PI) by (field; assumption).
  rewrite <- (cos_neg (2 * PI * INR i / INR n)). apply cos_plus_2PI || (rewrite cos_plus, cos_2PI, sin_2PI; ring).
Qed.
Lemma hann_R n i : hann_at n i = / 2 - / 2 * cos (2 * PI * INR i / INR n).
Proof. unfold hann_at. fr. reflexivity. Qed.
Lemma hamming_R n i : hamming_at n i = 54 / 100 - 46 / 100 * cos (2 * PI * INR i / INR n).
Proof. unfold hamming_at. fr. unfold Q2R; cbn [Qnum Qden]. reflexivity. Qed.
Lemma blackman_R n i : (0 < n)%nat -> let c := cos (2 * PI * INR i / INR n) in blackman_at n i = (1 - c) * (34 / 100 - 16 / 100 * c).
Proof.
  intros Hn c. unfold blackman_at. fr. unfold Q2R; cbn [Qnum Qden].
  assert (INR n <> 0) by (apply not_0_INR; lia).
  replace (2 * PI * (INR i / INR n)) with (2 * PI * INR i / INR n) by (field; assumption).
  replace (4 * / 1 * PI * (INR i / INR n)) with (2 * (2 * PI * INR i / INR n)) by (field; assumption).
  fold c. rewrite cos_2a_cos. fold c. field.
Qed.
Theorem C56_range : forall n, in01 (hann n) /\ in01 (hamming n) /\ in01 (blackman n) /\
  (forall i, (i < n)%nat -> 8 / 100 <= wat (hamming n) i).
Proof.
  intros n. unfold in01, hann, hamming, blackman. rewrite !tab_length.
  repeat match goal with |- _ /\ _ => split end; intros i Hi; rewrite wat_tab by exact Hi; rewrite ?hann_R, ?hamming_R, ?blackman_R by lia;
    pose proof (COS_bound (2 * PI * INR i / INR n)); cbv zeta; nra.
Qed.
Print Assumptions C56_range.
Theorem C56_periodic_symmetry : forall n, periodic_mirror (hann n) /\ periodic_mirror (hamming n) /\ periodic_mirror (blackman n).
Proof.
  intros n. unfold periodic_mirror, hann, hamming, blackman. rewrite !tab_length.
  repeat match goal with |- _ /\ _ => split end; intros i Hi; rewrite !wat_tab by lia; rewrite ?hann_R, ?hamming_R, ?blackman_R by lia;
    cbv zeta; rewrite cos_mirror by lia; reflexivity.
Qed.
Print Assumptions C56_periodic_symmetry.
(* endpoints and the explicit sums *)
Theorem C56_formula : forall n i, (i < n)%nat ->
  let x := 2 * PI * INR i / INR n in
  wat (hann n) i = (1 - cos x) / 2 /\
  wat (hamming n) i = 54 / 100 - 46 / 100 * cos x /\
  wat (blackman n) i = 42 / 100 - 1 / 2 * cos x + 8 / 100 * cos (2 * x).
Proof.
  intros n i Hi x. unfold hann, hamming, blackman. rewrite !wat_tab by exact Hi. rewrite hann_R, hamming_R, blackman_R by lia. cbv zeta. fold x.
  split; [field|]. split; [reflexivity|]. rewrite cos_2a_cos. field.
Qed.
Print Assumptions C56_formula.
(* 50% overlap-add *)
Theorem C56_hann_overlap : forall h i, (i < h)%nat -> wat (hann (2 * h)) i + wat (hann (2 * h)) (h + i) = 1.
Proof.
  intros h i Hi. unfold hann. rewrite !wat_tab by lia. rewrite !hann_R. assert (INR h <> 0) by (apply not_0_INR; lia).
  rewrite plus_INR, mult_INR. change (INR 2) with 2.
  replace (2 * PI * (INR h + INR i) / (2 * INR h)) with (2 * PI * INR i / (2 * INR h) + PI) by (field; assumption).
  rewrite neg_cos. lra.
Qed.
Print Assumptions C56_hann_overlap.
(* any hop dividing the length: the overlapped hann windows add up to a constant, here with r
   shifts by h samples of a window of length r*h, r >= 2 *)
Theorem C56_hann_cola : forall r h i, (2 <= r)%nat -> (i < h)%nat ->
  rsum r (fun q => wat (hann (r * h)) (q * h + i)) = INR r / 2.
Proof.
  intros r h i Hr Hi. assert (Hr0 : INR r <> 0) by (apply not_0_INR; lia). assert (Hh : INR h <> 0) by (apply not_0_INR; lia).
  rewrite (@rsum_ext r _ (fun q => / 2 - / 2 * re (Cconj (W r (1 * q)) *c cis (2 * PI * INR i / INR (r * h))))).
  - rewrite rsum_sub, rsum_const, rsum_scal, <- re_csum.
    rewrite csum_scal_r. rewrite (@csum_ext r _ (fun q => Cconj (C1 *c W r (1 * q)))) by (intros; creal; ring).
    rewrite <- csum_conj.
    assert (Z : csum r (fun q => C1 *c W r (1 * q)) = C0).
    { rewrite (@csum_ext r _ (fun q => W r (q * 1))) by (intros; rewrite Nat.mul_1_l, Nat.mul_1_r; ring).
      rewrite W_sum by lia. rewrite Nat.mod_small by lia. reflexivity. }
    rewrite Z. replace (re (Cconj C0 *c cis (2 * PI * INR i / INR (r * h)))) with 0 by (cbn; ring). lra.
  - intros q Hq. unfold hann. rewrite wat_tab by nia. rewrite hann_R. do 2 f_equal. rewrite Nat.mul_1_l.
    assert (E : 2 * PI * INR (q * h + i) / INR (r * h) = 2 * PI * INR q / INR r + 2 * PI * INR i / INR (r * h)).
    { rewrite plus_INR, !mult_INR. field. split; assumption. }
    rewrite E, cos_plus. unfold W, cis. cbn [re im Cmul Cconj]. rewrite cos_neg, sin_neg. ring.
Qed.
Print Assumptions C56_hann_cola.
Example C56_example1 : (2 <= 4)%nat /\ (1 < 2)%nat /\ wat (hann 4) 2 = 1.
Proof.
  split; [lia|]. split; [lia|]. destruct (@C56_formula 4 2 ltac:(lia)) as [E _]. rewrite E.
  replace (2 * PI * INR 2 / INR 4) with PI by (cbn [INR]; field). rewrite cos_PI. lra.
Qed.

(* ---------------------------------------------------------------- symmetric windows *)
Lemma bartlett_R n : bartlett n = Done (tab n (fun i => 1 - Rabs ((INR i - (INR n - 1) / 2) / ((INR n - 1) / 2)))).
Proof. unfold bartlett. apply fill_R. intros k Hk. fr. reflexivity. Qed.
Lemma INR_ge2 n : (2 <= n)%nat -> 2 <= INR n.
Proof. intros H. change 2 with (INR 2). apply le_INR. exact H. Qed.
Lemma INR_idx n i : (i < n)%nat -> 0 <= INR i <= INR n - 1.
Proof. intros H. split; [apply pos_INR|]. assert (H1 : (i + 1 <= n)%nat) by lia. apply le_INR in H1. rewrite plus_INR in H1. cbn [INR] in H1. lra. Qed.
Lemma INR_mir n i : (i < n)%nat -> INR (n - 1 - i) = INR n - 1 - INR i.
Proof. intros H. rewrite !minus_INR by lia. cbn [INR]. ring. Qed.
Theorem C56_bartlett : forall n, (2 <= n)%nat ->
  exists w, bartlett n = Done w /\ length w = n /\ mirror w /\ in01 w /\ wat w 0 = 0 /\
    (forall i, (2 * i <= n - 1)%nat -> wat w i = 2 * INR i / (INR n - 1)).
Proof.
  intros n Hn. pose proof (INR_ge2 Hn) as Hn2. eexists. split; [apply bartlett_R|]. rewrite tab_length.
  assert (HD : forall i, (2 * i <= n - 1)%nat -> 1 - Rabs ((INR i - (INR n - 1) / 2) / ((INR n - 1) / 2)) = 2 * INR i / (INR n - 1)).
  { intros i Hi. apply le_INR in Hi. rewrite mult_INR, minus_INR in Hi by lia. cbn [INR] in Hi.
    rewrite Rabs_left1; [field; lra|]. unfold Rdiv at 1. apply Rmult_le_0_r; [lra|left; apply Rinv_0_lt_compat; lra] || (apply Ropp_le_cancel; rewrite Ropp_0, Ropp_mult_distr_l; apply Rmult_le_pos; [lra|left; apply Rinv_0_lt_compat; lra]). }
  split; [reflexivity|]. split; [|split; [|split]].
  - intros i Hi. rewrite tab_length in *. rewrite !wat_tab by lia. rewrite INR_mir by exact Hi.
    rewrite <- (Rabs_Ropp ((INR i - (INR n - 1) / 2) / ((INR n - 1) / 2))). do 2 f_equal. field. lra.
  - intros i Hi. rewrite tab_length in Hi. rewrite wat_tab by exact Hi. pose proof (INR_idx Hi) as Hb.
    pose proof (Rabs_pos ((INR i - (INR n - 1) / 2) / ((INR n - 1) / 2))) as Hp. split; [|lra].
    assert (Rabs ((INR i - (INR n - 1) / 2) / ((INR n - 1) / 2)) <= 1); [|lra].
    unfold Rdiv at 1. rewrite Rabs_mult. rewrite (Rabs_right (/ _)) by (apply Rle_ge; left; apply Rinv_0_lt_compat; lra).
    apply Rmult_le_reg_r with ((INR n - 1) / 2); [lra|]. rewrite Rmult_assoc, Rinv_l, Rmult_1_r, Rmult_1_l by lra.
    apply Rabs_le. lra.
  - rewrite wat_tab by lia. rewrite HD by lia. cbn [INR]. field. lra.
  - intros i Hi. rewrite wat_tab by lia. apply HD. exact Hi.
Qed.
Print Assumptions C56_bartlett.
Lemma cos_mir1 n i m : (2 <= n)%nat -> (i < n)%nat ->
  cos (INR m * (2 * PI * INR (n - 1 - i) / (INR n - 1))) = cos (INR m * (2 * PI * INR i / (INR n - 1))).
Proof.
  intros Hn Hi. pose proof (INR_ge2 Hn). rewrite INR_mir by exact Hi.
  replace (INR m * (2 * PI * (INR n - 1 - INR i) / (INR n - 1))) with (- (INR m * (2 * PI * INR i / (INR n - 1))) + 2 * INR m * PI) by (field; lra).
  rewrite cos_period. apply cos_neg.
Qed.
Lemma nuttall_R n : nuttall n = Done (tab n (fun i => let x := 2 * PI * INR i / (INR n - 1) in
   355768 / 1000000 - 487396 / 1000000 * cos x + 144232 / 1000000 * cos (2 * x) - 12604 / 1000000 * cos (3 * x))).
Proof. unfold nuttall. apply fill_R. intros k Hk. fr. unfold Q2R; cbn [Qnum Qden]. replace (3 * / 1) with 3 by lra. reflexivity. Qed.
Lemma cos_3a x : cos (3 * x) = 4 * (cos x * cos x * cos x) - 3 * cos x.
Proof. replace (3 * x) with (2 * x + x) by ring. rewrite cos_plus, cos_2a_cos, sin_2a. pose proof (sin2_cos2 x) as H. unfold Rsqr in H.
  replace (2 * sin x * cos x * sin x) with (2 * cos x * (sin x * sin x)) by ring. replace (sin x * sin x) with (1 - cos x * cos x) by lra. ring. Qed.
Theorem C56_nuttall : forall n, (2 <= n)%nat ->
  exists w, nuttall n = Done w /\ length w = n /\ mirror w /\ in01 w /\ wat w 0 = 0 /\
    (forall i, (i < n)%nat -> let x := 2 * PI * INR i / (INR n - 1) in
       wat w i = 0.355768 - 0.487396 * cos x + 0.144232 * cos (2 * x) - 0.012604 * cos (3 * x)).
Proof.
  intros n Hn. pose proof (INR_ge2 Hn) as Hn2. eexists. split; [apply nuttall_R|]. rewrite tab_length.
  split; [reflexivity|]. split; [|split; [|split]].
  - intros i Hi. rewrite tab_length in *. rewrite !wat_tab by lia. cbv zeta.
    pose proof (@cos_mir1 n i 1 Hn Hi) as E1. pose proof (@cos_mir1 n i 2 Hn Hi) as E2. pose proof (@cos_mir1 n i 3 Hn Hi) as E3.
    change (INR 1) with 1 in E1. change (INR 2) with 2 in E2. replace (INR 3) with 3 in E3 by (cbn; lra). rewrite !Rmult_1_l in E1.
    rewrite E1, E2, E3. reflexivity.
  - intros i Hi. rewrite tab_length in Hi. rewrite wat_tab by exact Hi. cbv zeta. rewrite cos_3a, cos_2a_cos.
    pose proof (COS_bound (2 * PI * INR i / (INR n - 1))) as [B1 B2]. set (t := cos _) in *.
    replace (355768 / 1000000 - 487396 / 1000000 * t + 144232 / 1000000 * (2 * t * t - 1) - 12604 / 1000000 * (4 * (t * t * t) - 3 * t))
      with ((1 - t) * (211536 / 1000000 - 238048 / 1000000 * t + 50416 / 1000000 * (t * t))) by field.
    set (s := 1 - t). assert (0 <= s <= 2) by (unfold s; lra). replace t with (1 - s) by (unfold s; ring).
    replace (s * (211536 / 1000000 - 238048 / 1000000 * (1 - s) + 50416 / 1000000 * ((1 - s) * (1 - s))))
      with (s * (23904 / 1000000 + 137216 / 1000000 * s + 50416 / 1000000 * (s * s))) by field.
    split; [apply Rmult_le_pos; nra|]. assert (s * s <= 4) by nra. assert (s * (s * s) <= 8) by nra. nra.
  - rewrite wat_tab by lia. cbv zeta. replace (2 * PI * INR 0 / (INR n - 1)) with 0 by (cbn [INR]; field; lra).
    rewrite !Rmult_0_r, cos_0. lra.
  - intros i Hi x. rewrite wat_tab by exact Hi. fold x. cbv zeta. fold x. lra.
Qed.
Print Assumptions C56_nuttall.
Definition clamp01 (a : R) : R := Rmax 0 (Rmin a 1).
Lemma fclamp_R a : fclamp a 0 1 = clamp01 a.
Proof.
  unfold fclamp, clamp01. cbn [fltb RX]. destruct (Rlt_dec a 0).
  - rewrite Rmin_left by lra. rewrite Rmax_left by lra. reflexivity.
  - destruct (Rlt_dec 1 a); [rewrite Rmin_right by lra|rewrite Rmin_left by lra]; rewrite Rmax_right by lra; reflexivity.
Qed.
(* tapers of e samples at both ends, e = floor(a(n-1)/2); one in between *)
Theorem C56_tukey : forall n alpha, (1 <= n)%nat ->
  let a := clamp01 alpha in
  exists w e, tukey n alpha = Done w /\ length w = n /\ mirror w /\ in01 w /\
    INR e <= a * (INR n - 1) / 2 < INR e + 1 /\
    (forall i, (e <= i < n - e)%nat -> wat w i = 1) /\
    (forall i, (i < e)%nat -> wat w i = (1 - cos (2 * PI * INR i / (a * (INR n - 1)))) / 2).
Proof.
  intros n alpha Hn a. assert (Ha : 0 <= a <= 1) by (unfold a, clamp01; split; [apply Rmax_l|apply Rmax_lub; [lra|apply Rmin_r]]).
  assert (Hn1 : 1 <= INR n) by (change 1 with (INR 1); apply le_INR; exact Hn).
  set (e := Rfloor_nat (a * (INR n - 1) / 2)).
  assert (He : INR e <= a * (INR n - 1) / 2 < INR e + 1).
  { destruct (base_Int_part (a * (INR n - 1) / 2)) as [B1 B2]. unfold e, Rfloor_nat. rewrite INR_IZR_INZ, Z2Nat.id; [lra|].
    apply Z.lt_succ_r, lt_IZR. unfold Z.succ. rewrite plus_IZR. assert (0 <= a * (INR n - 1) / 2) by nra. lra. }
  assert (H2 : (2 * e <= n - 1)%nat).
  { apply INR_le. rewrite mult_INR, minus_INR by lia. cbn [INR]. assert (a * (INR n - 1) <= INR n - 1) by nra. lra. }
  set (g := fun i => (1 - cos (2 * PI * INR i / (a * (INR n - 1)))) / 2).
  exists (tab n (fun i => if (i <? e)%nat then g i else if (i <? n - e)%nat then 1 else g (n - 1 - i)%nat)), e.
  rewrite tab_length. split; [|split; [reflexivity|split; [|split; [|split; [exact He|split]]]]].
  - unfold tukey. fr. rewrite fclamp_R. fold a. cbn [ffloor RX]. fold e. apply fill_R. intros k Hk.
    destruct (Nat.ltb_spec k e) as [H|H].
    + f_equal. unfold g. assert (a * (INR n - 1) <> 0).
      { apply lt_INR in H. pose proof (pos_INR k). lra. }
      replace (PI * (2 * INR k / (a * (INR n - 1)) - 1)) with (- (PI - 2 * PI * INR k / (a * (INR n - 1)))) by (field; split; nra).
      rewrite cos_neg. rewrite Rtrigo_facts.cos_pi_minus. field.
    + rewrite usub_ok by lia. cbn [bind]. destruct (Nat.ltb_spec k (n - e)) as [H'|H']; [reflexivity|]. f_equal. unfold g.
      assert (He0 : (0 < e)%nat) by lia. apply lt_INR in He0. cbn [INR] in He0.
      assert (a <> 0) by (intros E; rewrite E in He; lra). assert (INR n - 1 <> 0) by (intros E; rewrite E in He; lra).
      rewrite INR_mir by exact Hk.
      replace (PI * (2 * INR k / (a * (INR n - 1)) - 2 / a + 1)) with (PI - 2 * PI * (INR n - 1 - INR k) / (a * (INR n - 1))) by (field; split; assumption).
      rewrite Rtrigo_facts.cos_pi_minus. field.
  - intros i Hi. rewrite tab_length in *. rewrite !wat_tab by lia.
    destruct (Nat.ltb_spec (n - 1 - i) e), (Nat.ltb_spec i e), (Nat.ltb_spec (n - 1 - i) (n - e)), (Nat.ltb_spec i (n - e)); try lia; try reflexivity.
    replace (n - 1 - (n - 1 - i))%nat with i by lia. reflexivity.
  - intros i Hi. rewrite tab_length in Hi. rewrite wat_tab by exact Hi. unfold g.
    pose proof (COS_bound (2 * PI * INR i / (a * (INR n - 1)))). pose proof (COS_bound (2 * PI * INR (n - 1 - i) / (a * (INR n - 1)))).
    destruct (_ <? _)%nat; [lra|]. destruct (_ <? _)%nat; lra.
  - intros i Hi. rewrite wat_tab by lia. destruct (Nat.ltb_spec i e); [lia|]. destruct (Nat.ltb_spec i (n - e)); [reflexivity|lia].
  - intros i Hi. rewrite wat_tab by lia. destruct (Nat.ltb_spec i e); [reflexivity|lia].
Qed.
Print Assumptions C56_tukey.

(* the series of bessel0: 20 terms of I0(x) = sum ((x^2/4)^k / (k!)^2) *)
Definition I0_20 (x : R) : R := rsum 20 (fun k => (x * x / 4) ^ k / (INR (fact k)) ^ 2).
Lemma bessel_fold y m : 
  fold_left (fun '(sum, t, k) n => let k := k * INR n in (sum + t / (k * k), t * y, k)) (seq 1 m) (1, y, 1) =
  (rsum (m + 1) (fun k => y ^ k / (INR (fact k)) ^ 2), y ^ (m + 1), INR (fact m)).
Proof.
  induction m as [|m IH]; [cbn; do 2 f_equal; field|].
  rewrite seq_S, fold_left_app, IH. cbn [fold_left]. replace (1 + m)%nat with (S m) by lia. replace (S m + 1)%nat with (S (m + 1)) by lia.
  assert (E : INR (fact m) * INR (S m) = INR (fact (S m))) by (rewrite fact_simpl, mult_INR; ring).
  rewrite E. cbn [rsum]. replace (m + 1)%nat with (S m) by lia.
  assert (E2 : INR (fact (S m)) * INR (fact (S m)) = INR (fact (S m)) ^ 2) by ring.
  assert (E3 : y ^ S m * y = y ^ S (S m)) by (cbn [pow]; ring).
  rewrite E2, E3. reflexivity.
Qed.
Lemma bessel0_R x : bessel0 x = I0_20 x.
Proof.
  assert (E4 : @flit R RF 4 = 4) by (cbn; unfold Q2R; cbn [Qnum Qden]; lra).
  unfold bessel0. rewrite E4. change (@fdiv R RF (@fmul R RF x x) 4) with (x * x / 4). cbv zeta.
  pose proof (bessel_fold (x * x / 4) 19) as H. cbv zeta in H.
  transitivity (let '(sum, _, _) := fold_left (fun '(sum, t, k) n => (sum + t / (k * INR n * (k * INR n)), t * (x * x / 4), k * INR n)) (seq 1 19) (1, x * x / 4, 1) in sum);
    [reflexivity|]. rewrite H. reflexivity.
Qed.
Lemma I0_ge1 x : 1 <= I0_20 x.
Proof.
  unfold I0_20. rewrite rsum_S_l. assert (E : (x * x / 4) ^ 0 / INR (fact 0) ^ 2 = 1) by (cbn; field). rewrite E.
  assert (0 <= rsum 19 (fun i => (x * x / 4) ^ S i / INR (fact (S i)) ^ 2)); [|lra].
  rewrite <- (@rsum_0 19 (fun _ => 0)) by reflexivity. apply rsum_le. intros i _.
  apply Rmult_le_pos; [apply pow_le; nra|]. left. apply Rinv_0_lt_compat, pow_lt, INR_fact_lt_0.
Qed.
Lemma I0_mono x y : x * x <= y * y -> I0_20 x <= I0_20 y.
Proof.
  intros H. unfold I0_20. apply rsum_le. intros i _. apply Rmult_le_compat_r; [left; apply Rinv_0_lt_compat, pow_lt, INR_fact_lt_0|].
  apply pow_incr. nra.
Qed.
Theorem C56_kaiser : forall n beta, (2 <= n)%nat ->
  exists w, kaiser n beta = Done w /\ length w = n /\ mirror w /\
    (forall i, (i < n)%nat -> 0 < wat w i <= 1) /\
    (forall h, n = (2 * h + 1)%nat -> wat w h = 1) /\
    (forall i, (i < n)%nat -> let r := 2 * INR i / (INR n - 1) - 1 in wat w i = I0_20 (beta * sqrt (1 - r * r)) / I0_20 beta).
Proof.
  intros n beta Hn. pose proof (INR_ge2 Hn) as Hn2.
  exists (tab n (fun i => let r := 2 * INR i / (INR n - 1) - 1 in I0_20 (beta * sqrt (1 - r * r)) / I0_20 beta)).
  pose proof (I0_ge1 beta) as Hb.
  split; [|rewrite tab_length; split; [reflexivity|split; [|split; [|split]]]].
  - unfold kaiser. rewrite usub_ok by lia. cbn [bind]. f_equal. apply tab_ext. intros i Hi. fr. rewrite !bessel0_R. cbn [fsqrt RX].
    rewrite minus_INR by lia. cbn [INR].
    replace ((INR i - (INR n - 1) / 2) / ((INR n - 1) / 2)) with (2 * INR i / (INR n - 1) - 1) by (field; lra). reflexivity.
  - intros i Hi. rewrite tab_length in *. rewrite !wat_tab by lia. cbv zeta. rewrite INR_mir by exact Hi.
    replace (2 * (INR n - 1 - INR i) / (INR n - 1) - 1) with (- (2 * INR i / (INR n - 1) - 1)) by (field; lra).
    rewrite Rmult_opp_opp. reflexivity.
  - intros i Hi. rewrite wat_tab by exact Hi. cbv zeta. set (r := 2 * INR i / (INR n - 1) - 1).
    pose proof (I0_ge1 (beta * sqrt (1 - r * r))) as H1. split; [apply Rdiv_lt_0_compat; lra|].
    apply Rmult_le_reg_r with (I0_20 beta); [lra|]. unfold Rdiv. rewrite Rmult_assoc, Rinv_l, Rmult_1_r, Rmult_1_l by lra.
    apply I0_mono. replace (beta * sqrt (1 - r * r) * (beta * sqrt (1 - r * r))) with (beta * beta * (sqrt (1 - r * r) * sqrt (1 - r * r))) by ring.
    assert (0 <= sqrt (1 - r * r) * sqrt (1 - r * r) <= 1); [|nra].
    destruct (Rle_lt_dec 0 (1 - r * r)) as [P|P]; [rewrite sqrt_sqrt by exact P; nra|rewrite sqrt_neg_0 by lra; lra].
  - intros h Hh. rewrite wat_tab by lia. cbv zeta.
    replace (2 * INR h / (INR n - 1) - 1) with 0 by (rewrite Hh, plus_INR, mult_INR in Hn2 |- *; cbn [INR] in Hn2 |- *; field; lra).
    replace (1 - 0 * 0) with 1 by ring. rewrite sqrt_1, Rmult_1_r. field. lra.
  - intros i Hi r. rewrite wat_tab by exact Hi. reflexivity.
Qed.
Print Assumptions C56_kaiser.
Example C56_example2 : (2 <= 5)%nat /\ clamp01 3 = 1 /\ INR 2 <= clamp01 3 * (INR 5 - 1) / 2 < INR 2 + 1.
Proof.
  assert (E : clamp01 3 = 1) by (unfold clamp01; rewrite Rmin_right, Rmax_right by lra; reflexivity).
  split; [lia|]. split; [exact E|]. rewrite E. cbn [INR]. lra.
Qed.

(* ------------------------------------------------------------------ C57 *)
Lemma bohman_R n : bohman n = Done (tab n (fun i => let x := INR i / (INR n - 1) - / 2 in
  (1 - Rabs x) * cos (PI * x) + 1 / PI * sin (PI * x))).
Proof. unfold bohman. apply fill_R. intros k Hk. fr. reflexivity. Qed.
(* at every length the first sample is -1/PI and the last is 1/PI: neither symmetric nor non-negative *)
Theorem C57_bohman_refuted : forall n, (2 <= n)%nat ->
  exists w, bohman n = Done w /\ length w = n /\ wat w 0 = - (1 / PI) /\ wat w (n - 1) = 1 / PI /\
    wat w 0 < 0 /\ ~ mirror w.
Proof.
  intros n Hn. pose proof (INR_ge2 Hn) as Hn2. pose proof PI_RGT_0 as HPi.
  eexists. split; [apply bohman_R|]. rewrite tab_length. split; [reflexivity|].
  match goal with |- wat ?w _ = _ /\ _ => set (W0 := w) end.
  assert (A : wat W0 0 = - (1 / PI)).
  { unfold W0. rewrite wat_tab by lia. cbv zeta. replace (INR 0 / (INR n - 1) - / 2) with (- / 2) by (cbn [INR]; field; lra).
    replace (PI * - / 2) with (- (PI / 2)) by field. rewrite cos_neg, sin_neg, cos_PI2, sin_PI2. ring. }
  assert (B : wat W0 (n - 1) = 1 / PI).
  { unfold W0. rewrite wat_tab by lia. cbv zeta. rewrite minus_INR by lia. cbn [INR].
    replace ((INR n - 1) / (INR n - 1) - / 2) with (/ 2) by (field; lra).
    replace (PI * / 2) with (PI / 2) by field. rewrite cos_PI2, sin_PI2. ring. }
  assert (P : 0 < 1 / PI) by (apply Rdiv_lt_0_compat; lra).
  split; [exact A|]. split; [exact B|]. split; [lra|]. intros M. assert (L : length W0 = n) by apply tab_length. specialize (M 0%nat). rewrite L in M.
  specialize (M ltac:(lia)). rewrite Nat.sub_0_r, A, B in M. lra.
Qed.
Print Assumptions C57_bohman_refuted.
(* what does hold: the symmetric part, (1-|x|) cos(PI x), is symmetric and non-negative; the two
   mirrored samples differ by the sine term *)
Theorem C57_bohman_asymmetry : forall n i, (2 <= n)%nat -> (i < n)%nat ->
  exists w, bohman n = Done w /\ let x := INR i / (INR n - 1) - / 2 in
    0 <= (1 - Rabs x) * cos (PI * x) /\
    wat w i + wat w (n - 1 - i) = 2 * ((1 - Rabs x) * cos (PI * x)) /\
    wat w i - wat w (n - 1 - i) = 2 / PI * sin (PI * x).
Proof.
  intros n i Hn Hi. pose proof (INR_ge2 Hn) as Hn2. pose proof PI_RGT_0 as HPi. pose proof (INR_idx Hi) as Hb.
  eexists. split; [apply bohman_R|]. intros x. rewrite !wat_tab by lia. cbv zeta. fold x.
  rewrite INR_mir by exact Hi. replace ((INR n - 1 - INR i) / (INR n - 1) - / 2) with (- x) by (unfold x; field; lra).
  rewrite Rabs_Ropp, Ropp_mult_distr_r_reverse, cos_neg, sin_neg.
  assert (Hx : - / 2 <= x <= / 2).
  { unfold x. assert (0 <= INR i / (INR n - 1) <= 1); [|lra]. split.
    - apply Rmult_le_pos; [lra|left; apply Rinv_0_lt_compat; lra].
    - apply Rmult_le_reg_r with (INR n - 1); [lra|]. unfold Rdiv. rewrite Rmult_assoc, Rinv_l by lra. lra. }
  split; [|split; field; lra]. apply Rmult_le_pos; [assert (Rabs x <= / 2) by (apply Rabs_le; lra); lra|]. apply cos_ge_0; nra.
Qed.
Print Assumptions C57_bohman_asymmetry.

(* ------------------------------------------------------- C49, windows; C64 *)
Theorem C49_window_stack : forall (T : Type) (F : Float T) (out : list T),
  hann_inplace_stack out = Done (hann (length out)) /\
  hamming_inplace_stack out = Done (hamming (length out)) /\
  blackman_inplace_stack out = Done (blackman (length out)).
Proof. intros T F out. repeat split; apply fill_tab; reflexivity. Qed.
Print Assumptions C49_window_stack.
(* C64: constructors return len values; kaiser alone panics, at length 0 *)
Theorem C64_kaiser_empty_refuted : forall (T : Type) (F : Float T) (X : FloatX T) (beta : T), kaiser 0 beta = Panic.
Proof. reflexivity. Qed.
Print Assumptions C64_kaiser_empty_refuted.
Lemma zfill_total {T} {F : Float T} n f : (forall k, (k < n)%nat -> exists v, f k = Done v) -> exists y, fill (zvec n) f = Done y /\ length y = n.
Proof. intros H. destruct (@fill_total T F (zvec n) f) as (y & E & L); unfold zvec in *; rewrite repeat_length in *; [exact H|]. eauto. Qed.
Theorem C64_window_lengths : forall (T : Type) (F : Float T) (X : FloatX T) (n : nat) (beta : T),
  length (hann (T := T) n) = n /\ length (hamming (T := T) n) = n /\ length (blackman (T := T) n) = n /\
  (n <> 0%nat -> exists w, kaiser n beta = Done w /\ length w = n) /\
  (exists w, bartlett n = Done w /\ length w = n) /\
  (exists w, bohman n = Done w /\ length w = n) /\
  (exists w, nuttall n = Done w /\ length w = n).
Proof.
  intros T F X n beta. unfold hann, hamming, blackman. rewrite !tab_length.
  repeat match goal with |- _ /\ _ => split end; try reflexivity.
  - intros H. unfold kaiser. rewrite usub_ok by lia. cbn [bind]. eexists. split; [reflexivity|apply tab_length].
  - apply zfill_total. eauto.
  - apply zfill_total. eauto.
  - apply zfill_total. eauto.
Qed.
Print Assumptions C64_window_lengths.
(* tukey subtracts the taper from the length; it is total as soon as the computed taper is at most
   the length, which over the reals is always the case *)
Theorem C64_tukey_total : forall (T : Type) (F : Float T) (X : FloatX T) (n : nat) (alpha : T),
  (ffloor (fdiv (fmul (fclamp alpha fzero fone) (fsub (fas n) fone)) (flit 2)) <= n)%nat ->
  exists w, tukey n alpha = Done w /\ length w = n.
Proof.
  intros T F X n alpha H. unfold tukey. cbv zeta. apply zfill_total. intros k Hk. destruct (_ <? _)%nat; [eauto|].
  rewrite usub_ok by exact H. cbn [bind]. eauto.
Qed.
Print Assumptions C64_tukey_total.

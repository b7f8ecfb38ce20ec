(* Property C104: rounding errors of the Goertzel detector, and a finite signal for which it returns NaN. *)
From Coq Require Import Reals Lra Lia ZArith.
From Flocq Require Import Core BinarySingleNaN.
From Verif Require Import L_trig P_trig P_det L_err L_rerr P_rerr L_flx L_pi L_ieeex L_ieee.
Set Implicit Arguments.
Open Scope R_scope.

(* ---------- specification ---------- *)
(* the number 2 cos(2 pi k / n) as goertzel.rs 24-27 computes it, k being the integer below f n / rate *)
Definition coefficient (G : Float R) (X : FloatX R) (n : nat) (rate f : R) : R :=
  @fmul R G (@flit R G 2) (@fcos R G (@fdiv R G (@fmul R G (@fmul R G (@flit R G 2) (@fpi R G)) (@ffloorf R X (@fdiv R G (@fmul R G f (@fas R G n)) rate))) (@fas R G n))).
(* relative error of one step of the recurrence, the coefficient being known to 2 e *)
Definition step_rel (u e : R) : R := (1 + e) * (1 + u) ^ 3 - 1.
(* growth of the recurrence over n steps *)
Definition growth (u e : R) (n : nat) : R := (1 + 3 * INR n * step_rel u e) ^ n.

(* ---------- proofs ---------- *)
Lemma rnorm_snoc x v : rnorm (x ++ [v]) = rnorm x + Rabs v.
Proof.
  unfold rnorm. rewrite app_length, Nat.add_1_r. cbn [rsum]. f_equal.
  - apply rsum_ext. intros i Hi. rewrite app_nth1 by exact Hi. reflexivity.
  - rewrite app_nth2, Nat.sub_diag by lia. reflexivity.
Qed.
Lemma rnorm_pos x : 0 <= rnorm x.
Proof. apply rsum_pos. intros. apply Rabs_pos. Qed.
(* sum of the differences of two lists of the same length *)
Definition gap (z x : list R) : R := rsum (length x) (fun j => Rabs (nth j z 0 - nth j x 0)).
Lemma gap_snoc z x v v' : length z = length x -> gap (z ++ [v']) (x ++ [v]) = gap z x + Rabs (v' - v).
Proof.
  intros H. unfold gap. rewrite app_length, Nat.add_1_r. cbn [rsum]. f_equal.
  - apply rsum_ext. intros i Hi. rewrite !app_nth1 by lia. reflexivity.
  - rewrite !app_nth2 by lia. rewrite H, Nat.sub_diag. reflexivity.
Qed.
Lemma cis_re_step w v s1 s2 : RtoC (v + 2 * cos w * s1 - s2) -c cis (- w) *c RtoC s1 = RtoC v +c cis w *c (RtoC s1 -c cis (- w) *c RtoC s2).
Proof.
  creal; unfold cis; cbn [re im Cadd Csub Cmul RtoC]; rewrite ?cos_neg, ?sin_neg; pose proof (sin2_cos2 w) as Q; unfold Rsqr in Q; [|ring].
  replace (v + 2 * cos w * s1 - s2 - (cos w * s1 - - sin w * 0)) with (v + cos w * s1 - s2 * (sin w * sin w + cos w * cos w)) by (rewrite Q; ring). ring.
Qed.
Section Fold.
Variables (G : Float R) (u e w ch : R) (N : nat).
Hypothesis (HG : rounded G u) (He : 0 <= e) (Hc : Rabs (ch - 2 * cos w) <= 2 * e) (HN : (1 <= N)%nat).
Local Notation eta := (step_rel u e).
Local Notation b := (1 + 3 * INR N * eta).
Lemma eta_pos : 0 <= eta.
Proof. unfold step_rel. pose proof (u_pos HG). assert (1 <= (1 + u) ^ 3) by (apply pow_R1_Rle; lra). nra. Qed.
Lemma eta_b : 1 + eta <= b.
Proof. pose proof eta_pos. assert (1 <= INR N) by (apply (le_INR 1); exact HN). nra. Qed.
Lemma rnear_mul_exact q S x xh s : rnear q S x xh -> rnear (q * (1 + u)) (S * Rabs s) (x * s) (@fmul R G xh s).
Proof.
  intros H. pose proof (rnear_pos H) as SP. destruct H as (H1 & H2 & H3). pose proof (u_pos HG). pose proof (Rabs_pos s) as Ps.
  split; [nra|]. split; [rewrite Rabs_mult; apply Rmult_le_compat_r; assumption|].
  pose proof (r_mul HG xh s) as P. rewrite Rabs_mult in P.
  assert (D : Rabs (xh * s - x * s) <= (q - 1) * S * Rabs s) by (rewrite <- Rmult_minus_distr_r, Rabs_mult; apply Rmult_le_compat_r; assumption).
  assert (A : Rabs xh <= q * S) by (pose proof (@Rabs_le_sum _ _ _ H3); lra).
  pose proof (@near_trans_abs _ _ (x * s) _ P) as K. assert (u * (Rabs xh * Rabs s) <= u * (q * S * Rabs s)) by (apply Rmult_le_compat_l; [assumption|apply Rmult_le_compat_r; assumption]). nra.
Qed.
Lemma rnear_refl S x : Rabs x <= S -> rnear 1 S x x.
Proof. intros H. split; [lra|]. split; [exact H|]. rewrite Rminus_diag_eq, Rabs_R0 by reflexivity. lra. Qed.
Lemma rnear_up q q' S x xh : rnear q S x xh -> q <= q' -> rnear q' S x xh.
Proof. intros H Hq. pose proof (rnear_pos H). destruct H as (H1 & H2 & H3). split; [lra|]. split; [exact H2|]. nra. Qed.
Lemma rnear_ch : rnear (1 + e) 2 (2 * cos w) ch.
Proof. split; [lra|]. split; [rewrite Rabs_mult, (Rabs_pos_eq 2) by lra; destruct (COS_bound w); assert (Rabs (cos w) <= 1) by (apply Rabs_le; lra); lra|]. lra. Qed.
Lemma step_err v s1 s2 : Rabs (@fsub R G (@fadd R G v (@fmul R G ch s1)) s2 - (v + 2 * cos w * s1 - s2)) <= eta * (Rabs v + 2 * Rabs s1 + Rabs s2).
Proof.
  pose proof (u_pos HG) as U. pose proof (rnear_mul_exact s1 rnear_ch) as A. set (q := (1 + e) * (1 + u)) in *.
  assert (Q1 : 1 <= q) by (unfold q; nra).
  pose proof (rnear_add HG (rnear_up (@rnear_refl _ _ (Rle_refl (Rabs v))) Q1) A) as B.
  assert (Q2 : 1 <= q * (1 + u)) by nra.
  pose proof (rnear_sub HG B (rnear_up (@rnear_refl _ _ (Rle_refl (Rabs s2))) Q2)) as (_ & _ & D).
  unfold step_rel. replace ((1 + e) * (1 + u) ^ 3) with (q * (1 + u) * (1 + u)) by (unfold q; ring). exact D.
Qed.
Lemma power_err s1 s2 : Rabs (@fsub R G (@fadd R G (@fmul R G s2 s2) (@fmul R G s1 s1)) (@fmul R G (@fmul R G ch s1) s2) - (s2 * s2 + s1 * s1 - 2 * cos w * s1 * s2)) <=
  eta * ((Rabs s1 + Rabs s2) * (Rabs s1 + Rabs s2)).
Proof.
  pose proof (u_pos HG) as U. pose proof (rnear_mul_exact s2 (rnear_mul_exact s1 rnear_ch)) as A. set (q := (1 + e) * (1 + u) * (1 + u)) in *.
  pose proof (rnear_mul_exact s2 (@rnear_refl _ _ (Rle_refl (Rabs s2)))) as B2. pose proof (rnear_mul_exact s1 (@rnear_refl _ _ (Rle_refl (Rabs s1)))) as B1.
  pose proof (rnear_add HG B2 B1) as B. assert (Q : 1 * (1 + u) * (1 + u) <= q) by (unfold q; nra).
  pose proof (rnear_sub HG (rnear_up B Q) A) as (_ & _ & D).
  unfold step_rel. replace ((1 + e) * (1 + u) ^ 3) with (q * (1 + u)) by (unfold q; ring).
  replace ((Rabs s1 + Rabs s2) * (Rabs s1 + Rabs s2)) with (Rabs s2 * Rabs s2 + Rabs s1 * Rabs s1 + 2 * Rabs s1 * Rabs s2) by ring. exact D.
Qed.
Lemma abs_RC r : Cabs (RtoC r) = Rabs r. Proof. apply Cabs_R. Qed.
Lemma fold_err : forall x, (length x <= N)%nat ->
  let s := fold_left (goertzel_step (F := G) ch) x (0, 0) in
  exists z, length z = length x /\ fold_left (goertzel_step (F := RF) (2 * cos w)) z (0, 0) = s /\
    gap z x <= (b ^ length x - 1) * rnorm x /\
    Rabs (fst s) <= INR (length x) * (b ^ length x * rnorm x) /\ Rabs (snd s) <= INR (length x) * (b ^ length x * rnorm x) /\
    Cabs (RtoC (fst s) -c cis (- w) *c RtoC (snd s)) <= b ^ length x * rnorm x.
Proof.
  pose proof eta_pos as E0. pose proof eta_b as EB. assert (b1 : 1 <= b) by lra.
  induction x as [|v x IH] using rev_ind; intros Hl.
  - exists []. cbn [length fold_left fst snd pow INR]. unfold gap, rnorm. cbn [length rsum]. rewrite Rabs_R0.
    replace (RtoC 0 -c cis (- w) *c RtoC 0) with C0 by (creal; unfold cis; cbn; ring). rewrite Cabs_0. repeat split; lra.
  - rewrite app_length in Hl. cbn [length] in Hl. destruct (IH ltac:(lia)) as (z & Lz & Ez & Eg & A1 & A2 & Y). clear IH.
    rewrite !fold_left_app. destruct (fold_left (goertzel_step (F := G) ch) x (0, 0)) as [s1 s2]. cbn [fst snd fold_left goertzel_step] in *.
    pose proof (step_err v s1 s2) as SE. set (s1' := @fsub R G (@fadd R G v (@fmul R G ch s1)) s2) in *. set (v' := s1' - 2 * cos w * s1 + s2).
    assert (Ev : s1' = v' + 2 * cos w * s1 - s2) by (unfold v'; ring).
    assert (DV : Rabs (v' - v) <= eta * (Rabs v + 2 * Rabs s1 + Rabs s2)) by (replace (v' - v) with (s1' - (v + 2 * cos w * s1 - s2)) by (unfold v'; ring); exact SE).
    rewrite rnorm_snoc, app_length, Nat.add_1_r. cbn [length pow]. set (m := length x) in *. set (B := b ^ m) in *.
    assert (B1 : 1 <= B) by (apply pow_R1_Rle; exact b1). pose proof (rnorm_pos x) as XP. pose proof (Rabs_pos v) as VP. set (S := rnorm x) in *.
    assert (Hm : INR m <= INR N) by (apply le_INR; lia). pose proof (pos_INR m) as Pm.
    assert (BS : 0 <= B * S) by nra.
    assert (DV2 : Rabs (v' - v) <= eta * Rabs v + 3 * INR N * eta * (B * S)).
    { eapply Rle_trans; [exact DV|]. assert (M : INR m * (B * S) <= INR N * (B * S)) by (apply Rmult_le_compat_r; assumption).
      assert (2 * Rabs s1 + Rabs s2 <= 3 * (INR N * (B * S))) by lra. nra. }
    assert (T1 : eta * Rabs v <= (b * B - 1) * Rabs v). { apply Rmult_le_compat_r; [exact VP|]. nra. }
    assert (Yb : Cabs (RtoC s1' -c cis (- w) *c RtoC s1) <= b * B * (S + Rabs v)).
    { rewrite Ev, cis_re_step. eapply Rle_trans; [apply Cabs_tri|]. rewrite Cabs_mul, Cabs_cis, Rmult_1_l, abs_RC.
      pose proof (@Rabs_le_sum _ _ _ (Rle_refl (Rabs (v' - v)))) as K. nra. }
    assert (HS1 : Rabs s1' <= (INR m + 1) * (b * B * (S + Rabs v))).
    { rewrite <- (abs_RC s1'). replace (RtoC s1') with ((RtoC s1' -c cis (- w) *c RtoC s1) +c cis (- w) *c RtoC s1) by ring.
      eapply Rle_trans; [apply Cabs_tri|]. rewrite Cabs_mul, Cabs_cis, Rmult_1_l, abs_RC.
      assert (INR m * (B * S) <= INR m * (b * B * (S + Rabs v))) by (apply Rmult_le_compat_l; [exact Pm|]; nra). lra. }
    exists (z ++ [v']). split; [rewrite app_length, Lz; cbn; unfold m; lia|]. split.
    { rewrite fold_left_app, Ez. cbn [fold_left goertzel_step]. f_equal. rewrite Ev. reflexivity. }
    split; [rewrite gap_snoc by exact Lz; apply Rle_trans with ((B - 1) * S + (eta * Rabs v + 3 * INR N * eta * (B * S))); [lra|]; replace ((b * B - 1) * (S + Rabs v)) with ((B - 1) * S + ((b * B - 1) * Rabs v + 3 * INR N * eta * (B * S))) by ring; lra|].
    rewrite S_INR. split; [exact HS1|]. split; [|exact Yb].
    eapply Rle_trans; [exact A1|]. assert (B * S <= b * B * (S + Rabs v)) by nra. nra.
Qed.
End Fold.

(* the modulus of bin k from the two states of the recurrence *)
Lemma states_bin (z : list R) (k : Z) : (0 < length z)%nat -> let w := 2 * PI * IZR k / INR (length z) in
  let s := fold_left (goertzel_step (F := RF) (2 * cos w)) z (0, 0) in
  snd s * snd s + fst s * fst s - 2 * cos w * fst s * snd s = Cnorm2 (dft (length z) (fun j => RtoC (nth j z 0)) (Z.to_nat (k mod Z.of_nat (length z)))).
Proof.
  intros Hn w s. assert (Hz : z <> []) by (destruct z; [cbn in Hn; lia|discriminate]).
  assert (P : 0 < INR (length z)) by (apply lt_0_INR; exact Hn).
  pose proof (@C51_goertzel z 1 (IZR k / INR (length z)) k Hz ltac:(lra)) as K.
  assert (E : IZR k / INR (length z) * INR (length z) / 1 = IZR k) by (field; lra). rewrite E in K. specialize (K ltac:(lra)).
  pose proof (goertzel_fold w z 0 0) as G. cbv zeta in G. fold s in G. destruct s as [s1 s2]. cbn [fst snd] in *.
  assert (N : s2 * s2 + s1 * s1 - 2 * cos w * s1 * s2 = Cnorm2 (RtoC s1 -c cis (- w) *c RtoC s2)).
  { unfold Cnorm2, cis. cbn [re im Cadd Csub Cmul RtoC]. rewrite cos_neg, sin_neg. pose proof (sin2_cos2 w) as Q. unfold Rsqr in Q.
    replace (s2 * s2) with (s2 * s2 * (sin w * sin w + cos w * cos w)) by (rewrite Q; ring). ring. }
  rewrite N, G. replace (RtoC 0 -c cis (- w) *c RtoC 0) with C0 by (creal; unfold cis; cbn; ring).
  replace (csum (length z) (fun j => RtoC (nth j z 0) *c cis (w * INR (length z - 1 - j))) +c cis (w * INR (length z)) *c C0)
    with (cis (w * INR (length z - 1)) *c dft (length z) (fun j => RtoC (nth j z 0)) (Z.to_nat (k mod Z.of_nat (length z)))).
  - rewrite Cnorm2_mul, Cnorm2_cis. ring.
  - unfold dft. rewrite <- csum_scal.
    replace (cis (w * INR (length z)) *c C0) with C0 by (creal; ring).
    replace (csum (length z) (fun j => RtoC (nth j z 0) *c cis (w * INR (length z - 1 - j))) +c C0) with (csum (length z) (fun j => RtoC (nth j z 0) *c cis (w * INR (length z - 1 - j)))) by ring.
    apply csum_ext. intros j Hj.
    assert (V : W (length z) (j * Z.to_nat (k mod Z.of_nat (length z))) = cis (- (w * INR j))).
    { unfold W. pose proof (Z.div_mod k (Z.of_nat (length z))) as D. pose proof (Z.mod_pos_bound k (Z.of_nat (length z))) as B.
      rewrite <- (@cis_2PI_Z (- (w * INR j)) (Z.of_nat j * (k / Z.of_nat (length z)))). f_equal.
      rewrite mult_INR, (INR_IZR_INZ (Z.to_nat _)), Z2Nat.id by lia. unfold w. rewrite D at 2 by lia.
      rewrite plus_IZR, !mult_IZR, <- !INR_IZR_INZ. field. lra. }
    rewrite V. replace (w * INR (length z - 1 - j)) with (w * INR (length z - 1) + - (w * INR j)) by (rewrite (minus_INR (length z - 1) j) by lia; ring).
    rewrite cis_add. ring.
Qed.
Lemma dft_gap (z x : list R) k : length z = length x ->
  Cabs (dft (length x) (fun j => RtoC (nth j z 0)) k -c dft (length x) (fun j => RtoC (nth j x 0)) k) <= gap z x /\ Cabs (dft (length x) (fun j => RtoC (nth j x 0)) k) <= rnorm x.
Proof.
  intros H. assert (T : forall n a, Cabs (csum n a) <= rsum n (fun j => Cabs (a j))).
  { induction n as [|n IH]; intros a; cbn [csum rsum]; [rewrite Cabs_0; lra|]. eapply Rle_trans; [apply Cabs_tri|]. specialize (IH a). lra. }
  split.
  - replace (dft (length x) (fun j => RtoC (nth j z 0)) k -c dft (length x) (fun j => RtoC (nth j x 0)) k) with (dft (length x) (fun j => RtoC (nth j z 0 - nth j x 0)) k).
    + unfold dft. eapply Rle_trans; [apply T|]. right. unfold gap. apply rsum_ext. intros j _. rewrite Cabs_mul, Cabs_W, Cabs_R. ring.
    + replace (dft (length x) (fun j => RtoC (nth j z 0)) k -c dft (length x) (fun j => RtoC (nth j x 0)) k)
        with (C1 *c dft (length x) (fun j => RtoC (nth j z 0)) k +c Copp C1 *c dft (length x) (fun j => RtoC (nth j x 0)) k) by ring.
      rewrite <- dft_linear. apply dft_ext. intros j _. creal; cbn; ring.
  - unfold dft. eapply Rle_trans; [apply T|]. right. unfold rnorm. apply rsum_ext. intros j _. rewrite Cabs_mul, Cabs_W, Cabs_R. ring.
Qed.

(* ---------- theorems ---------- *)
(* the number whose square root is returned is the squared modulus of bin k to within an error growing like n^2 u *)
Theorem C104_goertzel : forall (G : Float R) (X : FloatX R) (u e : R) (x : list R) (rate f : R) (k : Z),
  rounded G u -> 0 <= e -> x <> [] -> @fleb R X rate (@fzero R G) = false ->
  Rabs (coefficient G X (length x) rate f - 2 * cos (2 * PI * IZR k / INR (length x))) <= 2 * e ->
  exists P, goertzel (F := G) (X := X) x rate f = Ok (@fsqrt R X P) /\
    Rabs (P - Cnorm2 (dft (length x) (fun j => RtoC (nth j x 0)) (Z.to_nat (k mod Z.of_nat (length x))))) <=
    (growth u e (length x) ^ 2 * (1 + 4 * INR (length x) ^ 2 * step_rel u e) - 1) * rnorm x ^ 2.
Proof.
  intros G X u e x rate f k HG He Hx Hr Hc. assert (Hn : (1 <= length x)%nat) by (destruct x; [congruence|cbn; lia]).
  set (ch := coefficient G X (length x) rate f) in *. set (w := 2 * PI * IZR k / INR (length x)) in *.
  destruct (@fold_err G u e w ch (length x) HG He Hc Hn x (Nat.le_refl _)) as (z & Lz & Ez & Eg & A1 & A2 & Y).
  pose proof (@states_bin z k ltac:(lia)) as SB. cbv zeta in SB. rewrite Lz in SB. fold w in SB. rewrite Ez in SB.
  destruct (@dft_gap z x (Z.to_nat (k mod Z.of_nat (length x))) Lz) as [D1 D2].
  set (Xk := dft (length x) (fun j => RtoC (nth j x 0)) (Z.to_nat (k mod Z.of_nat (length x)))) in *.
  set (Zk := dft (length x) (fun j => RtoC (nth j z 0)) (Z.to_nat (k mod Z.of_nat (length x)))) in *.
  assert (EG : goertzel (F := G) (X := X) x rate f = let s := fold_left (goertzel_step (F := G) ch) x (0, 0) in
     Ok (@fsqrt R X (@fsub R G (@fadd R G (@fmul R G (snd s) (snd s)) (@fmul R G (fst s) (fst s))) (@fmul R G (@fmul R G ch (fst s)) (snd s))))).
  { unfold goertzel. destruct x as [|a l]; [congruence|]. rewrite Hr. cbv zeta. unfold two. fold (coefficient G X (length (a :: l)) rate f). fold ch.
    rewrite (r_zero HG). destruct (fold_left (goertzel_step ch) (a :: l) (0, 0)) as [s1 s2]. reflexivity. }
  rewrite EG. cbv zeta. eexists. split; [reflexivity|]. set (s := fold_left (goertzel_step (F := G) ch) x (0, 0)) in *. clearbody s. clear EG Ez.
  destruct s as [s1 s2]. cbn [fst snd] in *. pose proof (@power_err G u e w ch HG He Hc s1 s2) as PE.
  set (P := @fsub R G _ _) in *. rewrite SB in PE.
  pose proof (@eta_pos G u e HG He) as E0. fold (growth u e (length x)) in Eg, A1, A2, Y. set (B := growth u e (length x)) in *.
  assert (B1 : 1 <= B). { unfold B, growth. apply pow_R1_Rle. pose proof (pos_INR (length x)). nra. }
  pose proof (rnorm_pos x) as SP. set (S := rnorm x) in *. set (eta := step_rel u e) in *. set (n := INR (length x)) in *.
  assert (n0 : 0 <= n) by apply pos_INR. pose proof (Rabs_pos s1). pose proof (Rabs_pos s2).
  assert (T1 : eta * ((Rabs s1 + Rabs s2) * (Rabs s1 + Rabs s2)) <= eta * ((2 * n * B * S) * (2 * n * B * S))).
  { apply Rmult_le_compat_l; [exact E0|]. apply Rmult_le_compat; lra. }
  assert (ZB : Cabs Zk <= B * S).
  { replace Zk with ((Zk -c Xk) +c Xk) by ring. eapply Rle_trans; [apply Cabs_tri|]. lra. }
  assert (T2 : Rabs (Cnorm2 Zk - Cnorm2 Xk) <= (B - 1) * S * (B * S + S)).
  { rewrite <- !Cabs_sq. replace (Cabs Zk * Cabs Zk - Cabs Xk * Cabs Xk) with ((Cabs Zk - Cabs Xk) * (Cabs Zk + Cabs Xk)) by ring. rewrite Rabs_mult.
    pose proof (Cabs_nonneg Zk). pose proof (Cabs_nonneg Xk). rewrite (Rabs_pos_eq (Cabs Zk + Cabs Xk)) by lra.
    apply Rmult_le_compat; [apply Rabs_pos|lra| |lra]. eapply Rle_trans; [|exact Eg]. eapply Rle_trans; [|exact D1].
    assert (K1 : Cabs Zk <= Cabs (Zk -c Xk) + Cabs Xk) by (replace Zk with ((Zk -c Xk) +c Xk) at 1 by ring; apply Cabs_tri).
    assert (K2 : Cabs Xk <= Cabs (Zk -c Xk) + Cabs Zk) by (replace Xk with (Copp (Zk -c Xk) +c Zk) at 1 by ring; rewrite <- (Cabs_opp (Zk -c Xk)); apply Cabs_tri).
    apply Rabs_le. lra. }
  pose proof (@near_trans_abs P (Cnorm2 Zk) (Cnorm2 Xk) _ PE) as K. eapply Rle_trans; [exact K|]. eapply Rle_trans; [apply Rplus_le_compat; [exact T1|exact T2]|]. right. ring.
Qed.
Print Assumptions C104_goertzel.
(* so the value returned is the modulus of the bin to within the square root of that error, when a square root is taken at all *)
Theorem C104_magnitude : forall (G : Float R) (X : FloatX R) (u e : R) (x : list R) (rate f : R) (k : Z),
  rounded G u -> 0 <= e -> x <> [] -> @fleb R X rate (@fzero R G) = false ->
  (forall p, 0 <= p -> Rabs (@fsqrt R X p - sqrt p) <= u * sqrt p) ->
  Rabs (coefficient G X (length x) rate f - 2 * cos (2 * PI * IZR k / INR (length x))) <= 2 * e ->
  let M := Cabs (dft (length x) (fun j => RtoC (nth j x 0)) (Z.to_nat (k mod Z.of_nat (length x)))) in
  let E := (growth u e (length x) ^ 2 * (1 + 4 * INR (length x) ^ 2 * step_rel u e) - 1) * rnorm x ^ 2 in
  E <= M ^ 2 -> exists y, goertzel (F := G) (X := X) x rate f = Ok y /\ Rabs (y - M) <= (1 + u) * sqrt E + u * M.
Proof.
  intros G X u e x rate f k HG He Hx Hr Hs Hc M E HE. destruct (@C104_goertzel G X u e x rate f k HG He Hx Hr Hc) as (P & EG & HP).
  exists (@fsqrt R X P). split; [exact EG|]. fold E in HP. rewrite <- Cabs_sq in HP. fold M in HP. assert (M0 : 0 <= M) by apply Cabs_nonneg.
  assert (P0 : 0 <= P). { apply Rabs_le_inv in HP. cbn [pow] in HE. lra. }
  assert (E0 : 0 <= E) by (pose proof (Rabs_pos (P - M * M)); lra).
  assert (D : Rabs (sqrt P - M) <= sqrt E).
  { apply Rsqr_incr_0_var; [|apply sqrt_pos]. rewrite <- Rsqr_abs. rewrite Rsqr_sqrt by exact E0. unfold Rsqr. pose proof (sqrt_pos P). pose proof (sqrt_sqrt P P0) as SP.
    apply Rle_trans with (Rabs (P - M * M)); [|exact HP]. replace (P - M * M) with ((sqrt P - M) * (sqrt P + M)) by (rewrite <- SP at 3; ring).
    rewrite Rabs_mult, (Rabs_pos_eq (sqrt P + M)) by lra. replace ((sqrt P - M) * (sqrt P - M)) with (Rabs (sqrt P - M) * Rabs (sqrt P - M)) by (pose proof (Rsqr_abs (sqrt P - M)) as Q; unfold Rsqr in Q; lra).
    apply Rmult_le_compat_l; [apply Rabs_pos|]. apply Rabs_le. lra. }
  specialize (Hs P P0). pose proof (u_pos HG). pose proof (@near_trans_abs _ _ M _ Hs) as K. pose proof (@Rabs_le_sum _ _ _ D) as Q. rewrite (Rabs_pos_eq _ (sqrt_pos P)), (Rabs_pos_eq _ M0) in Q. nra.
Qed.
Print Assumptions C104_magnitude.
(* prec-bit arithmetic with correctly rounded cosine: the coefficient is within 68 units of its exact value for every bin below n *)
Lemma Int_part_at r k : IZR k <= r < IZR k + 1 -> IZR (Int_part r) = IZR k.
Proof. intros H. f_equal. apply Int_part_spec. exact H. Qed.
Lemma cos_lip a b : Rabs (cos a - cos b) <= Rabs (a - b).
Proof. pose proof (chord a b) as K. eapply Rle_trans; [|exact K]. exact (Rabs_re (cis a -c cis b)). Qed.
Lemma flx_coeff (prec : Z) (n : nat) (rate f : R) (k : Z) : (24 <= prec)%Z -> (0 < n)%nat -> INR n <= bpow radix2 prec -> (0 <= k < Z.of_nat n)%Z ->
  IZR k <= @fdiv R (flx prec) (@fmul R (flx prec) f (INR n)) rate < IZR k + 1 ->
  Rabs (coefficient (flx prec) RX n rate f - 2 * cos (2 * PI * IZR k / INR n)) <= 2 * (34 * uu prec).
Proof.
  intros Hp Hn Hb Hk Hf. unfold coefficient. assert (EN : @fas R (flx prec) n = INR n) by (cbn [fas flx]; apply rnd_INR; assumption).
  rewrite EN. cbn [ffloorf RX]. rewrite (@Int_part_at _ k Hf). rewrite (flit_2 prec). cbn [fmul fdiv fpi fcos flx].
  assert (PN : 0 < INR n) by (apply lt_0_INR; exact Hn). set (N := INR n) in *. set (K := IZR k). pose proof (uu_pos prec) as U. pose proof (@uu_small prec Hp) as US.
  assert (K0 : 0 <= K) by (unfold K; apply IZR_le; lia). assert (K1 : K <= N) by (unfold K, N; rewrite INR_IZR_INZ; apply IZR_le; lia).
  pose proof (@one_chain prec Hp PI) as A1. pose proof (@mul_chain _ _ _ 2 A1) as A2. pose proof (@chain prec _ _ _ _ A2 (@rnd_err prec Hp _)) as A3.
  pose proof (@mul_chain _ _ _ K A3) as A4. rewrite (Rmult_comm K (rnd prec (2 * rnd prec PI))), (Rmult_comm K (2 * PI)) in A4. pose proof (@chain prec _ _ _ _ A4 (@rnd_err prec Hp _)) as A5.
  pose proof (@div_chain _ _ _ N ltac:(lra) A5) as A6. pose proof (@chain prec _ _ _ _ A6 (@rnd_err prec Hp _)) as A7.
  set (om := rnd prec (rnd prec (rnd prec (2 * rnd prec PI) * K) / N)) in *. set (w := 2 * PI * K / N) in *.
  pose proof (@quint_small prec Hp) as QS. pose proof PI_bounds as P4. pose proof PI_RGT_0 as PP.
  assert (W0 : 0 <= w <= 6.284). { unfold w. split; [apply Rmult_le_pos; [nra|left; apply Rinv_0_lt_compat; lra]|]. apply Rmult_le_reg_r with N; [lra|]. unfold Rdiv. rewrite Rmult_assoc, Rinv_l by lra. nra. }
  assert (D1 : Rabs (om - w) <= 31.5 * uu prec).
  { eapply Rle_trans; [exact A7|]. rewrite (Rabs_pos_eq w) by lra. nra. }
  pose proof (cos_lip om w) as D2. pose proof (@rnd_err prec Hp (cos om)) as D3. assert (CB : Rabs (cos om) <= 1) by (destruct (COS_bound om); apply Rabs_le; lra).
  assert (D4 : Rabs (rnd prec (cos om) - cos w) <= 32.5 * uu prec).
  { pose proof (@near_trans_abs _ _ (cos w) _ D3). nra. }
  pose proof (@rnd_err prec Hp (2 * rnd prec (cos om))) as D5.
  assert (CW : Rabs (cos w) <= 1) by (destruct (COS_bound w); apply Rabs_le; lra).
  pose proof (@Rabs_le_sum _ _ _ D4) as D6.
  assert (D7 : Rabs (2 * rnd prec (cos om) - 2 * cos w) <= 65 * uu prec) by (rewrite <- Rmult_minus_distr_l, Rabs_mult, (Rabs_pos_eq 2) by lra; lra).
  pose proof (@near_trans_abs _ _ (2 * cos w) _ D5) as D8. rewrite Rabs_mult, (Rabs_pos_eq 2) in D8 by lra. nra.
Qed.
(* prec-bit arithmetic: 750 n^2 2^-prec of the squared sum of the samples *)
Theorem C104_float : forall (prec : Z) (x : list R) (rate f : R) (k : Z), (24 <= prec)%Z -> x <> [] -> 0 < rate ->
  750 * INR (length x) ^ 2 <= bpow radix2 prec -> (0 <= k < Z.of_nat (length x))%Z ->
  IZR k <= @fdiv R (flx prec) (@fmul R (flx prec) f (INR (length x))) rate < IZR k + 1 ->
  exists P, goertzel (F := flx prec) (X := RX) x rate f = Ok (sqrt P) /\
    Rabs (P - Cnorm2 (dft (length x) (fun j => RtoC (nth j x 0)) (Z.to_nat k))) <= 750 * INR (length x) ^ 2 * bpow radix2 (- prec) * rnorm x ^ 2.
Proof.
  intros prec x rate f k Hp Hx Hr Hb Hk Hf. assert (Hn : (0 < length x)%nat) by (destruct x; [congruence|cbn; lia]).
  assert (N1 : 1 <= INR (length x)) by (apply (le_INR 1); lia).
  assert (HN : INR (length x) <= bpow radix2 prec) by (cbn [pow] in Hb; nra).
  pose proof (@flx_coeff prec (length x) rate f k Hp Hn HN Hk Hf) as Hc. pose proof (uu_pos prec) as U. pose proof (@uu_small prec Hp) as US.
  destruct (@C104_goertzel (flx prec) RX (uu prec) (34 * uu prec) x rate f k (flx_rounded Hp) ltac:(lra) Hx) as (P & EG & HP).
  - rewrite (r_zero (flx_rounded Hp)). cbn [fleb RX]. destruct (Rle_dec rate 0); [lra|reflexivity].
  - exact Hc.
  - exists P. split; [exact EG|]. rewrite Z.mod_small in HP by exact Hk. eapply Rle_trans; [exact HP|]. apply Rmult_le_compat_r; [cbn [pow]; pose proof (rnorm_pos x); nra|].
    fold (uu prec). assert (HU : 750 * INR (length x) ^ 2 * uu prec <= 1).
    { unfold uu. rewrite bpow_opp. pose proof (bpow_gt_0 radix2 prec). apply Rmult_le_reg_r with (bpow radix2 prec); [assumption|]. rewrite Rmult_assoc, Rinv_l by lra. lra. }
    unfold growth. rewrite <- pow_mult. set (v := uu prec) in *. set (n := INR (length x)) in *.
    assert (E1 : step_rel v (34 * v) <= 37.1 * v). { unfold step_rel. cbn [pow]. assert (v * v <= / 16777216 * v) by nra. assert (0 <= v * v) by nra. assert (v * v * v <= v * v) by nra. assert (v * v * v * v <= v * v) by nra. nra. }
    assert (E0 : 0 <= step_rel v (34 * v)) by (unfold step_rel; cbn [pow]; nra). set (eta := step_rel v (34 * v)) in *.
    assert (NN : n ^ 2 = n * n) by (cbn [pow]; ring). rewrite NN in *.
    assert (PL : (1 + 3 * n * eta) ^ (length x * 2) <= 1 + 2 * (INR (length x * 2) * (3 * n * eta))).
    { apply pow_linear; [nra|]. rewrite mult_INR. fold n. change (INR 2) with 2. assert (n * n * eta <= n * n * (37.1 * v)) by (apply Rmult_le_compat_l; nra). nra. }
    rewrite mult_INR in PL. fold n in PL. change (INR 2) with 2 in PL. set (B := (1 + 3 * n * eta) ^ (length x * 2)) in *.
    assert (T : n * n * eta <= n * n * (37.1 * v)) by (apply Rmult_le_compat_l; nra). set (t := n * n * eta) in *. set (s := n * n * v) in *.
    assert (T0 : 0 <= t) by (unfold t; nra). assert (TS : t <= 37.1 * s) by (unfold s; lra).
    assert (PL' : B <= 1 + 12 * t) by (unfold t; lra).
    replace (1 + 4 * (n * n) * eta) with (1 + 4 * t) by (unfold t; ring). replace (750 * (n * n) * v) with (750 * s) in * by (unfold s; ring).
    apply Rle_trans with ((1 + 12 * t) * (1 + 4 * t) - 1); [apply Rplus_le_compat_r, Rmult_le_compat_r; lra|]. assert (t * t <= 37.1 / 750 * t) by nra. nra.
Qed.
Print Assumptions C104_float.
Example C104_example : 750 * INR (length [1; 0; -1; 0]) ^ 2 <= bpow radix2 24 /\ Cnorm2 (dft 4 (fun j => RtoC (nth j [1; 0; -1; 0] 0)) 1) = 4.
Proof.
  split; [change (bpow radix2 24) with 16777216; cbn; lra|]. unfold dft. cbn [csum nth].
  replace (W 4 (0 * 1)) with C1 by (symmetry; apply W_0).
  replace (W 4 (2 * 1)) with (Copp C1).
  - unfold Cnorm2, RtoC. cbn. ring.
  - unfold W. replace (- (2 * PI * INR (2 * 1) / INR 4)) with (- PI) by (cbn; field). unfold cis. rewrite cos_neg, sin_neg, cos_PI, sin_PI. creal; cbn; ring.
Qed.

(* IEEE f32, any library whose cosine of +0 is 1: two finite samples whose sum is 2^-22, asked for frequency 0: the number under the
   square root is rounded to a negative one, and NaN is returned *)
Definition spike (m1 m2 : Z) : list (num B32) := [norm B32 m1 (-23); norm B32 m2 (-23)].
Theorem C104_nan_refuted : exists x : list (num B32), (forall z, In z x -> fin z) /\ rsum 2 (fun j => val (nth j x (B754_zero false))) = bpow radix2 (-22) /\
  forall (o : libm B32) (l : libx B32), o_cos o (B754_zero false) = norm B32 1 0 ->
  goertzel (F := ieee o) (X := ieeex l) x (norm B32 8000 0) (B754_zero false) = Ok B754_nan.
Proof.
  exists (spike 8390656 (-8390654)).
  assert (V1 : fin (norm B32 8390656 (-23)) /\ val (norm B32 8390656 (-23)) = IZR 8390656 * bpow radix2 (-23)) by (apply (@SF_val B32 _ false 8390656 (-23)); vm_compute; reflexivity).
  assert (V2 : fin (norm B32 (-8390654) (-23)) /\ val (norm B32 (-8390654) (-23)) = IZR (-8390654) * bpow radix2 (-23)) by (apply (@SF_val B32 _ true 8390654 (-23)); vm_compute; reflexivity).
  split; [intros z [<-|[<-|[]]]; [apply V1|apply V2]|]. split.
  - cbn [rsum spike nth]. rewrite (proj2 V1), (proj2 V2). change (bpow radix2 (-23)) with (/ 8388608). change (bpow radix2 (-22)) with (/ 4194304). lra.
  - intros o l Ho. unfold goertzel, spike. 
    assert (E1 : @fleb _ (ieeex l) (norm B32 8000 0) (@fzero _ (ieee o)) = false) by (vm_compute; reflexivity). rewrite E1. clear E1. cbv zeta.
    set (om := @fdiv _ (ieee o) (@fmul _ (ieee o) (@fmul _ (ieee o) (@two _ (ieee o)) (@fpi _ (ieee o))) _) _).
    assert (E2 : om = B754_zero false) by (vm_compute; reflexivity). rewrite E2. cbn [fcos ieee]. rewrite Ho.
    vm_compute. reflexivity.
Qed.
Print Assumptions C104_nan_refuted.
(* two samples whose sum is 2^-23, for which the answer is more than 4000 times too large *)
Theorem C104_error_refuted : exists x : list (num B32), (forall z, In z x -> fin z) /\ rsum 2 (fun j => val (nth j x (B754_zero false))) = bpow radix2 (-23) /\
  forall (o : libm B32) (l : libx B32), o_cos o (B754_zero false) = norm B32 1 0 ->
  exists y, goertzel (F := ieee o) (X := ieeex l) x (norm B32 8000 0) (B754_zero false) = Ok y /\ fin y /\ 4000 * bpow radix2 (-23) <= val y.
Proof.
  exists (spike 8399636 (-8399635)).
  assert (V1 : fin (norm B32 8399636 (-23)) /\ val (norm B32 8399636 (-23)) = IZR 8399636 * bpow radix2 (-23)) by (apply (@SF_val B32 _ false 8399636 (-23)); vm_compute; reflexivity).
  assert (V2 : fin (norm B32 (-8399635) (-23)) /\ val (norm B32 (-8399635) (-23)) = IZR (-8399635) * bpow radix2 (-23)) by (apply (@SF_val B32 _ true 8399635 (-23)); vm_compute; reflexivity).
  split; [intros z [<-|[<-|[]]]; [apply V1|apply V2]|]. split.
  - cbn [rsum spike nth]. rewrite (proj2 V1), (proj2 V2). change (bpow radix2 (-23)) with (/ 8388608). lra.
  - intros o l Ho. unfold goertzel, spike.
    assert (E1 : @fleb _ (ieeex l) (norm B32 8000 0) (@fzero _ (ieee o)) = false) by (vm_compute; reflexivity). rewrite E1. clear E1. cbv zeta.
    set (om := @fdiv _ (ieee o) (@fmul _ (ieee o) (@fmul _ (ieee o) (@two _ (ieee o)) (@fpi _ (ieee o))) _) _).
    assert (E2 : om = B754_zero false) by (vm_compute; reflexivity). rewrite E2. cbn [fcos ieee]. rewrite Ho. clear Ho E2 om.
    match goal with |- exists y, ?E = Ok y /\ _ => assert (B : match E with Ok y => B2SF y | Err _ => SpecFloat.S754_nan end = SpecFloat.S754_finite false 8388608 (-34)) by (vm_compute; reflexivity);
      destruct E as [y|]; [|discriminate B] end.
    exists y. split; [reflexivity|]. destruct (@SF_val B32 y _ _ _ B) as [F V].
    split; [exact F|]. rewrite V. cbn [cond_Zopp]. change (bpow radix2 (-23)) with (/ 8388608). change (bpow radix2 (-34)) with (/ 17179869184). lra.
Qed.
Print Assumptions C104_error_refuted.
(* a library with that cosine *)
Example C104_library : exists o : libm B32, o_cos o (B754_zero false) = norm B32 1 0.
Proof. exists {| o_sin := fun t => t; o_cos := fun _ => norm B32 1 0; o_sincos := fun t => (t, norm B32 1 0); o_reparse := fun t => t |}. reflexivity. Qed.

(* Binary floating-point arithmetic with prec bits, round to nearest even, unbounded exponent
   (Flocq's FLX format): the number types f32 (prec = 24) and f64 (prec = 53) away from
   overflow and underflow, with correctly rounded elementary functions. *)
From Coq Require Import Reals Lra Lia ZArith Qreals.
From Flocq Require Import Core Relative.
From Verif Require Import L_err.
Set Implicit Arguments.
Open Scope R_scope.

Section Flx.
Variable prec : Z.
Hypothesis Hprec : (24 <= prec)%Z.
Definition rnd (x : R) : R := round radix2 (FLX_exp prec) ZnearestE x.
(* unit roundoff 2^-prec *)
Definition uu : R := bpow radix2 (- prec).
(* n as f32 and the f32 literals are f32 numbers whatever the type (from_f32, src/num.rs 47-49, 84-86) *)
Definition r24 (x : R) : R := round radix2 (FLX_exp 24) ZnearestE x.
(* build.rs 30, 53: the table entries are printed with 10 (f32) or 16 (f64) decimals and read back *)
Definition decimals : Z := if (prec <=? 24)%Z then 10 else 16.
Definition print_read (x : R) : R := rnd (IZR (ZnearestE (x * IZR (10 ^ decimals))) / IZR (10 ^ decimals)).
Definition flx : Float R := {|
  fzero := 0; fone := 1;
  fadd := fun a b => rnd (a + b); fsub := fun a b => rnd (a - b); fmul := fun a b => rnd (a * b); fdiv := fun a b => rnd (a / b);
  fneg := Ropp; fmul_add := fun a b c => rnd (a * b + c);
  fcos := fun t => rnd (cos t); fsin := fun t => rnd (sin t); fsin_cos := fun t => (rnd (sin t), rnd (cos t));
  fpi := rnd PI; fofnat := fun n => r24 (INR n); fas := fun n => rnd (INR n); freparse := print_read; flit := fun q => r24 (Q2R q);
  (* 0.70710677f32, 0.9238795f32 and 0.38268343f32 *)
  fk707 := 11863283 / 16777216; fk924 := 15500126 / 16777216; fk383 := 12840725 / 33554432 |}.

Lemma prec_pos : (0 < prec)%Z. Proof. lia. Qed.
Instance prec_inst : Prec_gt_0 prec := prec_pos.
Lemma rnd_err x : Rabs (rnd x - x) <= uu * Rabs x.
Proof.
  unfold rnd. pose proof (@relative_error_N_FLX radix2 prec prec_pos (fun t => negb (Z.even t)) x) as P.
  replace uu with (/ 2 * bpow radix2 (- prec + 1)); [exact P|].
  unfold uu. rewrite bpow_plus. change (bpow radix2 1) with 2. field.
Qed.
Lemma uu_pos : 0 < uu. Proof. apply bpow_gt_0. Qed.
Lemma uu_small : uu <= / 16777216.
Proof.
  unfold uu. apply Rle_trans with (bpow radix2 (-24)); [apply bpow_le; lia|]. right. change (-24)%Z with (- (24))%Z.
  rewrite bpow_opp. change (bpow radix2 24) with 16777216. reflexivity.
Qed.
Lemma flx_rounded : rounded flx uu.
Proof.
  split; cbn [fzero fone fneg fadd fsub fmul fdiv fmul_add flx]; intros; try apply rnd_err; try reflexivity. left. apply uu_pos.
Qed.
Lemma rnd_bpow e : rnd (bpow radix2 e) = bpow radix2 e.
Proof. unfold rnd. apply round_generic; [typeclasses eauto|]. apply generic_format_bpow. unfold FLX_exp. pose proof prec_pos. lia. Qed.
Lemma r24_bpow e : r24 (bpow radix2 e) = bpow radix2 e.
Proof. unfold r24. apply round_generic; [apply valid_rnd_N|]. apply generic_format_bpow. unfold FLX_exp. lia. Qed.
Lemma r24_INR n : INR n <= 16777216 -> r24 (INR n) = INR n.
Proof.
  intros H. unfold r24. destruct (Rle_lt_or_eq_dec _ _ H) as [L|E].
  - apply round_generic; [apply valid_rnd_N|]. apply generic_format_FLX. exists (Flocq.Core.Defs.Float radix2 (Z.of_nat n) 0).
    + unfold F2R. cbn [Fnum Fexp]. rewrite <- INR_IZR_INZ. cbn. ring.
    + cbn [Fnum]. rewrite Z.abs_eq by lia. apply lt_IZR. rewrite <- INR_IZR_INZ. exact L.
  - rewrite E. change 16777216 with (bpow radix2 24). apply r24_bpow.
Qed.
Lemma r24_err x : Rabs (r24 x - x) <= / 16777216 * Rabs x.
Proof.
  unfold r24. pose proof (@relative_error_N_FLX radix2 24 eq_refl (fun t => negb (Z.even t)) x) as P.
  replace (/ 16777216) with (/ 2 * bpow radix2 (- (24) + 1)); [exact P|].
  rewrite bpow_plus, bpow_opp. change (bpow radix2 1) with 2. change (bpow radix2 24) with 16777216. field.
Qed.
Lemma INR_pow2 L : INR (2 ^ L) = bpow radix2 (Z.of_nat L).
Proof.
  induction L as [|L IH]; [reflexivity|]. rewrite Nat.pow_succ_r', mult_INR, IH. rewrite Nat2Z.inj_succ. unfold Z.succ. rewrite bpow_plus.
  change (bpow radix2 1) with 2. cbn [INR]. ring.
Qed.
Lemma fofnat_pow2 n : is_pow2 n = true -> @fofnat R flx n = INR n.
Proof. intros H. apply is_pow2_iff in H. destruct H as [L ->]. cbn [fofnat flx]. rewrite INR_pow2. apply r24_bpow. Qed.
Lemma flit_2 : @flit R flx 2%Q = 2.
Proof. cbn [flit flx]. rewrite Q2R_2. change 2 with (bpow radix2 1). apply r24_bpow. Qed.

(* chord <= arc *)
Lemma Rabs_sin_le t : Rabs (sin t) <= Rabs t.
Proof.
  assert (P : forall t, 0 < t -> Rabs (sin t) <= t).
  { intros s Hs. pose proof (sin_lt_x s Hs). destruct (Rle_dec 0 (sin s)); [rewrite Rabs_pos_eq; lra|].
    destruct (Rle_dec s PI); [pose proof (sin_ge_0 s ltac:(lra) ltac:(lra)); lra|].
    pose proof (SIN_bound s). pose proof PI2_3_2. unfold Rabs. destruct (Rcase_abs _); lra. }
  destruct (Rtotal_order t 0) as [H|[H|H]].
  - replace t with (- - t) by ring. rewrite sin_neg, Rabs_Ropp, (Rabs_Ropp (- t)). rewrite (Rabs_pos_eq (- t)) by lra. apply P. lra.
  - subst. rewrite sin_0, !Rabs_R0. lra.
  - rewrite (Rabs_pos_eq t) by lra. apply P. exact H.
Qed.
Lemma chord a b : Cabs (cis a -c cis b) <= Rabs (a - b).
Proof.
  apply Cabs_le; [apply Rabs_pos|]. unfold Cnorm2, cis. cbn [Csub re im].
  assert (E : (cos a - cos b) * (cos a - cos b) + (sin a - sin b) * (sin a - sin b) = 4 * (sin ((a - b) / 2) * sin ((a - b) / 2))).
  { pose proof (sin2_cos2 a) as Ha. pose proof (sin2_cos2 b) as Hb. unfold Rsqr in *.
    pose proof (cos_minus a b) as Hc. pose proof (cos_2a_sin ((a - b) / 2)) as Hs. replace (2 * ((a - b) / 2)) with (a - b) in Hs by field. nra. }
  rewrite E. pose proof (Rabs_sin_le ((a - b) / 2)) as P. pose proof (Rabs_pos (sin ((a - b) / 2))).
  replace (Rabs (a - b)) with (2 * Rabs ((a - b) / 2)).
  2:{ unfold Rdiv. rewrite Rabs_mult, (Rabs_pos_eq (/ 2)) by lra. field. }
  assert (Q : sin ((a - b) / 2) * sin ((a - b) / 2) = Rabs (sin ((a - b) / 2)) * Rabs (sin ((a - b) / 2))) by (rewrite <- Rabs_mult, Rabs_pos_eq; [reflexivity|nra]).
  rewrite Q. nra.
Qed.
(* correctly rounded sin and cos of an approximate angle *)
Lemma expi_err t a e : Rabs (t - a) <= e -> Cabs (expi (F := flx) t -c cis a) <= uu + e.
Proof.
  intros H. unfold expi. cbn [fsin_cos flx]. pose proof uu_pos.
  replace (mkcx (rnd (cos t)) (rnd (sin t)) -c cis a) with ((mkcx (rnd (cos t)) (rnd (sin t)) -c cis t) +c (cis t -c cis a)) by ring.
  eapply Rle_trans; [apply Cabs_tri|]. apply Rplus_le_compat; [|eapply Rle_trans; [apply chord|exact H]].
  apply (@Cabs_comp _ (uu * Rabs (cos t)) (uu * Rabs (sin t))); [apply rnd_err|apply rnd_err|lra|].
  pose proof (sin2_cos2 t) as Q. unfold Rsqr in Q.
  assert (E : forall z, Rabs z * Rabs z = z * z) by (intros; rewrite <- Rabs_mult; apply Rabs_pos_eq; nra).
  replace (uu * Rabs (cos t) * (uu * Rabs (cos t)) + uu * Rabs (sin t) * (uu * Rabs (sin t)))
    with (uu * uu * (Rabs (cos t) * Rabs (cos t) + Rabs (sin t) * Rabs (sin t))) by ring.
  rewrite !E. right. rewrite Rplus_comm, Q. ring.
Qed.
(* accumulated relative error of a chain of operations *)
Lemma chain q x xh y : Rabs (xh - x) <= (q - 1) * Rabs x -> Rabs (y - xh) <= uu * Rabs xh -> Rabs (y - x) <= (q * (1 + uu) - 1) * Rabs x.
Proof.
  intros H1 H2. pose proof uu_pos. pose proof (@Rabs_le_sum _ _ _ H1) as H3. pose proof (@near_trans_abs y xh x _ H2). pose proof (Rabs_pos xh). nra.
Qed.
Lemma mul_chain q x xh k : Rabs (xh - x) <= (q - 1) * Rabs x -> Rabs (k * xh - k * x) <= (q - 1) * Rabs (k * x).
Proof. intros H. replace (k * xh - k * x) with (k * (xh - x)) by ring. rewrite !Rabs_mult. pose proof (Rabs_pos k). nra. Qed.
Lemma div_chain q x xh k : k <> 0 -> Rabs (xh - x) <= (q - 1) * Rabs x -> Rabs (xh / k - x / k) <= (q - 1) * Rabs (x / k).
Proof. intros _ H. unfold Rdiv. rewrite !(Rmult_comm _ (/ k)). apply mul_chain. exact H. Qed.
Lemma one_chain x : Rabs (rnd x - x) <= ((1 + uu) - 1) * Rabs x.
Proof. replace (1 + uu - 1) with uu by ring. apply rnd_err. Qed.
Lemma cube_small : (1 + uu) * (1 + uu) * (1 + uu) - 1 <= 4 * uu.
Proof. pose proof uu_pos. pose proof uu_small. nra. Qed.

Lemma step_err n : (32 <= n)%nat -> is_pow2 n = true -> Cabs (expi (F := flx) (tw_angle flx n) -c W n 1) <= 2 * uu.
Proof.
  intros Hn Hp. assert (HnR : 32 <= INR n). { replace 32 with (INR 32) by (cbn; lra). apply le_INR. exact Hn. }
  replace (2 * uu) with (uu + uu) by ring. unfold W. apply expi_err. unfold tw_angle. rewrite fofnat_pow2 by exact Hp. rewrite flit_2.
  cbn [fneg fmul fdiv fpi flx]. pose proof uu_pos.
  pose proof (@chain _ _ _ _ (@mul_chain _ _ _ (- (2)) (one_chain PI)) (rnd_err (- (2) * rnd PI))) as P1.
  pose proof (@chain _ _ _ _ (@div_chain _ _ _ (INR n) ltac:(lra) P1) (rnd_err (rnd (- (2) * rnd PI) / INR n))) as P2.
  replace (- (2 * PI * INR 1 / INR n)) with (- (2) * PI / INR n) by (cbn [INR]; field; lra).
  eapply Rle_trans; [exact P2|].
  assert (A : Rabs (- (2) * PI / INR n) <= / 4).
  { pose proof PI_RGT_0. pose proof PI_4. unfold Rdiv. rewrite !Rabs_mult, Rabs_Ropp, (Rabs_pos_eq 2), (Rabs_pos_eq PI), (Rabs_pos_eq (/ INR n)) by (try lra; left; apply Rinv_0_lt_compat; lra).
    apply Rmult_le_reg_r with (INR n); [lra|]. rewrite Rmult_assoc, Rinv_l, Rmult_1_r by lra. lra. }
  pose proof cube_small. pose proof (Rabs_pos (- (2) * PI / INR n)). nra.
Qed.

(* small powers *)
Lemma pow_linear a m : 0 <= a -> 2 * (INR m * a) <= 1 -> (1 + a) ^ m <= 1 + 2 * (INR m * a).
Proof.
  intros Ha. induction m as [|m IH]; intros H; cbn [pow]; [cbn [INR]; lra|].
  rewrite S_INR in *. pose proof (pos_INR m). specialize (IH ltac:(nra)).
  assert (0 <= INR m * a) by nra.
  apply Rle_trans with ((1 + a) * (1 + 2 * (INR m * a))); [apply Rmult_le_compat_l; lra|]. nra.
Qed.
Definition dd (n : nat) : R := 5.1 * INR n * uu.
Lemma gam_small : gam uu <= 3.01 * uu.
Proof. unfold gam. pose proof uu_pos. pose proof uu_small. nra. Qed.
Lemma twid_rec n k : (32 <= n)%nat -> is_pow2 n = true -> 5.1 * INR n * uu <= 1 -> (k < n / 2)%nat ->
  Cabs (at_ (tw_table (F := flx) n) k -c W n k) <= dd n.
Proof.
  intros Hn Hp Hb Hk.
  pose proof uu_pos. pose proof uu_small. pose proof gam_small. pose proof (gam_pos flx_rounded).
  eapply Rle_trans; [apply (@tw_table_near flx uu flx_rounded n (2 * uu) k); [lra|apply step_err; assumption|exact Hk]|].
  assert (S1 : (1 + 2 * uu) * (1 + gam uu) <= 1 + 5.1 * uu) by nra.
  assert (G1 : 1 <= (1 + 2 * uu) * (1 + gam uu)) by nra.
  assert (Hn2 : 2 * INR (n / 2) <= INR n).
  { replace 2 with (INR 2) by (cbn; lra). rewrite <- mult_INR. apply le_INR. apply Nat.mul_div_le. lia. }
  pose proof (pos_INR (n / 2)).
  assert (P : (1 + 5.1 * uu) ^ (n / 2) <= 1 + 2 * (INR (n / 2) * (5.1 * uu))) by (apply pow_linear; nra).
  assert (P2 : ((1 + 2 * uu) * (1 + gam uu)) ^ k <= (1 + 5.1 * uu) ^ (n / 2)).
  { apply Rle_trans with (((1 + 2 * uu) * (1 + gam uu)) ^ (n / 2)); [apply Rle_pow; [exact G1|lia]|]. apply pow_incr. lra. }
  unfold dd. nra.
Qed.

(* a printed table: every entry is accurate to 20 u, independently of n *)
Definition printable : Prop := prec = 24%Z \/ prec = 53%Z.
Lemma print_read_err x : printable -> Rabs x <= 1.01 -> Rabs (print_read x - x) <= 1.475 * uu.
Proof.
  intros HP Hx. unfold print_read. pose proof uu_pos as Hu. pose proof uu_small as Hs.
  set (D := IZR (10 ^ decimals)).
  assert (HD : / 2 / D <= 0.46 * uu /\ 0 < D).
  { unfold D, decimals, uu. destruct HP as [-> | ->]; cbn [Z.leb Z.compare Pos.compare Pos.compare_cont].
    - change (bpow radix2 (- (24))) with (/ 16777216). split; [|apply IZR_lt; reflexivity]. change (10 ^ 10)%Z with 10000000000%Z. lra.
    - rewrite bpow_opp. change (bpow radix2 53) with 9007199254740992. split; [|apply IZR_lt; reflexivity]. change (10 ^ 16)%Z with 10000000000000000%Z. lra. }
  destruct HD as [H1 H2]. set (y := IZR (ZnearestE (x * D)) / D).
  assert (Hy : Rabs (y - x) <= 0.46 * uu).
  { eapply Rle_trans; [|exact H1]. pose proof (Znearest_half (fun t => negb (Z.even t)) (x * D)) as P.
    unfold y. replace (IZR (ZnearestE (x * D)) / D - x) with (- (x * D - IZR (ZnearestE (x * D))) / D) by (field; lra).
    unfold Rdiv. rewrite Rabs_mult, Rabs_Ropp, (Rabs_pos_eq (/ D)) by (left; apply Rinv_0_lt_compat; exact H2).
    apply Rmult_le_compat_r; [left; apply Rinv_0_lt_compat; exact H2|]. exact P. }
  pose proof (rnd_err y) as P. pose proof (@Rabs_le_sum _ _ _ Hy) as Q. pose proof (@near_trans_abs _ _ x _ P).
  assert (uu * Rabs y <= uu * (1.01 + 0.46 * uu)) by (apply Rmult_le_compat_l; lra). nra.
Qed.
Lemma twid_pre n k : printable -> (32 <= n)%nat -> is_pow2 n = true -> INR n <= 1024 -> (k < n / 2)%nat ->
  Cabs (at_ (pre_table (F := flx) n) k -c W n k) <= 20 * uu.
Proof.
  intros HP Hn Hp Hb Hk. assert (HnR : 32 <= INR n). { replace 32 with (INR 32) by (cbn; lra). apply le_INR. exact Hn. }
  pose proof uu_pos as Hu. pose proof uu_small as Hs.
  assert (Hk2 : 2 * INR k <= INR n).
  { replace 2 with (INR 2) by (cbn; lra). rewrite <- mult_INR. apply le_INR. pose proof (Nat.mul_div_le n 2 ltac:(lia)). lia. }
  unfold pre_table. rewrite at_tab by exact Hk. cbv zeta. rewrite (@fofnat_pow2 n Hp), flit_2. cbn [fneg fmul fdiv fpi fofnat fcos fsin freparse flx].
  rewrite r24_INR by (pose proof (pos_INR k); lra).
  pose proof (@chain _ _ _ _ (@mul_chain _ _ _ (- (2)) (one_chain PI)) (rnd_err (- (2) * rnd PI))) as P1.
  pose proof (@chain _ _ _ _ (@mul_chain _ _ _ (INR k) P1) (rnd_err (INR k * rnd (- (2) * rnd PI)))) as P2.
  pose proof (@chain _ _ _ _ (@div_chain _ _ _ (INR n) ltac:(lra) P2) (rnd_err (rnd (INR k * rnd (- (2) * rnd PI)) / INR n))) as P3.
  rewrite (Rmult_comm (rnd (- (2) * rnd PI)) (INR k)).
  set (t := rnd (rnd (INR k * rnd (- (2) * rnd PI)) / INR n)) in *. unfold W.
  replace (INR k * (- (2) * PI) / INR n) with (- (2 * PI * INR k / INR n)) in P3 by (field; lra).
  set (a := - (2 * PI * INR k / INR n)) in *.
  assert (A : Rabs a <= 4).
  { unfold a. rewrite Rabs_Ropp. pose proof PI_RGT_0. pose proof PI_4. pose proof (pos_INR k).
    assert (0 < / INR n) by (apply Rinv_0_lt_compat; lra). rewrite Rabs_pos_eq by (unfold Rdiv; apply Rmult_le_pos; [nra|lra]).
    apply Rmult_le_reg_r with (INR n); [lra|]. unfold Rdiv. rewrite Rmult_assoc, Rinv_l, Rmult_1_r by lra. nra. }
  assert (Ht : Rabs (t - a) <= 16.1 * uu).
  { eapply Rle_trans; [exact P3|]. assert (Q : (1 + uu) * (1 + uu) * (1 + uu) * (1 + uu) - 1 <= 4.01 * uu) by nra. pose proof (Rabs_pos a). nra. }
  assert (comp : forall v, Rabs v <= 1 -> Rabs (print_read (rnd v) - v) <= 2.476 * uu).
  { intros v Hv. pose proof (rnd_err v) as E1. pose proof (@Rabs_le_sum _ _ _ E1) as E2.
    assert (E3 : uu * Rabs v <= uu) by (rewrite <- (Rmult_1_r uu) at 2; apply Rmult_le_compat_l; lra).
    pose proof (@print_read_err (rnd v) HP ltac:(lra)) as E4. pose proof (@near_trans_abs _ _ v _ E4). lra. }
  replace (mkcx (print_read (rnd (cos t))) (print_read (rnd (sin t))) -c cis a)
    with ((mkcx (print_read (rnd (cos t))) (print_read (rnd (sin t))) -c cis t) +c (cis t -c cis a)) by ring.
  eapply Rle_trans; [apply Cabs_tri|]. apply Rle_trans with (3.51 * uu + 16.1 * uu); [|lra].
  apply Rplus_le_compat; [|eapply Rle_trans; [apply chord|exact Ht]].
  apply (@Cabs_comp _ (2.476 * uu) (2.476 * uu)); [apply comp|apply comp|lra|nra].
  - change (Rabs (cos t) <= 1). pose proof (COS_bound t). apply Rabs_le. lra.
  - change (Rabs (sin t) <= 1). pose proof (SIN_bound t). apply Rabs_le. lra.
Qed.
Lemma pre_size_bound n : existsb (Nat.eqb n) pre_sizes = true -> INR n <= 1024.
Proof.
  intros H. apply existsb_exists in H. destruct H as (k & Hk & E). apply Nat.eqb_eq in E. subst k.
  replace 1024 with (INR 1024) by (rewrite INR_IZR_INZ; reflexivity). apply le_INR. unfold pre_sizes in Hk. cbn [In] in Hk. lia.
Qed.
Lemma twid_err c n : c_precomp c = false \/ printable -> (32 <= n)%nat -> is_pow2 n = true -> 5.1 * INR n * uu <= 1 -> tw_ok flx c (dd n) n.
Proof.
  intros Hc Hn Hp Hb k Hk. assert (HnR : 32 <= INR n). { replace 32 with (INR 32) by (cbn; lra). apply le_INR. exact Hn. }
  unfold twf, lookup_pre. destruct (c_precomp c && _ && existsb (Nat.eqb n) pre_sizes)%bool eqn:E; [|apply twid_rec; assumption].
  apply andb_prop in E. destruct E as [E1 E2]. apply andb_prop in E1. destruct E1 as [E1 _].
  destruct Hc as [Hc|Hc]; [congruence|]. eapply Rle_trans; [apply twid_pre; try assumption; apply pre_size_bound; exact E2|].
  unfold dd. pose proof uu_pos. nra.
Qed.
Lemma QQ_small n : (32 <= n)%nat -> 5.1 * INR n * uu <= / 2 -> QQ uu (dd n) <= 1 + 5.4 * INR n * uu.
Proof.
  intros Hn Hb. assert (HnR : 32 <= INR n). { replace 32 with (INR 32) by (cbn; lra). apply le_INR. exact Hn. }
  pose proof uu_pos. pose proof uu_small. pose proof gam_small. pose proof (gam_pos flx_rounded). unfold QQ.
  assert (A : (1 + gam uu) * (1 + uu) <= 1 + 4.1 * uu) by nra.
  assert (B : 0 <= dd n <= / 2) by (unfold dd; nra).
  apply Rle_trans with ((1 + dd n) * (1 + 4.1 * uu)); [rewrite Rmult_assoc; apply Rmult_le_compat_l; lra|].
  unfold dd in *. nra.
Qed.

(* ---------- integers, chirp ---------- *)
Lemma rnd_INR n : INR n <= bpow radix2 prec -> rnd (INR n) = INR n.
Proof.
  intros H. unfold rnd. destruct (Rle_lt_or_eq_dec _ _ H) as [L|E].
  - apply round_generic; [typeclasses eauto|]. apply generic_format_FLX. exists (Flocq.Core.Defs.Float radix2 (Z.of_nat n) 0).
    + unfold F2R. cbn [Fnum Fexp]. rewrite <- INR_IZR_INZ. cbn. ring.
    + cbn [Fnum]. rewrite Z.abs_eq by lia. apply lt_IZR. rewrite <- INR_IZR_INZ. rewrite IZR_Zpower by lia. exact L.
  - rewrite E. apply rnd_bpow.
Qed.
Lemma quint_small : (1 + uu) * (1 + uu) * (1 + uu) * (1 + uu) - 1 <= 5 * uu.
Proof. pose proof uu_pos. pose proof uu_small. nra. Qed.
Lemma chirp_angle n i : (0 < n)%nat -> (i < n)%nat -> INR n <= bpow radix2 prec -> prec = 24%Z \/ INR n <= 4096 -> INR n <= 16777216 ->
  Rabs (blue_angle (F := flx) n i - PI * (INR i * INR i) / INR n) <= 20 * INR n * uu.
Proof.
  intros Hn Hi Hb Hf H24. assert (HnR : 0 < INR n) by (apply lt_0_INR; exact Hn). unfold blue_angle. cbn [fdiv fmul fpi fofnat flx]. rewrite (@r24_INR n H24).
  pose proof uu_pos as Hu.
  assert (Er : r24 (INR (i * i)) = rnd (INR (i * i))).
  { destruct Hf as [E|Hf]; [unfold r24, rnd; rewrite E; reflexivity|].
    assert (B : INR (i * i) <= 16777216).
    { rewrite mult_INR. assert (0 <= INR i <= INR n) by (split; [apply pos_INR|apply le_INR; lia]). nra. }
    rewrite r24_INR by exact B. symmetry. apply rnd_INR. eapply Rle_trans; [exact B|]. change 16777216 with (bpow radix2 24). apply bpow_le. exact Hprec. }
  rewrite Er. set (k := INR (i * i)).
  assert (Hk : k = INR i * INR i) by apply mult_INR.
  assert (P0 : Rabs (rnd PI * k - PI * k) <= ((1 + uu) - 1) * Rabs (PI * k)).
  { rewrite (Rmult_comm _ k), (Rmult_comm PI k). apply (@mul_chain (1 + uu)). apply one_chain. }
  assert (P1 : Rabs (rnd PI * rnd k - PI * k) <= ((1 + uu) * (1 + uu) - 1) * Rabs (PI * k)).
  { eapply chain; [exact P0|]. replace (rnd PI * rnd k - rnd PI * k) with (rnd PI * (rnd k - k)) by ring. rewrite !Rabs_mult.
    pose proof (rnd_err k). pose proof (Rabs_pos (rnd PI)). nra. }
  pose proof (@chain _ _ _ _ P1 (rnd_err (rnd PI * rnd k))) as P2.
  pose proof (@chain _ _ _ _ (@div_chain _ _ _ (INR n) ltac:(lra) P2) (rnd_err (rnd (rnd PI * rnd k) / INR n))) as P3.
  rewrite Hk in *. eapply Rle_trans; [exact P3|].
  assert (A : Rabs (PI * (INR i * INR i) / INR n) <= 4 * INR n).
  { assert (0 <= INR i <= INR n) by (split; [apply pos_INR|apply le_INR; lia]). pose proof PI_RGT_0. pose proof PI_4.
    assert (0 <= INR i * INR i <= INR n * INR n) by nra.
    assert (0 < / INR n) by (apply Rinv_0_lt_compat; exact HnR).
    rewrite Rabs_pos_eq by (unfold Rdiv; apply Rmult_le_pos; [nra|lra]).
    apply Rmult_le_reg_r with (INR n); [lra|]. unfold Rdiv. rewrite Rmult_assoc, Rinv_l, Rmult_1_r by lra. nra. }
  pose proof quint_small. pose proof (Rabs_pos (PI * (INR i * INR i) / INR n)). nra.
Qed.
Lemma flx_chirp n : (17 <= n)%nat -> INR n <= bpow radix2 prec -> prec = 24%Z \/ INR n <= 4096 -> INR n <= 16777216 -> chirp_ok flx n (21 * INR n * uu).
Proof.
  intros Hn Hb Hf H24 i Hi. assert (HnR : 17 <= INR n). { replace 17 with (INR 17) by (rewrite INR_IZR_INZ; reflexivity). apply le_INR. exact Hn. }
  pose proof (@chirp_angle n i ltac:(lia) Hi Hb Hf H24) as P. pose proof uu_pos.
  split.
  - eapply Rle_trans; [apply expi_err; exact P|]. nra.
  - eapply Rle_trans; [apply expi_err|].
    + cbn [fneg flx]. replace (- blue_angle n i - - (PI * (INR i * INR i) / INR n)) with (- (blue_angle (F := flx) n i - PI * (INR i * INR i) / INR n)) by ring.
      rewrite Rabs_Ropp. exact P.
    + nra.
Qed.
(* the angles actually used: i*i as an f32 *)
Definition th24 (n i : nat) : R := PI * r24 (INR (i * i)) / INR n.
Lemma chirp_angle_any n i : (0 < n)%nat -> (i < n)%nat -> INR n <= 16777216 -> Rabs (blue_angle (F := flx) n i - th24 n i) <= 13 * INR n * uu.
Proof.
  intros Hn Hi H24. assert (HnR : 0 < INR n) by (apply lt_0_INR; exact Hn). unfold blue_angle, th24. cbn [fdiv fmul fpi fofnat flx]. rewrite (@r24_INR n H24).
  pose proof uu_pos as Hu. pose proof uu_small as Hs. set (k := INR (i * i)). set (K := r24 k).
  assert (P0 : Rabs (rnd PI * K - PI * K) <= ((1 + uu) - 1) * Rabs (PI * K)).
  { rewrite (Rmult_comm _ K), (Rmult_comm PI K). apply (@mul_chain (1 + uu)). apply one_chain. }
  pose proof (@chain _ _ _ _ P0 (rnd_err (rnd PI * K))) as P2.
  pose proof (@chain _ _ _ _ (@div_chain _ _ _ (INR n) ltac:(lra) P2) (rnd_err (rnd (rnd PI * K) / INR n))) as P3.
  eapply Rle_trans; [exact P3|].
  assert (A : Rabs (PI * K / INR n) <= 4.01 * INR n).
  { assert (B : 0 <= INR i <= INR n) by (split; [apply pos_INR|apply le_INR; lia]). pose proof PI_RGT_0. pose proof PI_4.
    assert (Hk : 0 <= k <= INR n * INR n) by (unfold k; rewrite mult_INR; nra).
    pose proof (r24_err k) as R. rewrite (Rabs_pos_eq k) in R by lra. fold K in R.
    assert (HK : Rabs K <= 1.0001 * (INR n * INR n)). { pose proof (@Rabs_le_sum _ _ _ R) as Q. rewrite (Rabs_pos_eq k) in Q by lra. lra. }
    assert (0 < / INR n) by (apply Rinv_0_lt_compat; exact HnR).
    unfold Rdiv. rewrite !Rabs_mult, (Rabs_pos_eq PI), (Rabs_pos_eq (/ INR n)) by lra.
    apply Rmult_le_reg_r with (INR n); [lra|]. rewrite Rmult_assoc, Rinv_l, Rmult_1_r by lra.
    apply Rle_trans with (4 * (1.0001 * (INR n * INR n))); [apply Rmult_le_compat; try lra; apply Rabs_pos|nra]. }
  assert (C3 : (1 + uu) * (1 + uu) * (1 + uu) - 1 <= 3.01 * uu) by nra.
  pose proof (Rabs_pos (PI * K / INR n)). nra.
Qed.
Lemma flx_chirp_any n : (17 <= n)%nat -> INR n <= 16777216 -> chirp_at flx (th24 n) n (14 * INR n * uu).
Proof.
  intros Hn H24 i Hi. assert (HnR : 17 <= INR n). { replace 17 with (INR 17) by (rewrite INR_IZR_INZ; reflexivity). apply le_INR. exact Hn. }
  pose proof (@chirp_angle_any n i ltac:(lia) Hi H24) as P. pose proof uu_pos.
  split.
  - eapply Rle_trans; [apply expi_err; exact P|]. nra.
  - eapply Rle_trans; [apply expi_err|].
    + cbn [fneg flx]. replace (- blue_angle n i - - th24 n i) with (- (blue_angle (F := flx) n i - th24 n i)) by ring.
      rewrite Rabs_Ropp. exact P.
    + nra.
Qed.
End Flx.
Lemma rounded_mono G u v : u <= v -> rounded G u -> rounded G v.
Proof.
  intros H [r0 r1 r2 r3 r4 r5 r6 r7 r8].
  assert (M : forall a x, Rabs a <= u * Rabs x -> Rabs a <= v * Rabs x) by (intros a x Ha; pose proof (Rabs_pos x); nra).
  split; intros; auto. lra.
Qed.
Lemma uu_24 prec : (24 <= prec)%Z -> uu prec <= uu 24.
Proof. intros H. apply bpow_le. lia. Qed.
(* the chirp against the exact one: f32 accuracy *)
Lemma flx_chirp24 prec n : (24 <= prec)%Z -> (17 <= n)%nat -> INR n <= 16777216 -> chirp_ok (flx prec) n (21 * INR n * uu 24).
Proof.
  intros Hprec Hn H24 i Hi. assert (HnR : 17 <= INR n). { replace 17 with (INR 17) by (rewrite INR_IZR_INZ; reflexivity). apply le_INR. exact Hn. }
  pose proof (uu_24 Hprec) as U. pose proof (uu_pos prec) as Hu. pose proof (uu_pos 24) as Hu24.
  set (a := PI * (INR i * INR i) / INR n).
  assert (P : Rabs (blue_angle (F := flx prec) n i - a) <= 20.9 * INR n * uu 24 - uu prec).
  { pose proof (@chirp_angle_any prec Hprec n i ltac:(lia) Hi H24) as P1. set (w := blue_angle (F := flx prec) n i) in *.
    pose proof (r24_err (INR (i * i))) as R. change (/ 16777216) with (uu 24) in R.
    assert (P2 : Rabs (th24 n i - a) <= 4 * INR n * uu 24).
    { unfold th24, a. rewrite <- mult_INR. set (k := INR (i * i)) in *.
      replace (PI * r24 k / INR n - PI * k / INR n) with (PI * (r24 k - k) * / INR n) by (field; lra).
      assert (0 < / INR n) by (apply Rinv_0_lt_compat; lra). pose proof PI_RGT_0.
      rewrite !Rabs_mult, (Rabs_pos_eq PI), (Rabs_pos_eq (/ INR n)) by lra.
      apply Rmult_le_reg_r with (INR n); [lra|]. rewrite Rmult_assoc, Rinv_l, Rmult_1_r by lra.
      assert (Hk : 0 <= k <= INR n * INR n).
      { unfold k. rewrite mult_INR. assert (0 <= INR i <= INR n) by (split; [apply pos_INR|apply le_INR; lia]). nra. }
      rewrite (Rabs_pos_eq k) in R by lra.
      apply Rle_trans with (4 * (uu 24 * (INR n * INR n))); [|right; ring].
      pose proof PI_4. apply Rmult_le_compat; try lra; [apply Rabs_pos|]. eapply Rle_trans; [exact R|]. apply Rmult_le_compat_l; lra. }
    replace (w - a) with ((w - th24 n i) + (th24 n i - a)) by ring. eapply Rle_trans; [apply Rabs_triang|]. nra. }
  split.
  - eapply Rle_trans; [apply (@expi_err prec Hprec); exact P|]. nra.
  - eapply Rle_trans; [apply (@expi_err prec Hprec)|].
    + cbn [fneg flx]. fold a. replace (- blue_angle n i - - a) with (- (blue_angle (F := flx prec) n i - a)) by ring. rewrite Rabs_Ropp. exact P.
    + nra.
Qed.
Lemma pre_size_in c n (H1 : c_precomp c = true) (H2 : c_kind c <> OtherT) (Hp : is_pow2 n = true) (H3 : (32 <= n)%nat) (H4 : (n <= 1024)%nat) (G : Float R) :
  lookup_pre (F := G) c n = Some (pre_table (F := G) n).
Proof.
  unfold lookup_pre. rewrite H1. assert (E : match c_kind c with OtherT => false | _ => true end = true) by (destruct (c_kind c); [reflexivity|reflexivity|congruence]).
  rewrite E. assert (EX : existsb (Nat.eqb n) pre_sizes = true).
  { apply is_pow2_iff in Hp. destruct Hp as [L ->]. assert (HL : (L <= 10)%nat).
    { destruct (Nat.le_gt_cases L 10) as [H|H]; [exact H|]. assert (2 ^ 11 <= 2 ^ L)%nat by (apply Nat.pow_le_mono_r; lia). change (2 ^ 11)%nat with 2048%nat in *. lia. }
    do 11 (destruct L as [|L]; [try (exfalso; cbn in H3; lia); vm_compute; reflexivity|]). lia. }
  rewrite EX. reflexivity.
Qed.

(* the literals, as f32 numbers, against the cosines they stand for *)
Lemma near_sq a s t : 0 <= a - t -> 0 <= s -> 0 <= t -> (a - t) * (a - t) <= s * s <= (a + t) * (a + t) -> Rabs (a - s) <= t.
Proof.
  intros H1 H2 H3 [H4 H5]. apply le_sq in H4; [|exact H2]. apply le_sq in H5; [|lra]. unfold Rabs. destruct (Rcase_abs _); lra.
Qed.
Lemma cos4_pos : 0 <= cos (PI / 4).
Proof. pose proof PI_RGT_0. apply cos_ge_0; lra. Qed.
Lemma cos8_pos : 0 <= cos (PI / 8).
Proof. pose proof PI_RGT_0. apply cos_ge_0; lra. Qed.
Lemma sin8_pos : 0 <= sin (PI / 8).
Proof. pose proof PI_RGT_0. apply sin_ge_0; lra. Qed.
Lemma cos4_lit : Rabs (11863283 / 16777216 - cos (PI / 4)) <= 13 / 1000000000.
Proof. pose proof cos_PI4_sq. apply near_sq; [lra|apply cos4_pos|lra|]. lra. Qed.
Lemma cos4_gap : 11863283 / 16777216 + 12 / 1000000000 <= cos (PI / 4).
Proof. pose proof cos_PI4_sq. apply le_sq; [apply cos4_pos|]. lra. Qed.
Lemma cos8_sq : 2 * (cos (PI / 8) * cos (PI / 8)) = 1 + cos (PI / 4).
Proof. pose proof (cos_2a_cos (PI / 8)) as H. replace (2 * (PI / 8)) with (PI / 4) in H by field. lra. Qed.
Lemma sin8_sq : 2 * (sin (PI / 8) * sin (PI / 8)) = 1 - cos (PI / 4).
Proof. pose proof (cos_2a_sin (PI / 8)) as H. replace (2 * (PI / 8)) with (PI / 4) in H by field. lra. Qed.
Lemma cos4_bounds : 11863283 / 16777216 - 13 / 1000000000 <= cos (PI / 4) <= 11863283 / 16777216 + 13 / 1000000000.
Proof. pose proof cos4_lit as H. unfold Rabs in H. destruct (Rcase_abs _); lra. Qed.
Lemma cos8_lit : Rabs (15500126 / 16777216 - cos (PI / 8)) <= 5 / 100000000.
Proof. pose proof cos8_sq. pose proof cos4_bounds. apply near_sq; [lra|apply cos8_pos|lra|]. lra. Qed.
Lemma sin8_lit : Rabs (12840725 / 33554432 - sin (PI / 8)) <= 5 / 100000000.
Proof. pose proof sin8_sq. pose proof cos4_bounds. apply near_sq; [lra|apply sin8_pos|lra|]. lra. Qed.

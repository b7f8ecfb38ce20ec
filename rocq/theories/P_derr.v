(* Property C105: rounding errors of the chirp-z transform and of the analytic signal. *)
From Coq Require Import Reals Lra Lia ZArith.
From Flocq Require Import Core.
From Verif Require Import M_cep L_trig P_trig P_det P_cep L_err L_rerr L_flx L_l2 P_fft P_err P_l2.
Set Implicit Arguments.
Open Scope R_scope.

(* ---------- specification ---------- *)
(* the chirp-z sum at w^k / a, b being 1 / a, and the sum of the moduli of its terms *)
Definition zsum (x : list R) (w b : C) (k : nat) : C := csum (length x) (fun j => RtoC (nth j x 0) *c Cpow b j *c Cpow w (j * k)).
Definition zsize (x : list R) (w b : C) (k : nat) : R := rsum (length x) (fun j => Rabs (nth j x 0) * Cabs b ^ j * Cabs w ^ (j * k)).
(* relative error of the computed reciprocal of a *)
Definition inv_rel (u : R) : R := (1 + u) / (2 - (1 + u) ^ 2) - 1.
(* z is the analytic signal of x: the positive frequencies doubled, the negative ones removed *)
Definition analytic (x : list R) (z : list C) : Prop := length z = length x /\
  forall k, (k < length x)%nat -> dft (length x) (at_ z) k =
    let X := dft (length x) (fun j => RtoC (nth j x 0)) k in
    if (k =? 0)%nat then X else if (2 * k <? length x)%nat then RtoC 2 *c X else if (2 * k =? length x)%nat then X else C0.

(* ---------- proofs: chirp-z ---------- *)
Lemma Cabs_pow z k : Cabs (Cpow z k) = Cabs z ^ k.
Proof. induction k as [|k IH]; cbn [Cpow pow]; [change C1 with (RtoC 1); rewrite Cabs_R; apply Rabs_R1|]. rewrite Cabs_mul, IH. ring. Qed.
Section Czt.
Variables (G : Float R) (u : R).
Hypothesis HG : rounded G u.
Local Notation g := (1 + gam u).
Lemma pmul_ok : mul_ok u (pmul (F := G)).
Proof. intros a b. exact (cmul_plain_err HG a b). Qed.
Lemma g_ge1 : 1 <= g. Proof. pose proof (gam_pos HG). lra. Qed.
Lemma near_one : near 1 1 C1 (cone (F := G)).
Proof.
  replace (cone (F := G)) with C1 by (unfold cone, C1; rewrite (r_one HG), (r_zero HG); reflexivity). apply near_refl.
  change C1 with (RtoC 1). rewrite Cabs_R, Rabs_R1. lra.
Qed.
Lemma wk_near w k : near (g ^ k) (Cabs w ^ k) (Cpow w k) (czt_wk (F := G) w k).
Proof.
  induction k as [|k IH]; cbn [czt_wk Cpow pow]; [exact near_one|].
  pose proof (near_mul HG pmul_ok IH (@near_refl (Cabs w) w (Rle_refl _))) as P. rewrite Rmult_1_r in P.
  eapply near_mono; [exact P|right; ring|right; ring].
Qed.
Lemma near_rscale q S z zh v : near q S z zh -> near (q * (1 + u)) (Rabs v * S) (RtoC v *c z) (mkcx (@fmul R G v (re zh)) (@fmul R G v (im zh))).
Proof.
  intros Hz. pose proof (near_pos Hz) as HS. pose proof (near_abs Hz) as Z3. destruct Hz as (Hq & Z1 & Z2). pose proof (u_pos HG) as Hu.
  pose proof (Rabs_pos v) as Hv. split; [nra|]. split; [rewrite Cabs_mul, Cabs_R; apply Rmult_le_compat_l; assumption|].
  set (y := mkcx _ _). assert (E1 : Cabs (y -c RtoC v *c zh) <= u * (Rabs v * Cabs zh)).
  { rewrite <- Cabs_R, <- Cabs_mul. set (t := RtoC v *c zh). pose proof (Cabs_nonneg t).
    apply (@Cabs_comp _ (u * Rabs (re t)) (u * Rabs (im t))).
    - unfold t, y. cbn [re im Csub Cmul RtoC]. replace (v * re zh - 0 * im zh) with (v * re zh) by ring. apply (r_mul HG).
    - unfold t, y. cbn [re im Csub Cmul RtoC]. replace (v * im zh + 0 * re zh) with (v * im zh) by ring. apply (r_mul HG).
    - nra.
    - replace (u * Cabs t * (u * Cabs t)) with (u * u * (Cabs t * Cabs t)) by ring. rewrite Cabs_sq. unfold Cnorm2.
      assert (E : forall z, Rabs z * Rabs z = z * z) by (intros; rewrite <- Rabs_mult; apply Rabs_pos_eq; nra).
      pose proof (E (re t)). pose proof (E (im t)). nra. }
  replace (y -c RtoC v *c z) with ((y -c RtoC v *c zh) +c RtoC v *c (zh -c z)) by ring.
  eapply Rle_trans; [apply Cabs_tri|]. rewrite (Cabs_mul (RtoC v)), Cabs_R.
  assert (u * (Rabs v * Cabs zh) <= u * (Rabs v * (q * S))) by (apply Rmult_le_compat_l; [exact Hu|apply Rmult_le_compat_l; assumption]).
  assert (Rabs v * Cabs (zh -c z) <= Rabs v * ((q - 1) * S)) by (apply Rmult_le_compat_l; assumption). nra.
Qed.
Lemma pow_le1 a i n : 1 <= a -> (i <= n)%nat -> a ^ i <= a ^ n.
Proof. intros. apply Rle_pow; assumption. Qed.
Lemma bin_near wk wkh ainv ainvh qw qa rw ra n : 1 <= qw -> 1 <= qa -> near qw rw wk wkh -> near qa ra ainv ainvh ->
  forall x i q S out outh wnk wnkh apow apowh,
  near ((qw * g) ^ i) (rw ^ i) wnk wnkh -> near ((qa * g) ^ i) (ra ^ i) apow apowh -> near q S out outh -> (i + length x <= n)%nat ->
  (qa * g) ^ (n - 1) * (qw * g) ^ (n - 1) * g * (1 + u) <= q ->
  near (q * (1 + u) ^ length x) (S + rsum (length x) (fun j => Rabs (nth j x 0) * ra ^ (i + j) * rw ^ (i + j)))
    (out +c csum (length x) (fun j => RtoC (nth j x 0) *c (apow *c Cpow ainv j) *c (wnk *c Cpow wk j)))
    (czt_bin (F := G) wkh ainvh x wnkh apowh outh).
Proof.
  intros Hqw Hqa Hw Ha. pose proof g_ge1 as g1. pose proof (u_pos HG) as U.
  induction x as [|v x IH]; intros i q S out outh wnk wnkh apow apowh Nw Na No Hl Hq; cbn [czt_bin length pow].
  - cbn [csum rsum]. rewrite Rmult_1_r, Rplus_0_r. replace (out +c C0) with out by ring. exact No.
  - cbn [length] in Hl. pose proof (near_mul HG pmul_ok Na Nw) as Nt. pose proof (near_rscale v Nt) as Nv.
    assert (Gw : 1 <= qw * g) by nra. assert (Ga : 1 <= qa * g) by nra.
    assert (Qt : (qa * g) ^ i * (qw * g) ^ i * g * (1 + u) <= q).
    { eapply Rle_trans; [|exact Hq]. apply Rmult_le_compat_r; [lra|]. apply Rmult_le_compat_r; [lra|].
      apply Rmult_le_compat; try (apply pow_le; lra); apply pow_le1; assumption || lia. }
    pose proof (near_add HG No (@near_mono _ _ _ _ _ _ Nv Qt (Rle_refl _))) as No'.
    pose proof (near_mul HG pmul_ok Nw Hw) as Nw'. pose proof (near_mul HG pmul_ok Na Ha) as Na'.
    assert (Hq' : (qa * g) ^ (n - 1) * (qw * g) ^ (n - 1) * g * (1 + u) <= q * (1 + u)).
    { pose proof (proj1 No). nra. }
    assert (Nw2 : near ((qw * g) ^ Datatypes.S i) (rw ^ Datatypes.S i) (wnk *c wk) (pmul (F := G) wnkh wkh)) by (eapply near_mono; [exact Nw'|right; cbn [pow]; ring|right; cbn [pow]; ring]).
    assert (Na2 : near ((qa * g) ^ Datatypes.S i) (ra ^ Datatypes.S i) (apow *c ainv) (pmul (F := G) apowh ainvh)) by (eapply near_mono; [exact Na'|right; cbn [pow]; ring|right; cbn [pow]; ring]).
    pose proof (IH _ _ _ _ _ _ _ _ _ Nw2 Na2 No' ltac:(lia) Hq') as R.
    replace (out +c csum (Datatypes.S (length x)) (fun j => RtoC (nth j (v :: x) 0) *c (apow *c Cpow ainv j) *c (wnk *c Cpow wk j)))
      with (out +c RtoC v *c (apow *c wnk) +c csum (length x) (fun j => RtoC (nth j x 0) *c (apow *c ainv *c Cpow ainv j) *c (wnk *c wk *c Cpow wk j))).
    + eapply near_mono; [exact R|right; ring|].
      right. rewrite rsum_S_l. cbn [nth]. rewrite Nat.add_0_r. rewrite (@rsum_ext (length x) (fun i0 => Rabs (nth i0 x 0) * ra ^ (i + Datatypes.S i0) * rw ^ (i + Datatypes.S i0))
         (fun j => Rabs (nth j x 0) * ra ^ (Datatypes.S i + j) * rw ^ (Datatypes.S i + j))) by (intros j _; replace (i + Datatypes.S j)%nat with (Datatypes.S i + j)%nat by lia; reflexivity). ring.
    + rewrite csum_S_l. cbn [nth Cpow]. rewrite (@csum_ext (length x) (fun i0 => RtoC (nth i0 x 0) *c (apow *c (Cpow ainv i0 *c ainv)) *c (wnk *c (Cpow wk i0 *c wk)))
        (fun j => RtoC (nth j x 0) *c (apow *c ainv *c Cpow ainv j) *c (wnk *c wk *c Cpow wk j))) by (intros j _; ring). ring.
Qed.
(* the reciprocal *)
Lemma ainv_near (X : FloatX R) a b : (1 + u) ^ 2 < 2 -> (forall p q, @feqb R X p q = true <-> p = q) -> a *c b = C1 ->
  let denom := @fadd R G (@fmul R G (re a) (re a)) (@fmul R G (im a) (im a)) in
  near (1 + inv_rel u) (Cabs b) b (mkcx (if @feqb R X denom (@fzero R G) then @fzero R G else @fdiv R G (re a) denom) (if @feqb R X denom (@fzero R G) then @fzero R G else @fdiv R G (@fneg R G (im a)) denom)).
Proof.
  intros Hu He Hab denom. pose proof (u_pos HG) as U. set (D := re a * re a + im a * im a).
  assert (D0 : 0 < D).
  { destruct (Req_dec (re a) 0) as [Ha|Ha]; [destruct (Req_dec (im a) 0) as [Hb|Hb]|]; try (unfold D; nra).
    apply (f_equal re) in Hab. cbn in Hab. rewrite Ha, Hb in Hab. lra. }
  assert (Eb : b = mkcx (re a / D) (- im a / D)).
  { set (i := mkcx _ _). assert (Hi : i *c a = C1) by (unfold D in *; creal; cbn [re im i]; field; lra).
    replace b with ((i *c a) *c b) by (rewrite Hi; ring). replace (i *c a *c b) with (i *c (a *c b)) by ring. rewrite Hab. ring. }
  assert (Hd : Rabs (denom - D) <= ((1 + u) ^ 2 - 1) * D).
  { pose proof (r_mul HG (re a) (re a)) as M1. pose proof (r_mul HG (im a) (im a)) as M2. rewrite (Rabs_pos_eq (re a * re a)) in M1 by nra. rewrite (Rabs_pos_eq (im a * im a)) in M2 by nra.
    pose proof (r_add HG (@fmul R G (re a) (re a)) (@fmul R G (im a) (im a))) as M3. fold denom in M3.
    set (p := @fmul R G (re a) (re a)) in *. set (q := @fmul R G (im a) (im a)) in *.
    assert (E : Rabs (p + q - D) <= u * D). { unfold D. replace (p + q - (re a * re a + im a * im a)) with ((p - re a * re a) + (q - im a * im a)) by ring. eapply Rle_trans; [apply Rabs_triang|]. lra. }
    pose proof (@near_trans_abs _ _ D _ M3) as K. pose proof (@Rabs_le_sum _ _ _ E) as L. rewrite (Rabs_pos_eq D) in L by lra. cbn [pow]. nra. }
  set (dl := (1 + u) ^ 2 - 1) in *. assert (dl0 : 0 <= dl) by (unfold dl; cbn [pow]; nra). assert (dl1 : dl < 1) by (unfold dl; lra).
  assert (HdL : (1 - dl) * D <= denom) by (apply Rabs_le_inv in Hd; lra). assert (Pd : 0 < denom) by nra.
  assert (Ef : @feqb R X denom (@fzero R G) = false).
  { destruct (@feqb R X denom (@fzero R G)) eqn:E; [|reflexivity]. apply He in E. rewrite (r_zero HG) in E. lra. }
  rewrite Ef, (r_neg HG).
  assert (Q1 : 0 <= inv_rel u). { unfold inv_rel. replace (2 - (1 + u) ^ 2) with (1 - dl) by (unfold dl; ring). apply Rle_trans with ((1 + u) / 1 - 1); [lra|]. apply Rplus_le_compat_r, Rmult_le_compat_l; [lra|]. apply Rinv_le_contravar; lra. }
  assert (CE : forall r, Rabs (@fdiv R G r denom - r / D) <= inv_rel u * Rabs (r / D)).
  { intros r. pose proof (r_div HG r (b := denom) ltac:(lra)) as M.
    assert (E1 : r / denom = r / D * (D / denom)) by (field; lra).
    assert (E2 : D / denom <= / (1 - dl)). { apply Rmult_le_reg_r with denom; [exact Pd|]. unfold Rdiv. rewrite Rmult_assoc, Rinv_l, Rmult_1_r by lra. apply Rmult_le_reg_l with (1 - dl); [lra|]. rewrite <- Rmult_assoc, Rinv_r by lra. lra. }
    assert (E3 : 0 <= D / denom) by (apply Rmult_le_pos; [lra|left; apply Rinv_0_lt_compat; exact Pd]).
    assert (E4 : Rabs (D / denom - 1) <= / (1 - dl) - 1).
    { apply Rabs_le. split; [|lra]. assert (HdU : denom <= (1 + dl) * D) by (apply Rabs_le_inv in Hd; lra).
      assert (1 / (1 + dl) <= D / denom). { apply Rmult_le_reg_r with denom; [exact Pd|]. unfold Rdiv at 2. rewrite Rmult_assoc, Rinv_l, Rmult_1_r by lra. apply Rmult_le_reg_l with (1 + dl); [lra|]. unfold Rdiv. rewrite Rmult_1_l, <- Rmult_assoc, Rinv_r by lra. lra. }
      assert (2 <= / (1 - dl) + 1 / (1 + dl)); [|lra]. replace (/ (1 - dl) + 1 / (1 + dl)) with (2 / (1 - dl * dl)) by (field; nra). apply Rmult_le_reg_r with (1 - dl * dl); [nra|]. unfold Rdiv. rewrite Rmult_assoc, Rinv_l by nra. nra. }
    pose proof (@near_trans_abs _ _ (r / D) _ M) as K. rewrite E1 in K. pose proof (Rabs_pos (r / D)) as P0.
    replace (r / D * (D / denom) - r / D) with (r / D * (D / denom - 1)) in K by ring. rewrite !Rabs_mult, (Rabs_pos_eq (D / denom)) in K by exact E3.
    unfold inv_rel. replace (2 - (1 + u) ^ 2) with (1 - dl) by (unfold dl; ring). change ((1 + u) / (1 - dl)) with ((1 + u) * / (1 - dl)).
    assert (u * (Rabs (r / D) * (D / denom)) <= u * (Rabs (r / D) * / (1 - dl))) by (apply Rmult_le_compat_l; [exact U|apply Rmult_le_compat_l; assumption]).
    assert (Rabs (r / D) * Rabs (D / denom - 1) <= Rabs (r / D) * (/ (1 - dl) - 1)) by (apply Rmult_le_compat_l; assumption). nra. }
  split; [lra|]. split; [lra|]. replace (1 + inv_rel u - 1) with (inv_rel u) by ring.
  apply (@Cabs_comp _ (inv_rel u * Rabs (re b)) (inv_rel u * Rabs (im b))).
  - rewrite Eb. cbn [re im Csub]. apply CE.
  - rewrite Eb. cbn [re im Csub]. apply CE.
  - apply Rmult_le_pos; [exact Q1|apply Cabs_nonneg].
  - replace (inv_rel u * Cabs b * (inv_rel u * Cabs b)) with (inv_rel u * inv_rel u * (Cabs b * Cabs b)) by ring. rewrite Cabs_sq. unfold Cnorm2.
    assert (E : forall z, Rabs z * Rabs z = z * z) by (intros; rewrite <- Rabs_mult; apply Rabs_pos_eq; nra).
    pose proof (E (re b)). pose proof (E (im b)). right. nra.
Qed.
End Czt.

(* ---------- theorems: chirp-z ---------- *)
Theorem C105_czt : forall (G : Float R) (X : FloatX R) (u : R) (x : list R) (m : nat) (w a b : C),
  rounded G u -> (1 + u) ^ 2 < 2 -> (forall p q, @feqb R X p q = true <-> p = q) -> a *c b = C1 ->
  length (czt (F := G) (X := X) x m w a) = m /\
  forall k, (k < m)%nat -> Cabs (at_ (czt (F := G) (X := X) x m w a) k -c zsum x w b k) <=
    ((1 + gam u) ^ ((k + 2) * length x) * (1 + inv_rel u) ^ length x * (1 + u) ^ (length x + 1) - 1) * zsize x w b k.
Proof.
  intros G X u x m w a b HG Hu He Hab. unfold czt. cbv zeta. split; [apply tab_length|]. intros k Hk. unfold at_. rewrite nth_tab by exact Hk.
  pose proof (@ainv_near G u HG X a b Hu He Hab) as Na. cbv zeta in Na. set (ah := mkcx _ _) in *. pose proof (@wk_near G u HG w k) as Nw. set (g := 1 + gam u) in *.
  assert (g1 : 1 <= g) by apply (@g_ge1 G u HG). pose proof (proj1 Na) as Qa. pose proof (proj1 Nw) as Qw. pose proof (u_pos HG) as U.
  set (n := length x). set (q0 := ((1 + inv_rel u) * g) ^ (n - 1) * (g ^ k * g) ^ (n - 1) * g * (1 + u)).
  assert (P1 : 1 <= (1 + inv_rel u) * g) by nra. assert (P2 : 1 <= g ^ k * g) by nra.
  pose proof (@pow_R1_Rle _ (n - 1) P1) as P3. pose proof (@pow_R1_Rle _ (n - 1) P2) as P4.
  assert (Q0 : 1 <= q0). { unfold q0. assert (1 <= ((1 + inv_rel u) * g) ^ (n - 1) * (g ^ k * g) ^ (n - 1)) by nra. set (t := _ * (g ^ k * g) ^ (n - 1)) in *. assert (1 <= t * g) by nra. nra. }
  assert (N0 : near q0 0 C0 (mkcx (@fzero R G) (@fzero R G))). { rewrite (r_zero HG). change (mkcx 0 0) with C0. apply near_0. exact Q0. }
  pose proof (@bin_near G u HG (Cpow w k) (czt_wk (F := G) w k) b ah (g ^ k) (1 + inv_rel u) (Cabs w ^ k) (Cabs b) n Qw Qa Nw Na x 0 q0 0 C0 (mkcx (@fzero R G) (@fzero R G)) C1 (cone (F := G)) C1 (cone (F := G))) as B.
  cbn [pow] in B. specialize (B (@near_one G u HG) (@near_one G u HG) N0 (Nat.le_refl n) (Rle_refl q0)). destruct B as (_ & _ & B).
  replace (zsum x w b k) with (C0 +c csum (length x) (fun j => RtoC (nth j x 0) *c (C1 *c Cpow b j) *c (C1 *c Cpow (Cpow w k) j))).
  - eapply Rle_trans; [exact B|]. fold n. assert (ES : 0 + rsum n (fun j => Rabs (nth j x 0) * Cabs b ^ (0 + j) * (Cabs w ^ k) ^ (0 + j)) = zsize x w b k).
    { rewrite Rplus_0_l. unfold zsize. fold n. apply rsum_ext. intros j _. cbn [Nat.add]. rewrite <- pow_mult, (Nat.mul_comm k j). reflexivity. }
    rewrite ES. destruct (Nat.eq_dec n 0) as [En|En].
    + unfold zsize. fold n. rewrite En. cbn [rsum]. lra.
    + apply Rmult_le_compat_r.
      * rewrite <- ES, Rplus_0_l. apply rsum_pos. intros j _. apply Rmult_le_pos; [apply Rmult_le_pos; [apply Rabs_pos|apply pow_le, Cabs_nonneg]|apply pow_le, pow_le, Cabs_nonneg].
      * apply Rplus_le_compat_r. unfold q0. rewrite !Rpow_mult_distr. rewrite <- pow_mult.
        replace (n + 1)%nat with (S n) by lia. cbn [pow].
        assert (I1 : (1 + inv_rel u) ^ (n - 1) <= (1 + inv_rel u) ^ n) by (apply pow_le1; [exact Qa|lia]).
        assert (I2 : g ^ (n - 1) * (g ^ (k * (n - 1)) * g ^ (n - 1)) * g <= g ^ ((k + 2) * n)).
        { replace (g ^ (n - 1) * (g ^ (k * (n - 1)) * g ^ (n - 1)) * g) with (g ^ ((n - 1) + (k * (n - 1) + (n - 1)) + 1)) by (rewrite !pow_add; cbn [pow]; ring).
          apply pow_le1; [exact g1|]. destruct n as [|n']; [lia|]. cbn [Nat.sub]. rewrite Nat.sub_0_r. nia. }
        replace ((1 + inv_rel u) ^ (n - 1) * g ^ (n - 1) * (g ^ (k * (n - 1)) * g ^ (n - 1)) * g * (1 + u) * (1 + u) ^ n)
          with ((g ^ (n - 1) * (g ^ (k * (n - 1)) * g ^ (n - 1)) * g) * (1 + inv_rel u) ^ (n - 1) * ((1 + u) * (1 + u) ^ n)) by ring.
        apply Rmult_le_compat_r; [apply Rmult_le_pos; [lra|apply pow_le; lra]|].
        apply Rmult_le_compat; [|apply pow_le; lra|exact I2|exact I1]. repeat apply Rmult_le_pos; try (apply pow_le; lra); lra.
  - unfold zsum. fold n. rewrite (@csum_ext n (fun j => RtoC (nth j x 0) *c Cpow b j *c Cpow w (j * k)) (fun j => RtoC (nth j x 0) *c (C1 *c Cpow b j) *c (C1 *c Cpow (Cpow w k) j))); [ring|].
    intros j _. rewrite (Nat.mul_comm j k), Cpow_mul. ring.
Qed.
Print Assumptions C105_czt.
(* prec-bit arithmetic: 6.1 (k + 6) n 2^-prec of the sum of the moduli *)
Theorem C105_float_czt : forall (prec : Z) (x : list R) (m : nat) (w a b : C) (k : nat), (24 <= prec)%Z -> a *c b = C1 -> (k < m)%nat ->
  6.1 * (INR k + 6) * INR (length x) <= bpow radix2 prec ->
  Cabs (at_ (czt (F := flx prec) (X := RX) x m w a) k -c zsum x w b k) <= 6.1 * (INR k + 6) * INR (length x) * bpow radix2 (- prec) * zsize x w b k.
Proof.
  intros prec x m w a b k Hp Hab Hk Hb. pose proof (uu_pos prec) as U. pose proof (@uu_small prec Hp) as US.
  destruct (@C105_czt (flx prec) RX (uu prec) x m w a b (flx_rounded Hp)) as [_ B].
  - cbn [pow]. nra.
  - intros p q. cbn [feqb RX]. destruct (Req_EM_T p q); split; intros; congruence.
  - exact Hab.
  - eapply Rle_trans; [apply B; exact Hk|]. fold (uu prec). set (v := uu prec) in *. set (n := length x) in *.
    assert (ZP : 0 <= zsize x w b k).
    { apply rsum_pos. intros j _. apply Rmult_le_pos; [apply Rmult_le_pos; [apply Rabs_pos|apply pow_le, Cabs_nonneg]|apply pow_le, Cabs_nonneg]. }
    destruct (Nat.eq_dec n 0) as [En|En]; [unfold zsize; fold n; rewrite En; cbn [rsum]; lra|].
    apply Rmult_le_compat_r; [exact ZP|].
    assert (HU : 6.1 * (INR k + 6) * INR n * v <= 1).
    { unfold v, uu. rewrite bpow_opp. pose proof (bpow_gt_0 radix2 prec). apply Rmult_le_reg_r with (bpow radix2 prec); [assumption|]. rewrite Rmult_assoc, Rinv_l by lra. lra. }
    pose proof (@gam_small prec Hp) as GS. fold v in GS. set (h := 1 + 3.01 * v).
    assert (h1 : 1 <= h) by (unfold h; lra).
    assert (I1 : 1 + inv_rel v <= h ^ 2).
    { unfold inv_rel, h. replace (1 + ((1 + v) / (2 - (1 + v) ^ 2) - 1)) with ((1 + v) / (2 - (1 + v) ^ 2)) by ring. apply Rmult_le_reg_r with (2 - (1 + v) ^ 2); [cbn [pow]; nra|].
      unfold Rdiv. rewrite Rmult_assoc, Rinv_l by (cbn [pow]; nra). cbn [pow]. nra. }
    assert (I0 : 0 <= 1 + inv_rel v). { unfold inv_rel. replace (1 + ((1 + v) / (2 - (1 + v) ^ 2) - 1)) with ((1 + v) / (2 - (1 + v) ^ 2)) by ring. apply Rmult_le_pos; [lra|]. left. apply Rinv_0_lt_compat. cbn [pow]. nra. }
    assert (G0 : 0 <= gam v) by (unfold gam; nra).
    assert (T : (1 + gam v) ^ ((k + 2) * n) * (1 + inv_rel v) ^ n * (1 + v) ^ (n + 1) <= h ^ ((k + 6) * n)).
    { apply Rle_trans with (h ^ ((k + 2) * n) * (h ^ 2) ^ n * h ^ (2 * n)).
      - apply Rmult_le_compat; [apply Rmult_le_pos; apply pow_le; lra|apply pow_le; lra| |].
        + apply Rmult_le_compat; [apply pow_le; lra|apply pow_le; lra| |]; apply pow_incr; [unfold h; lra|lra].
        + apply Rle_trans with (h ^ (n + 1)); [apply pow_incr; unfold h; lra|]. apply pow_le1; [exact h1|lia].
      - rewrite <- pow_mult, <- !pow_add. apply pow_le1; [exact h1|nia]. }
    assert (EI : INR ((k + 6) * n) = (INR k + 6) * INR n) by (rewrite mult_INR, plus_INR; cbn [INR]; ring).
    pose proof (pos_INR k). pose proof (pos_INR n). assert (0 <= (INR k + 6) * INR n) by nra. set (N := (INR k + 6) * INR n) in *.
    replace (6.1 * (INR k + 6) * INR n * v) with (6.1 * N * v) in * by (unfold N; ring).
    pose proof (@pow_linear (3.01 * v) ((k + 6) * n) ltac:(lra)) as PL. rewrite EI in PL. fold h in PL. specialize (PL ltac:(nra)). nra.
Qed.
Print Assumptions C105_float_czt.
(* on the unit circle the bound is 6.1 (k + 6) n 2^-prec times the sum of the samples' moduli *)
Example C105_circle : forall (x : list R) k, zsize x (cis (- (2 * PI / INR (length x)))) C1 k = rsum (length x) (fun j => Rabs (nth j x 0)).
Proof.
  intros x k. unfold zsize. apply rsum_ext. intros j _. rewrite Cabs_cis. change C1 with (RtoC 1). rewrite Cabs_R, Rabs_R1, !pow1. ring.
Qed.
Example C105_czt_example : C1 *c C1 = C1 /\ 6.1 * (INR 15 + 6) * INR (length (repeat 1 16)) <= bpow radix2 24 /\ (1 + uu 24) ^ 2 < 2.
Proof.
  split; [ring|]. change (bpow radix2 24) with 16777216. rewrite repeat_length. rewrite !INR_IZR_INZ. cbn [Z.of_nat Pos.of_succ_nat Pos.succ].
  split; [lra|]. change (uu 24) with (/ 16777216). cbn [pow]. lra.
Qed.

(* ---------- proofs: analytic signal ---------- *)
Lemma mask_at (G : Float R) (l : list C) k : Nat.even (length l) = true -> (k < length l)%nat ->
  at_ (hilbert_mask (F := G) (length l) l) k =
    if (k =? 0)%nat then at_ l k else if (2 * k <? length l)%nat then dbl (F := G) (at_ l k) else if (2 * k =? length l)%nat then at_ l k else czero (F := G).
Proof.
  intros Ev Hk. unfold hilbert_mask, at_. rewrite Ev. apply Nat.even_spec in Ev. destruct Ev as [q Eq].
  assert (D : (length l / 2 = q)%nat) by (rewrite Eq, (Nat.mul_comm 2 q); apply Nat.div_mul; lia). rewrite D.
  rewrite !nth_on_range by (rewrite ?on_range_length; lia). cbn [Nat.add]. rewrite Eq in *.
  destruct (Nat.leb_spec (q + 1) k), (Nat.ltb_spec k (2 * q)), (Nat.leb_spec 1 k), (Nat.ltb_spec k q), (Nat.eqb_spec k 0), (Nat.ltb_spec (2 * k) (2 * q)), (Nat.eqb_spec (2 * k) (2 * q));
    cbn [andb]; try lia; try reflexivity; subst k; reflexivity.
Qed.
Lemma Cabs_2 z : Cabs (RtoC 2 *c z) = 2 * Cabs z.
Proof. rewrite Cabs_mul, Cabs_R, Rabs_pos_eq by lra. reflexivity. Qed.
(* ---------- theorems: analytic signal ---------- *)
Theorem C105_hilbert : forall (G : Float R) (u d : R) (c : cfg) (x : list R) (A : list C),
  rounded G u -> @flit R G 2 = 2 -> 0 <= d -> (32 <= length x)%nat -> is_pow2 (length x) = true -> twiddles_within G c (length x) d -> @fofnat R G (length x) = INR (length x) ->
  analytic x A ->
  exists z, hilbert (F := G) c x = Done (Ok z) /\ close2 (2 * (bfly u d ^ (2 * Nat.log2 (length x)) * (1 + u) ^ 3 - 1) * norm2 (map RtoC x)) z A.
Proof.
  intros G u d c x A HG H2 Hd Hn Hp Ht Hf [LA HA]. set (n := length x) in *. assert (n0 : (0 < n)%nat) by lia.
  assert (Lw : length (widen (F := G) x) = n) by apply map_length.
  assert (EW : widen (F := G) x = map RtoC x) by (apply map_ext; intros v; unfold RtoC; rewrite (r_zero HG); reflexivity).
  assert (Ev : Nat.even n = true).
  { unfold is_pow2 in Hp. apply Nat.eqb_eq in Hp. rewrite <- Hp. destruct (Nat.log2 n) as [|l] eqn:El; [cbn in Hp; lia|]. rewrite Nat.pow_succ_r', Nat.even_mul. reflexivity. }
  eexists. split; [unfold hilbert; apply via_fresh; [exact n0|exact Hp|intros; apply mask_length]|].
  set (X := DFT (widen (F := G) x)). set (Xh := fft_fresh (F := G) c (widen (F := G) x)).
  pose proof (@fresh_l2 G u d c HG Hd (widen (F := G) x)) as F1. rewrite Lw in F1. destruct (F1 Hn Hp Ht) as [L1 E1]. clear F1. fold X Xh in L1, E1.
  set (Qn := bfly u d ^ Nat.log2 n) in *. pose proof (@Q_ge1 G u d HG Hd n) as Q1. fold Qn in Q1. pose proof (u_pos HG) as U.
  set (Yh := hilbert_mask (F := G) n Xh). assert (LY : length Yh = n) by (unfold Yh; rewrite mask_length; exact L1).
  pose proof (@ifresh_l2 G u d c HG Hd Yh) as F2. rewrite LY in F2. destruct (F2 Hn Hp Ht Hf) as [L2 E2]. clear F2.
  set (z := ifft_fresh (F := G) c Yh) in *.
  match goal with |- close2 _ ?t _ => change t with z end. split; [lia|]. rewrite LA. fold n. fold (l2 n (fun k => at_ z k -c at_ A k)).
  set (nx := norm2 (map RtoC x)). assert (nx0 : 0 <= nx) by apply norm2_pos.
  assert (NX : l2 n (at_ X) = sqrt (INR n) * nx).
  { unfold nx, X. rewrite <- EW. pose proof (@C103_length (widen (F := G) x)) as K. rewrite Lw in K. specialize (K n0). rewrite norm2_l2, DFT_length, Lw in K. exact K. }
  set (sn := sqrt (INR n)) in *. assert (sn0 : 0 < sn) by (apply sqrt_lt_R0, lt_0_INR; exact n0).
  (* the exact spectrum of the analytic signal *)
  assert (HX : forall k, (k < n)%nat -> dft n (fun j => RtoC (nth j x 0)) k = at_ X k).
  { intros k Hk. unfold X. rewrite DFT_at by lia. rewrite Lw. apply dft_ext. intros j Hj. unfold at_. rewrite EW. rewrite (nth_indep _ C0 (RtoC 0)) by (rewrite map_length; exact Hj). rewrite map_nth. reflexivity. }
  assert (HB : forall k, (k < n)%nat -> Cabs (at_ Yh k -c at_ (DFT A) k) <= u * 2 * Cabs (at_ Xh k) + 2 * Cabs (at_ Xh k -c at_ X k)).
  { intros k Hk. rewrite DFT_at by lia. rewrite LA. rewrite HA by exact Hk. cbv zeta. rewrite HX by exact Hk.
    unfold Yh. rewrite <- L1 at 1. rewrite mask_at by (rewrite L1; assumption). rewrite L1.
    pose proof (Cabs_nonneg (at_ Xh k)) as P1. pose proof (Cabs_nonneg (at_ Xh k -c at_ X k)) as P2.
    destruct (k =? 0)%nat; [nra|]. destruct (2 * k <? n)%nat; [|destruct (2 * k =? n)%nat; [nra|]; rewrite (czero_G HG); replace (C0 -c C0) with C0 by ring; rewrite Cabs_0; nra].
    assert (E : Cabs (dbl (F := G) (at_ Xh k) -c RtoC 2 *c at_ Xh k) <= u * 2 * Cabs (at_ Xh k)).
    { rewrite Rmult_assoc, <- Cabs_2. set (t := RtoC 2 *c at_ Xh k). pose proof (Cabs_nonneg t).
      apply (@Cabs_comp _ (u * Rabs (re t)) (u * Rabs (im t))).
      - unfold t, dbl, two. rewrite H2. cbn [re im Csub Cmul RtoC]. replace (2 * re (at_ Xh k) - 0 * im (at_ Xh k)) with (re (at_ Xh k) * 2) by ring. apply (r_mul HG).
      - unfold t, dbl, two. rewrite H2. cbn [re im Csub Cmul RtoC]. replace (2 * im (at_ Xh k) + 0 * re (at_ Xh k)) with (im (at_ Xh k) * 2) by ring. apply (r_mul HG).
      - nra.
      - replace (u * Cabs t * (u * Cabs t)) with (u * u * (Cabs t * Cabs t)) by ring. rewrite Cabs_sq. unfold Cnorm2.
        assert (E : forall z, Rabs z * Rabs z = z * z) by (intros; rewrite <- Rabs_mult; apply Rabs_pos_eq; nra).
        pose proof (E (re t)). pose proof (E (im t)). nra. }
    replace (dbl (F := G) (at_ Xh k) -c RtoC 2 *c at_ X k) with ((dbl (F := G) (at_ Xh k) -c RtoC 2 *c at_ Xh k) +c RtoC 2 *c (at_ Xh k -c at_ X k)) by ring.
    eapply Rle_trans; [apply Cabs_tri|]. rewrite Cabs_2. lra. }
  assert (BX : l2 n (at_ Xh) <= Qn * (sn * nx)).
  { rewrite (@l2_ext n (at_ Xh) (fun k => (at_ Xh k -c at_ X k) +c at_ X k)) by (intros; ring). eapply Rle_trans; [apply l2_tri|]. rewrite NX in *. lra. }
  assert (BY : l2 n (fun k => at_ Yh k -c at_ (DFT A) k) <= 2 * (Qn * (1 + u) - 1) * (sn * nx)).
  { apply Rle_trans with (l2 n (fun k => RtoC (u * 2 * Cabs (at_ Xh k)) +c RtoC (2 * Cabs (at_ Xh k -c at_ X k)))).
    - rewrite <- (Rmult_1_l (l2 n (fun k => RtoC _ +c RtoC _))). apply l2_abs; [lra|]. intros k Hk. rewrite Rmult_1_l.
      replace (RtoC (u * 2 * Cabs (at_ Xh k)) +c RtoC (2 * Cabs (at_ Xh k -c at_ X k))) with (RtoC (u * 2 * Cabs (at_ Xh k) + 2 * Cabs (at_ Xh k -c at_ X k))) by (creal; ring).
      rewrite Cabs_R. eapply Rle_trans; [apply HB; exact Hk|apply Rle_abs].
    - eapply Rle_trans; [apply l2_tri|].
      assert (T1 : l2 n (fun k => RtoC (u * 2 * Cabs (at_ Xh k))) <= u * 2 * l2 n (at_ Xh)).
      { apply l2_abs; [lra|]. intros k _. rewrite Cabs_R, Rabs_pos_eq; [lra|]. apply Rmult_le_pos; [lra|apply Cabs_nonneg]. }
      assert (T2 : l2 n (fun k => RtoC (2 * Cabs (at_ Xh k -c at_ X k))) <= 2 * l2 n (fun k => at_ Xh k -c at_ X k)).
      { apply l2_abs; [lra|]. intros k _. rewrite Cabs_R, Rabs_pos_eq; [lra|]. apply Rmult_le_pos; [lra|apply Cabs_nonneg]. }
      rewrite NX in E1. assert (u * 2 * l2 n (at_ Xh) <= u * 2 * (Qn * (sn * nx))) by (apply Rmult_le_compat_l; lra). lra. }
  (* back in time *)
  assert (LI : length (IDFT Yh) = n) by (unfold IDFT; rewrite tab_length; exact LY).
  assert (B1 : l2 n (fun k => at_ (IDFT Yh) k -c at_ A k) <= 2 * (Qn * (1 + u) - 1) * nx).
  { pose proof (@pars_DFT (IDFT Yh) A) as D. rewrite LI in D. specialize (D (eq_sym LA) n0). rewrite DFT_IDFT in D. fold sn in D. rewrite D in BY.
    apply Rmult_le_reg_l with sn; [exact sn0|]. lra. }
  assert (NA : l2 n (at_ A) <= 2 * nx).
  { pose proof (@pars n (at_ A) n0) as D. fold sn in D. apply Rmult_le_reg_l with sn; [exact sn0|]. rewrite <- D. apply Rle_trans with (2 * l2 n (at_ X)); [|rewrite NX; lra].
    apply l2_abs; [lra|]. intros k Hk. rewrite HA by exact Hk. cbv zeta. rewrite HX by exact Hk. pose proof (Cabs_nonneg (at_ X k)).
    destruct (k =? 0)%nat; [lra|]. destruct (2 * k <? n)%nat; [rewrite Cabs_2; lra|]. destruct (2 * k =? n)%nat; [lra|]. rewrite Cabs_0. lra. }
  assert (BI : l2 n (at_ (IDFT Yh)) <= 2 * (Qn * (1 + u)) * nx).
  { rewrite (@l2_ext n (at_ (IDFT Yh)) (fun k => (at_ (IDFT Yh) k -c at_ A k) +c at_ A k)) by (intros; ring). eapply Rle_trans; [apply l2_tri|]. lra. }
  rewrite (@l2_ext n _ (fun k => (at_ z k -c at_ (IDFT Yh) k) +c (at_ (IDFT Yh) k -c at_ A k))) by (intros; ring).
  eapply Rle_trans; [apply l2_tri|].
  assert (R0 : 0 <= Qn * (1 + u) ^ 2 - 1) by (assert (1 <= (1 + u) ^ 2) by (cbn [pow]; nra); nra).
  apply Rle_trans with ((Qn * (1 + u) ^ 2 - 1) * (2 * (Qn * (1 + u)) * nx) + 2 * (Qn * (1 + u) - 1) * nx).
  - apply Rplus_le_compat; [|exact B1]. eapply Rle_trans; [exact E2|]. apply Rmult_le_compat_l; assumption.
  - right. replace (2 * Nat.log2 n)%nat with (Nat.log2 n + Nat.log2 n)%nat by lia. rewrite pow_add. fold Qn. ring.
Qed.
Print Assumptions C105_hilbert.
(* prec-bit arithmetic: 44 n log2(n) 2^-prec of the length of the signal; the real part gives the samples back to within as much *)
Theorem C105_float_hilbert : forall (prec : Z) (c : cfg) (x : list R), (24 <= prec)%Z -> c_precomp c = false \/ prec = 24%Z \/ prec = 53%Z ->
  (32 <= length x)%nat -> is_pow2 (length x) = true -> 22 * INR (length x) * INR (Nat.log2 (length x)) <= bpow radix2 prec ->
  exists z A, hilbert (F := flx prec) c x = Done (Ok z) /\ analytic x A /\
    close2 (44 * INR (length x) * INR (Nat.log2 (length x)) * bpow radix2 (- prec) * norm2 (map RtoC x)) z A /\
    forall j, (j < length x)%nat -> Rabs (re (at_ z j) - nth j x 0) <= 44 * INR (length x) * INR (Nat.log2 (length x)) * bpow radix2 (- prec) * norm2 (map RtoC x).
Proof.
  intros prec c x Hprec Hc Hn Hp Hb22. set (n := length x) in *.
  pose proof (nR Hn) as HnR. pose proof (log5 Hn) as HL.
  assert (Hb : 11 * INR n * INR (Nat.log2 n) <= bpow radix2 prec) by nra.
  assert (Hd : 0 <= dd prec n). { unfold dd. pose proof (uu_pos prec). nra. }
  destruct (@C53_analytic (cfg_std F32) x (Nat.log2 n)) as (A & _ & LA & RA & SA).
  { unfold is_pow2 in Hp. apply Nat.eqb_eq in Hp. symmetry. exact Hp. }
  assert (HA : analytic x A) by (split; [exact LA|exact SA]).
  destruct (@C105_hilbert (flx prec) (uu prec) (dd prec n) c x A (flx_rounded Hprec) (flit_2 prec) Hd Hn Hp) as (z & E & N1 & N2).
  - apply flx_tw; assumption.
  - apply fofnat_pow2; assumption.
  - exact HA.
  - exists z, A. split; [exact E|]. split; [exact HA|].
    assert (K : sqrt (rsum (length A) (fun k => Cnorm2 (at_ z k -c at_ A k))) <= 44 * INR n * INR (Nat.log2 n) * bpow radix2 (- prec) * norm2 (map RtoC x)).
    { eapply Rle_trans; [exact N2|]. apply Rmult_le_compat_r; [apply norm2_pos|]. fold n. pose proof (uu_pos prec) as Hu. fold (uu prec).
      assert (HB : 22 * INR n * INR (Nat.log2 n) * uu prec <= 1).
      { unfold uu. rewrite bpow_opp. pose proof (bpow_gt_0 radix2 prec).
        apply Rmult_le_reg_r with (bpow radix2 prec); [assumption|]. rewrite Rmult_assoc, Rinv_l by lra. lra. }
      assert (EM : INR (2 * Nat.log2 n) = 2 * INR (Nat.log2 n)) by (rewrite mult_INR; cbn [INR]; ring).
      pose proof (@flx_bfly prec Hprec n Hn Hb (2 * Nat.log2 n)%nat) as Q. rewrite EM in Q. specialize (Q ltac:(lra)).
      set (B := bfly (uu prec) (dd prec n) ^ (2 * Nat.log2 n)) in *. pose proof (@uu_small prec Hprec) as US. set (v := uu prec) in *.
      assert (V : 160 <= INR n * INR (Nat.log2 n)) by nra. set (w := INR n * INR (Nat.log2 n)) in *.
      replace (10.8 * INR n * (2 * INR (Nat.log2 n)) * v) with (21.6 * w * v) in Q by (unfold w; lra).
      replace (44 * INR n * INR (Nat.log2 n) * v) with (2 * (22 * w * v)) by (unfold w; ring).
      replace (22 * INR n * INR (Nat.log2 n) * v) with (22 * w * v) in HB by (unfold w; ring).
      assert (S3 : (1 + v) ^ 3 <= 1 + 3.1 * v) by (cbn [pow]; nra).
      apply Rmult_le_compat_l; [lra|].
      apply Rle_trans with ((1 + 21.6 * w * v) * (1 + 3.1 * v) - 1).
      + apply Rplus_le_compat_r. apply Rle_trans with ((1 + 21.6 * w * v) * (1 + v) ^ 3); [apply Rmult_le_compat_r; [apply pow_le; lra|exact Q]|].
        apply Rmult_le_compat_l; [nra|exact S3].
      + nra. }
    split; [split; [exact N1|exact K]|]. intros j Hj. rewrite LA in K. fold n in K. rewrite <- RA by exact Hj. eapply Rle_trans; [|exact K].
    eapply Rle_trans; [|apply (@l2_peak n (fun k => at_ z k -c at_ A k) j); exact Hj]. exact (Rabs_re (at_ z j -c at_ A j)).
Qed.
Print Assumptions C105_float_hilbert.
Example C105_example : length (repeat 1 1024) = 1024%nat /\ is_pow2 1024 = true /\ 22 * INR 1024 * INR (Nat.log2 1024) <= bpow radix2 24.
Proof.
  split; [apply repeat_length|]. split; [reflexivity|]. assert (E1 : INR 1024 = 1024) by (rewrite INR_IZR_INZ; reflexivity).
  assert (E2 : INR (Nat.log2 1024) = 10) by (change (Nat.log2 1024) with 10%nat; rewrite INR_IZR_INZ; reflexivity). rewrite E1, E2. change (bpow radix2 24) with 16777216. lra.
Qed.

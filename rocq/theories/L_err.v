(* Rounding: real arithmetic where every operation may be off by a relative error u (the standard
   model of floating-point arithmetic without overflow and underflow), and how the error of a
   complex sum, difference and product grows. *)
From Coq Require Import Reals Lra Lia.
From Verif Require Export L_dft L_obj L_fftR.
Set Implicit Arguments.
Open Scope R_scope.

(* G rounds with unit roundoff u *)
Record rounded (G : Float R) (u : R) : Prop := {
  r_u : 0 <= u;
  r_zero : @fzero R G = 0;
  r_one : @fone R G = 1;
  r_neg : forall a, @fneg R G a = - a;
  r_add : forall a b, Rabs (@fadd R G a b - (a + b)) <= u * Rabs (a + b);
  r_sub : forall a b, Rabs (@fsub R G a b - (a - b)) <= u * Rabs (a - b);
  r_mul : forall a b, Rabs (@fmul R G a b - a * b) <= u * Rabs (a * b);
  r_div : forall a b, b <> 0 -> Rabs (@fdiv R G a b - a / b) <= u * Rabs (a / b);
  r_fma : forall a b d, Rabs (@fmul_add R G a b d - (a * b + d)) <= u * Rabs (a * b + d) }.

(* modulus *)
Definition Cabs (z : C) : R := sqrt (Cnorm2 z).
Lemma Cnorm2_nonneg z : 0 <= Cnorm2 z.
Proof. unfold Cnorm2. nra. Qed.
Lemma Cabs_nonneg z : 0 <= Cabs z.
Proof. apply sqrt_pos. Qed.
Lemma Cabs_sq z : Cabs z * Cabs z = Cnorm2 z.
Proof. apply sqrt_sqrt, Cnorm2_nonneg. Qed.
Lemma le_sq a b : 0 <= b -> a * a <= b * b -> a <= b.
Proof. intros Hb H. destruct (Rle_dec a b); [assumption|]. nra. Qed.
Lemma Cabs_le z r : 0 <= r -> Cnorm2 z <= r * r -> Cabs z <= r.
Proof. intros Hr H. apply le_sq; [exact Hr|]. rewrite Cabs_sq. exact H. Qed.
Lemma Cabs_mul a b : Cabs (a *c b) = Cabs a * Cabs b.
Proof.
  unfold Cabs. rewrite <- sqrt_mult by apply Cnorm2_nonneg. f_equal. unfold Cnorm2. cbn. ring.
Qed.
Lemma Cabs_tri a b : Cabs (a +c b) <= Cabs a + Cabs b.
Proof.
  pose proof (Cabs_nonneg a). pose proof (Cabs_nonneg b). apply Cabs_le; [lra|].
  pose proof (Cabs_sq a) as Ea. pose proof (Cabs_sq b) as Eb. unfold Cnorm2 in *. cbn [Cadd re im] in *.
  assert (D : re a * re b + im a * im b <= Cabs a * Cabs b).
  { apply le_sq; [nra|]. replace (Cabs a * Cabs b * (Cabs a * Cabs b)) with ((Cabs a * Cabs a) * (Cabs b * Cabs b)) by ring.
    rewrite Ea, Eb. pose proof (Rle_0_sqr (re a * im b - im a * re b)) as Q. unfold Rsqr in Q. nra. }
  nra.
Qed.
Lemma Cabs_opp a : Cabs (Copp a) = Cabs a.
Proof. unfold Cabs. f_equal. unfold Cnorm2. cbn. ring. Qed.
Lemma Cabs_conj a : Cabs (Cconj a) = Cabs a.
Proof. unfold Cabs. f_equal. unfold Cnorm2. cbn. ring. Qed.
Lemma Cabs_sub a b : Cabs (a -c b) <= Cabs a + Cabs b.
Proof. replace (a -c b) with (a +c Copp b) by ring. rewrite <- (Cabs_opp b). apply Cabs_tri. Qed.
Lemma Cabs_0 : Cabs C0 = 0.
Proof. unfold Cabs, Cnorm2. cbn. replace (0 * 0 + 0 * 0) with 0 by ring. apply sqrt_0. Qed.
Lemma Cabs_R r : Cabs (RtoC r) = Rabs r.
Proof. unfold Cabs, Cnorm2. cbn. replace (r * r + 0 * 0) with (Rsqr r) by (unfold Rsqr; ring). apply sqrt_Rsqr_abs. Qed.
Lemma Cabs_cis t : Cabs (cis t) = 1.
Proof.
  unfold Cabs, Cnorm2, cis. cbn. pose proof (sin2_cos2 t) as H. unfold Rsqr in H.
  replace (cos t * cos t + sin t * sin t) with 1 by lra. apply sqrt_1.
Qed.
Lemma Cabs_W n k : Cabs (W n k) = 1.
Proof. apply Cabs_cis. Qed.
Lemma Cabs_comp z p q m : Rabs (re z) <= p -> Rabs (im z) <= q -> 0 <= m -> p * p + q * q <= m * m -> Cabs z <= m.
Proof.
  intros Hp Hq Hm H. apply Cabs_le; [exact Hm|]. unfold Cnorm2.
  assert (A : forall x y, Rabs x <= y -> x * x <= y * y).
  { intros x y Hx. pose proof (Rabs_pos x). replace (x * x) with (Rabs x * Rabs x); [nra|]. rewrite <- Rabs_mult. apply Rabs_pos_eq. nra. }
  specialize (A _ _ Hp) as A1. specialize (A _ _ Hq). lra.
Qed.

Section Err.
Variable G : Float R.
Variable u : R.
Hypothesis HG : rounded G u.
Variable c : cfg.

(* relative error of a complex product: (3/2)(2u + u^2) *)
Definition gam : R := 3 / 2 * (2 * u + u * u).
Lemma u_pos : 0 <= u. Proof. apply HG. Qed.
Lemma gam_pos : 0 <= gam. Proof. unfold gam. pose proof u_pos. nra. Qed.

Lemma cadd_err a b : Cabs (cadd (F := G) a b -c (a +c b)) <= u * Cabs (a +c b).
Proof.
  pose proof u_pos. pose proof (Cabs_nonneg (a +c b)).
  apply (@Cabs_comp _ (u * Rabs (re (a +c b))) (u * Rabs (im (a +c b)))); [apply (r_add HG)|apply (r_add HG)|nra|].
  replace (u * Cabs (a +c b) * (u * Cabs (a +c b))) with (u * u * (Cabs (a +c b) * Cabs (a +c b))) by ring.
  rewrite Cabs_sq. unfold Cnorm2. set (x := re (a +c b)). set (y := im (a +c b)).
  assert (E : forall z, Rabs z * Rabs z = z * z) by (intros z; rewrite <- Rabs_mult; apply Rabs_pos_eq; nra).
  pose proof (E x). pose proof (E y). nra.
Qed.
Lemma csub_err a b : Cabs (csub (F := G) a b -c (a -c b)) <= u * Cabs (a -c b).
Proof.
  pose proof u_pos. pose proof (Cabs_nonneg (a -c b)).
  apply (@Cabs_comp _ (u * Rabs (re (a -c b))) (u * Rabs (im (a -c b)))); [apply (r_sub HG)|apply (r_sub HG)|nra|].
  replace (u * Cabs (a -c b) * (u * Cabs (a -c b))) with (u * u * (Cabs (a -c b) * Cabs (a -c b))) by ring.
  rewrite Cabs_sq. unfold Cnorm2. set (x := re (a -c b)). set (y := im (a -c b)).
  assert (E : forall z, Rabs z * Rabs z = z * z) by (intros z; rewrite <- Rabs_mult; apply Rabs_pos_eq; nra).
  pose proof (E x). pose proof (E y). nra.
Qed.
(* one component of a product: three roundings *)
Lemma near_trans_abs x y z e : Rabs (x - y) <= e -> Rabs (x - z) <= e + Rabs (y - z).
Proof. intros H. replace (x - z) with ((x - y) + (y - z)) by ring. pose proof (Rabs_triang (x - y) (y - z)). lra. Qed.
Lemma Rabs_le_sum x y e : Rabs (x - y) <= e -> Rabs x <= Rabs y + e.
Proof. intros H. replace x with ((x - y) + y) by ring. pose proof (Rabs_triang (x - y) y). lra. Qed.
Lemma sub_prod_err p q p' q' r : Rabs (p' - p) <= u * Rabs p -> Rabs (q' - q) <= u * Rabs q ->
  Rabs (r - (p' - q')) <= u * Rabs (p' - q') -> Rabs (r - (p - q)) <= (2 * u + u * u) * (Rabs p + Rabs q).
Proof.
  intros Hp Hq Hr. pose proof u_pos. pose proof (Rabs_pos p). pose proof (Rabs_pos q).
  assert (E : Rabs (p' - q' - (p - q)) <= u * Rabs p + u * Rabs q).
  { replace (p' - q' - (p - q)) with ((p' - p) + - (q' - q)) by ring. pose proof (Rabs_triang (p' - p) (- (q' - q))). rewrite Rabs_Ropp in *. lra. }
  assert (E2 : Rabs (p' - q') <= (1 + u) * (Rabs p + Rabs q)).
  { apply Rabs_le_sum in E. pose proof (Rabs_triang p (- q)) as Q. rewrite Rabs_Ropp in Q. unfold Rminus in *. lra. }
  pose proof (@near_trans_abs r (p' - q') (p - q) _ Hr). nra.
Qed.
Lemma add_prod_err p q p' q' r : Rabs (p' - p) <= u * Rabs p -> Rabs (q' - q) <= u * Rabs q ->
  Rabs (r - (p' + q')) <= u * Rabs (p' + q') -> Rabs (r - (p + q)) <= (2 * u + u * u) * (Rabs p + Rabs q).
Proof.
  intros Hp Hq Hr. replace (p + q) with (p - - q) by ring. rewrite <- (Rabs_Ropp q).
  apply (@sub_prod_err p (- q) p' (- q')); [exact Hp| |].
  - replace (- q' - - q) with (- (q' - q)) by ring. rewrite !Rabs_Ropp. exact Hq.
  - replace (p' - - q') with (p' + q') by ring. exact Hr.
Qed.
Lemma prod_bound k x y z w : 0 <= k ->
  k * (Rabs (x * z) + Rabs (y * w)) * (k * (Rabs (x * z) + Rabs (y * w)))
  + k * (Rabs (x * w) + Rabs (y * z)) * (k * (Rabs (x * w) + Rabs (y * z)))
  <= 9 / 4 * (k * k) * ((x * x + y * y) * (z * z + w * w)).
Proof.
  intros Hk. rewrite !Rabs_mult.
  assert (E : forall z, Rabs z * Rabs z = z * z) by (intros; rewrite <- Rabs_mult; apply Rabs_pos_eq; nra).
  rewrite <- (E x), <- (E y), <- (E z), <- (E w).
  generalize (Rabs x) (Rabs y) (Rabs z) (Rabs w). intros x' y' z' w'.
  replace (k * (x' * z' + y' * w') * (k * (x' * z' + y' * w')) + k * (x' * w' + y' * z') * (k * (x' * w' + y' * z')))
    with ((k * k) * ((x' * z' + y' * w') * (x' * z' + y' * w') + (x' * w' + y' * z') * (x' * w' + y' * z'))) by ring.
  replace (9 / 4 * (k * k) * ((x' * x' + y' * y') * (z' * z' + w' * w'))) with ((k * k) * (9 / 4 * ((x' * x' + y' * y') * (z' * z' + w' * w')))) by ring.
  apply Rmult_le_compat_l; [nra|].
  pose proof (Rle_0_sqr (x' * z' - y' * w')) as Q1. pose proof (Rle_0_sqr (x' * w' - y' * z')) as Q2. unfold Rsqr in *.
  pose proof (Rle_0_sqr (x' * z')) as Q3. pose proof (Rle_0_sqr (x' * w')) as Q4. pose proof (Rle_0_sqr (y' * z')) as Q5. pose proof (Rle_0_sqr (y' * w')) as Q6. unfold Rsqr in *. nra.
Qed.
Lemma prod_err r a b : Rabs (re r - (re a * re b - im a * im b)) <= (2 * u + u * u) * (Rabs (re a * re b) + Rabs (im a * im b)) ->
  Rabs (im r - (re a * im b + im a * re b)) <= (2 * u + u * u) * (Rabs (re a * im b) + Rabs (im a * re b)) ->
  Cabs (r -c a *c b) <= gam * (Cabs a * Cabs b).
Proof.
  intros H1 H2. pose proof u_pos. pose proof (Cabs_nonneg a). pose proof (Cabs_nonneg b).
  set (k := 2 * u + u * u) in *. assert (Hk : 0 <= k) by (unfold k; nra).
  eapply Cabs_comp; [exact H1|exact H2| |].
  - pose proof gam_pos. apply Rmult_le_pos; nra.
  - unfold gam. fold k. replace (3 / 2 * k * (Cabs a * Cabs b) * (3 / 2 * k * (Cabs a * Cabs b))) with (9 / 4 * (k * k) * ((Cabs a * Cabs a) * (Cabs b * Cabs b))) by field.
    rewrite !Cabs_sq. apply prod_bound. exact Hk.
Qed.
Lemma cmul_plain_err a b : Cabs (cmul_plain (F := G) a b -c a *c b) <= gam * (Cabs a * Cabs b).
Proof.
  apply prod_err; cbn [cmul_plain re im].
  - eapply sub_prod_err; [apply (r_mul HG)|apply (r_mul HG)|apply (r_sub HG)].
  - eapply add_prod_err; [apply (r_mul HG)|apply (r_mul HG)|apply (r_add HG)].
Qed.
(* fused: one product exact *)
Lemma fma_err x y p q' r : Rabs (q' - p) <= u * Rabs p -> Rabs (r - (x * y + q')) <= u * Rabs (x * y + q') ->
  Rabs (r - (x * y + p)) <= (2 * u + u * u) * (Rabs (x * y) + Rabs p).
Proof.
  intros Hp Hr. apply (@add_prod_err (x * y) p (x * y) q' r); [|exact Hp|exact Hr].
  rewrite Rminus_diag_eq by reflexivity. rewrite Rabs_R0. pose proof u_pos. pose proof (Rabs_pos (x * y)). nra.
Qed.
Lemma cmul_fma_err a b : Cabs (cmul_fma (F := G) a b -c a *c b) <= gam * (Cabs a * Cabs b).
Proof.
  apply prod_err; cbn [cmul_fma re im].
  - replace (re a * re b - im a * im b) with (re a * re b + - (im a * im b)) by ring. rewrite <- (Rabs_Ropp (im a * im b)).
    eapply fma_err; [|apply (r_fma HG)]. rewrite (r_neg HG). pose proof (r_mul HG (im a) (im b)) as M.
    replace (- fmul (im a) (im b) - - (im a * im b)) with (- (@fmul R G (im a) (im b) - im a * im b)) by ring. rewrite !Rabs_Ropp. exact M.
  - eapply fma_err; [|apply (r_fma HG)]. apply (r_mul HG).
Qed.
Lemma cmul_err a b : Cabs (cmul (F := G) c a b -c a *c b) <= gam * (Cabs a * Cabs b).
Proof. unfold cmul. destruct (c_fma c); [apply cmul_fma_err|apply cmul_plain_err]. Qed.
Definition mul_ok (mul : C -> C -> C) := forall a b, Cabs (mul a b -c a *c b) <= gam * (Cabs a * Cabs b).
Lemma mulk_err : mul_ok (mulk (F := G) c).
Proof. intros a b. unfold mulk. destruct (c_kind c); [apply cmul_plain_err|apply cmul_plain_err|apply cmul_err]. Qed.

(* zh is within (q - 1) S of z, which has modulus at most S *)
Definition near (q S : R) (z zh : C) : Prop := 1 <= q /\ Cabs z <= S /\ Cabs (zh -c z) <= (q - 1) * S.
Lemma near_S q S S' z zh : near q S z zh -> S = S' -> near q S' z zh.
Proof. intros H <-. exact H. Qed.
Lemma near_pos q S z zh : near q S z zh -> 0 <= S.
Proof. intros (_ & H & _). pose proof (Cabs_nonneg z). lra. Qed.
Lemma near_mono q q' S S' z zh : near q S z zh -> q <= q' -> S <= S' -> near q' S' z zh.
Proof. intros H Hq HS. pose proof (near_pos H). destruct H as (H1 & H2 & H3). split; [lra|]. split; [lra|]. eapply Rle_trans; [exact H3|]. apply Rmult_le_compat; lra. Qed.
Lemma near_refl S z : Cabs z <= S -> near 1 S z z.
Proof. intros H. split; [lra|]. split; [exact H|]. replace (z -c z) with C0 by ring. rewrite Cabs_0. lra. Qed.
Lemma near_abs q S z zh : near q S z zh -> Cabs zh <= q * S.
Proof. intros (H1 & H2 & H3). replace zh with ((zh -c z) +c z) by ring. eapply Rle_trans; [apply Cabs_tri|]. lra. Qed.
Lemma near_conj q S z zh : near q S z zh -> near q S (Cconj z) (cconj (F := G) zh).
Proof.
  intros (H1 & H2 & H3). split; [exact H1|]. split; [rewrite Cabs_conj; exact H2|].
  replace (cconj (F := G) zh) with (Cconj zh) by (unfold cconj, Cconj; rewrite (r_neg HG); reflexivity).
  replace (Cconj zh -c Cconj z) with (Cconj (zh -c z)) by (creal; ring). rewrite Cabs_conj. exact H3.
Qed.
Lemma near_add q Sa Sb a b ah bh : near q Sa a ah -> near q Sb b bh -> near (q * (1 + u)) (Sa + Sb) (a +c b) (cadd (F := G) ah bh).
Proof.
  intros Ha Hb. pose proof (near_pos Ha). pose proof (near_pos Hb). destruct Ha as (Hq & A1 & A2), Hb as (_ & B1 & B2). pose proof u_pos.
  split; [nra|]. split; [eapply Rle_trans; [apply Cabs_tri|]; lra|].
  assert (D : Cabs ((ah +c bh) -c (a +c b)) <= (q - 1) * (Sa + Sb)).
  { replace ((ah +c bh) -c (a +c b)) with ((ah -c a) +c (bh -c b)) by ring. eapply Rle_trans; [apply Cabs_tri|]. nra. }
  assert (D2 : Cabs (ah +c bh) <= q * (Sa + Sb)).
  { replace (ah +c bh) with (((ah +c bh) -c (a +c b)) +c (a +c b)) by ring. eapply Rle_trans; [apply Cabs_tri|]. pose proof (Cabs_tri a b). nra. }
  pose proof (cadd_err ah bh) as E.
  replace (cadd (F := G) ah bh -c (a +c b)) with ((cadd (F := G) ah bh -c (ah +c bh)) +c ((ah +c bh) -c (a +c b))) by ring.
  eapply Rle_trans; [apply Cabs_tri|]. nra.
Qed.
Lemma near_sub q Sa Sb a b ah bh : near q Sa a ah -> near q Sb b bh -> near (q * (1 + u)) (Sa + Sb) (a -c b) (csub (F := G) ah bh).
Proof.
  intros Ha Hb. pose proof (near_pos Ha). pose proof (near_pos Hb). destruct Ha as (Hq & A1 & A2), Hb as (_ & B1 & B2). pose proof u_pos.
  split; [nra|]. split; [eapply Rle_trans; [apply Cabs_sub|]; lra|].
  assert (D : Cabs ((ah -c bh) -c (a -c b)) <= (q - 1) * (Sa + Sb)).
  { replace ((ah -c bh) -c (a -c b)) with ((ah -c a) -c (bh -c b)) by ring. eapply Rle_trans; [apply Cabs_sub|]. nra. }
  assert (D2 : Cabs (ah -c bh) <= q * (Sa + Sb)).
  { replace (ah -c bh) with (((ah -c bh) -c (a -c b)) +c (a -c b)) by ring. eapply Rle_trans; [apply Cabs_tri|]. pose proof (Cabs_sub a b). nra. }
  pose proof (csub_err ah bh) as E.
  replace (csub (F := G) ah bh -c (a -c b)) with ((csub (F := G) ah bh -c (ah -c bh)) +c ((ah -c bh) -c (a -c b))) by ring.
  eapply Rle_trans; [apply Cabs_tri|]. nra.
Qed.
Lemma near_mul mul qa qb Sa Sb a b ah bh : mul_ok mul -> near qa Sa a ah -> near qb Sb b bh ->
  near (qa * qb * (1 + gam)) (Sa * Sb) (a *c b) (mul ah bh).
Proof.
  intros Hm Ha Hb. pose proof (near_pos Ha). pose proof (near_pos Hb). pose proof (near_abs Ha) as A3. pose proof (near_abs Hb) as B3.
  destruct Ha as (Hqa & A1 & A2), Hb as (Hqb & B1 & B2). pose proof gam_pos as Hg.
  pose proof (Cabs_nonneg a). pose proof (Cabs_nonneg b). pose proof (Cabs_nonneg ah). pose proof (Cabs_nonneg bh).
  pose proof (Cabs_nonneg (ah -c a)). pose proof (Cabs_nonneg (bh -c b)).
  split; [assert (1 <= qa * qb) by nra; nra|]. split; [rewrite Cabs_mul; nra|].
  assert (E : Cabs (ah *c bh -c a *c b) <= (qa * qb - 1) * (Sa * Sb)).
  { replace (ah *c bh -c a *c b) with ((ah -c a) *c bh +c a *c (bh -c b)) by ring.
    eapply Rle_trans; [apply Cabs_tri|]. rewrite !Cabs_mul.
    apply Rle_trans with ((qa - 1) * Sa * (qb * Sb) + Sa * ((qb - 1) * Sb)); [|nra].
    apply Rplus_le_compat; apply Rmult_le_compat; assumption. }
  assert (M : Cabs ah * Cabs bh <= qa * Sa * (qb * Sb)) by (apply Rmult_le_compat; assumption).
  pose proof (Hm ah bh) as E2.
  replace (mul ah bh -c a *c b) with ((mul ah bh -c ah *c bh) +c (ah *c bh -c a *c b)) by ring.
  eapply Rle_trans; [apply Cabs_tri|].
  apply Rle_trans with (gam * (qa * Sa * (qb * Sb)) + (qa * qb - 1) * (Sa * Sb)); [|right; ring].
  apply Rplus_le_compat; [|exact E]. eapply Rle_trans; [exact E2|]. apply Rmult_le_compat_l; assumption.
Qed.
Lemma near_scale q S z zh s sh : near q S z zh -> 0 <= s -> Rabs (sh - s) <= u * s ->
  near (q * ((1 + u) * (1 + u))) (s * S) (RtoC s *c z) (cscale (F := G) sh zh).
Proof.
  intros Hz Hs Hsh. pose proof (near_pos Hz) as HS. pose proof (near_abs Hz) as Z3. destruct Hz as (Hq & Z1 & Z2). pose proof u_pos as Hu.
  pose proof (Cabs_nonneg zh). pose proof (Cabs_nonneg (zh -c z)).
  assert (Q2 : 1 <= q * ((1 + u) * (1 + u))) by (assert (1 <= (1 + u) * (1 + u)) by nra; nra).
  split; [exact Q2|]. split; [rewrite Cabs_mul, Cabs_R, Rabs_pos_eq by exact Hs; nra|].
  assert (Hsa : Rabs sh <= (1 + u) * s). { apply Rabs_le_sum in Hsh. rewrite (Rabs_pos_eq s) in Hsh by exact Hs. lra. }
  pose proof (Rabs_pos sh).
  assert (E1 : Cabs (cscale (F := G) sh zh -c RtoC sh *c zh) <= u * (Rabs sh * Cabs zh)).
  { rewrite <- Cabs_R, <- Cabs_mul. set (w := RtoC sh *c zh). pose proof (Cabs_nonneg w).
    apply (@Cabs_comp _ (u * Rabs (re w)) (u * Rabs (im w))).
    - unfold w, cscale. cbn [re im Csub Cmul RtoC]. replace (sh * re zh - 0 * im zh) with (re zh * sh) by ring. apply (r_mul HG).
    - unfold w, cscale. cbn [re im Csub Cmul RtoC]. replace (sh * im zh + 0 * re zh) with (im zh * sh) by ring. apply (r_mul HG).
    - nra.
    - replace (u * Cabs w * (u * Cabs w)) with (u * u * (Cabs w * Cabs w)) by ring. rewrite Cabs_sq. unfold Cnorm2.
      assert (E : forall z, Rabs z * Rabs z = z * z) by (intros; rewrite <- Rabs_mult; apply Rabs_pos_eq; nra).
      pose proof (E (re w)). pose proof (E (im w)). nra. }
  assert (E2 : Cabs (RtoC sh *c zh -c RtoC s *c z) <= u * s * (q * S) + s * ((q - 1) * S)).
  { replace (RtoC sh *c zh -c RtoC s *c z) with (RtoC (sh - s) *c zh +c RtoC s *c (zh -c z)) by (creal; ring).
    eapply Rle_trans; [apply Cabs_tri|]. rewrite !Cabs_mul, !Cabs_R, (Rabs_pos_eq s) by exact Hs.
    apply Rplus_le_compat; apply Rmult_le_compat; try assumption; try apply Rabs_pos; try lra. }
  replace (cscale (F := G) sh zh -c RtoC s *c z) with ((cscale (F := G) sh zh -c RtoC sh *c zh) +c (RtoC sh *c zh -c RtoC s *c z)) by ring.
  eapply Rle_trans; [apply Cabs_tri|].
  assert (E3 : Rabs sh * Cabs zh <= (1 + u) * s * (q * S)) by (apply Rmult_le_compat; assumption).
  apply Rle_trans with (u * ((1 + u) * s * (q * S)) + (u * s * (q * S) + s * ((q - 1) * S))); [|right; ring].
  apply Rplus_le_compat; [|exact E2]. eapply Rle_trans; [exact E1|]. apply Rmult_le_compat_l; assumption.
Qed.

(* growth factor of one butterfly with a twiddle accurate to d *)
Variable d : R.
Hypothesis Hd : 0 <= d.
Definition QQ : R := (1 + d) * (1 + gam) * (1 + u).
Lemma QQ_ge1 : 1 <= QQ.
Proof. unfold QQ. pose proof u_pos. pose proof gam_pos. assert (1 <= (1 + d) * (1 + gam)) by nra. nra. Qed.
Lemma near_w w wh : Cabs w = 1 -> Cabs (wh -c w) <= d -> near (1 + d) 1 w wh.
Proof. intros H1 H2. split; [lra|]. split; lra. Qed.
Lemma bf_add mul q Sa Sb a b w ah bh wh : mul_ok mul -> near q Sa a ah -> near q Sb b bh -> near (1 + d) 1 w wh ->
  near (q * QQ) (Sa + Sb) (a +c b *c w) (cadd (F := G) ah (mul bh wh)).
Proof.
  intros Hm Ha Hb Hw. pose proof (near_mul Hm Hb Hw) as P. rewrite Rmult_1_r in P.
  pose proof gam_pos. pose proof (proj1 Ha). unfold QQ.
  assert (1 <= (1 + d) * (1 + gam)) by nra.
  eapply near_mono; [apply (@near_add (q * (1 + d) * (1 + gam)))|right; ring|apply Rle_refl].
  - eapply near_mono; [exact Ha| |apply Rle_refl]. nra.
  - exact P.
Qed.
Lemma bf_sub mul q Sa Sb a b w ah bh wh : mul_ok mul -> near q Sa a ah -> near q Sb b bh -> near (1 + d) 1 w wh ->
  near (q * QQ) (Sa + Sb) (a -c b *c w) (csub (F := G) ah (mul bh wh)).
Proof.
  intros Hm Ha Hb Hw. pose proof (near_mul Hm Hb Hw) as P. rewrite Rmult_1_r in P.
  pose proof gam_pos. pose proof (proj1 Ha). unfold QQ.
  assert (1 <= (1 + d) * (1 + gam)) by nra.
  eapply near_mono; [apply (@near_sub (q * (1 + d) * (1 + gam)))|right; ring|apply Rle_refl].
  - eapply near_mono; [exact Ha| |apply Rle_refl]. nra.
  - exact P.
Qed.
Lemma u_le_QQ : 1 + u <= QQ.
Proof. unfold QQ. pose proof u_pos. pose proof gam_pos. assert (1 <= (1 + d) * (1 + gam)) by nra. nra. Qed.
Lemma bf_add0 q Sa Sb a b ah bh : near q Sa a ah -> near q Sb b bh -> near (q * QQ) (Sa + Sb) (a +c b) (cadd (F := G) ah bh).
Proof.
  intros Ha Hb. pose proof u_le_QQ. pose proof (proj1 Ha).
  eapply near_mono; [apply (near_add Ha Hb)|nra|apply Rle_refl].
Qed.
Lemma bf_sub0 q Sa Sb a b ah bh : near q Sa a ah -> near q Sb b bh -> near (q * QQ) (Sa + Sb) (a -c b) (csub (F := G) ah bh).
Proof.
  intros Ha Hb. pose proof u_le_QQ. pose proof (proj1 Ha).
  eapply near_mono; [apply (near_sub Ha Hb)|nra|apply Rle_refl].
Qed.

(* ---------- sums ---------- *)
Lemma rsum_le' n f g : (forall i, (i < n)%nat -> f i <= g i) -> rsum n f <= rsum n g.
Proof. induction n as [|n IH]; intros H; cbn [rsum]; [lra|]. pose proof (H n ltac:(lia)). assert (rsum n f <= rsum n g) by (apply IH; intros; apply H; lia). lra. Qed.
Lemma rsum_pos n f : (forall i, (i < n)%nat -> 0 <= f i) -> 0 <= rsum n f.
Proof. intros H. rewrite <- (@rsum_0 n (fun _ => 0)) by reflexivity. apply rsum_le'. exact H. Qed.
Lemma rsum_const' n a : rsum n (fun _ => a) = INR n * a.
Proof. induction n as [|n IH]; cbn [rsum]; [cbn; ring|]. rewrite IH, S_INR. ring. Qed.
Lemma rsum_even_odd n f : rsum (2 * n) f = rsum n (fun i => f (2 * i)%nat) + rsum n (fun i => f (2 * i + 1)%nat).
Proof.
  induction n as [|n IH]; [cbn; ring|]. replace (2 * S n)%nat with (S (S (2 * n)))%nat by lia. cbn [rsum]. rewrite IH.
  replace (S (2 * n))%nat with (2 * n + 1)%nat by lia. ring.
Qed.

(* ---------- Stockham ---------- *)
Lemma Cmul_comm a b : a *c b = b *c a.
Proof. ring. Qed.
Lemma stk_near mul (tw : nat -> C) L q0 (S : nat -> R) (x xh : nat -> C) s : mul_ok mul ->
  (forall k, (k < 2 ^ L / 2)%nat -> Cabs (tw k -c W (2 ^ L) k) <= d) ->
  (forall i, (i < 2 ^ L)%nat -> near q0 (S i) (x i) (xh i)) -> (s <= L)%nat ->
  forall k j, (k < 2 ^ s)%nat -> (j < 2 ^ (L - s))%nat ->
  near (q0 * QQ ^ s) (rsum (2 ^ s) (fun m => S (j + m * 2 ^ (L - s))%nat))
    (dft (2 ^ s) (fun m => x (j + m * 2 ^ (L - s))%nat) k) (stk_fun (F := G) mul tw (2 ^ L) s xh (k * 2 ^ (L - s) + j)).
Proof.
  intros Hm Htw Hx. induction s as [|s IH]; intros Hs k j Hk Hj.
  - cbn [stk_fun Nat.pow pow rsum]. assert (k = 0)%nat by (cbn in Hk; lia). subst k. rewrite dft_1. rewrite Nat.sub_0_r in *.
    cbn [Nat.mul Nat.add]. rewrite Nat.add_0_r, Rmult_1_r, Rplus_0_l. apply Hx. exact Hj.
  - cbn [stk_fun].
    assert (EN : (2 ^ L = 2 ^ (Datatypes.S s) * 2 ^ (L - Datatypes.S s))%nat) by (rewrite <- Nat.pow_add_r; f_equal; lia).
    assert (Hdv : (2 ^ L / 2 ^ Datatypes.S s = 2 ^ (L - Datatypes.S s))%nat).
    { rewrite EN, Nat.mul_comm, Nat.div_mul by (apply Nat.pow_nonzero; lia). reflexivity. }
    rewrite Hdv. set (n2 := (2 ^ (L - Datatypes.S s))%nat) in *.
    assert (E2 : (2 ^ (L - s) = 2 * n2)%nat).
    { unfold n2. rewrite <- Nat.pow_succ_r'. f_equal. lia. }
    rewrite Nat.pow_succ_r' in *. set (n1 := (2 ^ s)%nat) in *.
    assert (Hn1 : (0 < n1)%nat) by apply pow2_pos. assert (Hn2 : (0 < n2)%nat) by apply pow2_pos.
    specialize (IH ltac:(lia)). rewrite E2 in IH.
    assert (Htk : forall k, (k < n1)%nat -> near (1 + d) 1 (W (2 * n1) k) (tw (k * n2)%nat)).
    { intros k' Hk'. replace (W (2 * n1) k') with (W (2 ^ L) (k' * n2)).
      - apply near_w; [apply Cabs_W|]. apply Htw. rewrite EN. apply Nat.div_le_lower_bound; nia.
      - rewrite EN. rewrite (Nat.mul_comm k'), (Nat.mul_comm (2 * n1)). apply W_scale; lia. }
    assert (ES : rsum (2 * n1) (fun m => S (j + m * n2)%nat) =
      rsum n1 (fun m => S (j + m * (2 * n2))%nat) + rsum n1 (fun m => S (j + n2 + m * (2 * n2))%nat)).
    { rewrite rsum_even_odd. f_equal; apply rsum_ext; intros; f_equal; lia. }
    rewrite ES. cbn [pow]. replace (q0 * (QQ * QQ ^ s)) with (q0 * QQ ^ s * QQ) by ring.
    assert (SF : forall k, (k < n1)%nat ->
      stage_fun (F := G) mul tw n1 n2 (stk_fun (F := G) mul tw (2 ^ L) s xh) (k * n2 + j) =
        cadd (F := G) (stk_fun (F := G) mul tw (2 ^ L) s xh (k * (2 * n2) + j)) (mul (stk_fun (F := G) mul tw (2 ^ L) s xh (k * (2 * n2) + (j + n2))) (tw (k * n2)%nat)) /\
      stage_fun (F := G) mul tw n1 n2 (stk_fun (F := G) mul tw (2 ^ L) s xh) ((k + n1) * n2 + j) =
        csub (F := G) (stk_fun (F := G) mul tw (2 ^ L) s xh (k * (2 * n2) + j)) (mul (stk_fun (F := G) mul tw (2 ^ L) s xh (k * (2 * n2) + (j + n2))) (tw (k * n2)%nat))).
    { clear k Hk. intros k Hk. unfold stage_fun.
      assert (D1 : ((k * n2 + j) / n2 = k)%nat) by (apply div_iff; lia).
      assert (D2 : (((k + n1) * n2 + j) / n2 = k + n1)%nat) by (apply div_iff; lia).
      rewrite D1, D2, (@mod_of_div _ k), (@mod_of_div _ (k + n1)) by lia.
      destruct (Nat.ltb_spec k n1); [|lia]. destruct (Nat.ltb_spec (k + n1) n1); [lia|].
      replace (k + n1 - n1)%nat with k by lia.
      replace (2 * k * n2 + (k * n2 + j - k * n2))%nat with (k * (2 * n2) + j)%nat by lia.
      replace (2 * k * n2 + n2 + (k * n2 + j - k * n2))%nat with (k * (2 * n2) + (j + n2))%nat by lia.
      replace (2 * k * n2 + ((k + n1) * n2 + j - (k + n1) * n2))%nat with (k * (2 * n2) + j)%nat by lia.
      replace (2 * k * n2 + n2 + ((k + n1) * n2 + j - (k + n1) * n2))%nat with (k * (2 * n2) + (j + n2))%nat by lia.
      split; reflexivity. }
    assert (DE : forall k, dft n1 (fun i => x (j + 2 * i * n2)%nat) k = dft n1 (fun m => x (j + m * (2 * n2))%nat) k)
      by (intros; apply dft_ext; intros; f_equal; lia).
    assert (DO : forall k, dft n1 (fun i => x (j + (2 * i + 1) * n2)%nat) k = dft n1 (fun m => x (j + n2 + m * (2 * n2))%nat) k)
      by (intros; apply dft_ext; intros; f_equal; lia).
    destruct (Nat.lt_ge_cases k n1) as [Hk1|Hk1].
    + destruct (SF k Hk1) as [-> _]. rewrite dft_even_odd, DE, DO by exact Hn1.
      rewrite (Cmul_comm (W _ _)). apply bf_add; [exact Hm|apply IH; lia|apply IH; lia|apply Htk; exact Hk1].
    + replace k with ((k - n1) + n1)%nat by lia.
      destruct (SF (k - n1)%nat ltac:(lia)) as [_ ->]. rewrite dft_hi, DE, DO by exact Hn1.
      rewrite (Cmul_comm (W _ _)). apply bf_sub; [exact Hm|apply IH; lia|apply IH; lia|apply Htk; lia].
Qed.

Definition near_list (q : R) (S : nat -> R) (x xh : list C) : Prop :=
  length xh = length x /\ forall i, (i < length x)%nat -> near q (S i) (at_ x i) (at_ xh i).
Definition tw_ok (n : nat) : Prop := forall k, (k < n / 2)%nat -> Cabs (at_ (twf (F := G) c n) k -c W n k) <= d.
Lemma nthc_at l i : (i < length l)%nat -> nthc (F := G) l i = at_ l i.
Proof. intros H. unfold nthc, at_. apply nth_indep. exact H. Qed.
Lemma DFT_at x k : (k < length x)%nat -> at_ (DFT x) k = dft (length x) (at_ x) k.
Proof. intros H. unfold DFT, at_ at 1. rewrite nth_tab by exact H. reflexivity. Qed.

Lemma stkp_near mul q S x xh : mul_ok mul -> is_pow2 (length x) = true -> tw_ok (length x) -> near_list q S x xh ->
  near_list (q * QQ ^ Nat.log2 (length x)) (fun _ => rsum (length x) S) (DFT x) (stkp (F := G) c mul xh).
Proof.
  intros Hm Hp Ht [Hl Hx]. apply is_pow2_iff in Hp. destruct Hp as [L HL].
  split; [rewrite stkp_length, DFT_length; exact Hl|]. rewrite DFT_length. intros k Hk.
  rewrite DFT_at by exact Hk. unfold stkp, at_ at 2. rewrite Hl, nth_tab by exact Hk. rewrite HL in *. rewrite Nat.log2_pow2 by lia.
  pose proof (@stk_near mul (nthc (F := G) (twf (F := G) c (2 ^ L))) L q S (at_ x) (nthc (F := G) xh) L Hm) as P.
  rewrite Nat.sub_diag in P. cbn [Nat.pow] in P.
  specialize (P ltac:(intros i Hi; rewrite nthc_at by (rewrite twf_length; exact Hi); apply Ht; exact Hi)).
  specialize (P ltac:(intros i Hi; rewrite nthc_at by lia; apply Hx; exact Hi) (le_n _) k 0%nat Hk ltac:(lia)).
  replace (k * 1 + 0)%nat with k in P by lia.
  rewrite (@dft_ext (2 ^ L) (fun m => at_ x (0 + m * 1)) (at_ x)) in P by (intros; f_equal; lia).
  eapply near_S; [exact P|]. apply rsum_ext. intros. f_equal. lia.
Qed.

(* ---------- straight-line kernels ---------- *)
Record kern_ok : Prop := {
  ko7 : Rabs (@fk707 R G - cos (PI / 4)) <= d / 2;
  ko9 : Rabs (@fk924 R G - cos (PI / 8)) <= d / 2;
  ko3 : Rabs (@fk383 R G - sin (PI / 8)) <= d / 2 }.
Lemma near_const a b ah bh : Rabs (ah - a) <= d / 2 -> Rabs (bh - b) <= d / 2 -> a * a + b * b = 1 -> near (1 + d) 1 (mkcx a b) (mkcx ah bh).
Proof.
  intros H1 H2 H3. apply near_w.
  - unfold Cabs, Cnorm2. cbn [re im]. rewrite H3. apply sqrt_1.
  - apply (@Cabs_comp _ (d / 2) (d / 2)); [exact H1|exact H2|exact Hd|nra].
Qed.
Lemma neg_const a ah : Rabs (ah - a) <= d / 2 -> Rabs (- ah - - a) <= d / 2.
Proof. intros H. replace (- ah - - a) with (- (ah - a)) by ring. rewrite Rabs_Ropp. exact H. Qed.
Lemma same_const a : Rabs (a - a) <= d / 2.
Proof. rewrite Rminus_diag_eq by reflexivity. rewrite Rabs_R0. lra. Qed.
Lemma unit8 : cos (PI / 8) * cos (PI / 8) + sin (PI / 8) * sin (PI / 8) = 1.
Proof. pose proof (sin2_cos2 (PI / 8)) as H. unfold Rsqr in H. lra. Qed.

Ltac kc K := first [ apply neg_const; kc K | exact (ko7 K) | exact (ko9 K) | exact (ko3 K) | apply same_const ].
Ltac wc K := apply near_const; [kc K | kc K | first [ pose proof cos_PI4_sq; lra | pose proof unit8; lra | lra ] ].
Ltac tree K Hx :=
  match goal with
  | |- near _ _ (_ +c (_ *c mkcx _ _)) (cadd _ (cmul _ _ _)) => eapply bf_add; [exact cmul_err | tree K Hx | tree K Hx | wc K]
  | |- near _ _ (_ -c (_ *c mkcx _ _)) (csub _ (cmul _ _ _)) => eapply bf_sub; [exact cmul_err | tree K Hx | tree K Hx | wc K]
  | |- near _ _ (_ +c _) (cadd _ _) => eapply bf_add0; tree K Hx
  | |- near _ _ (_ -c _) (csub _ _) => eapply bf_sub0; tree K Hx
  | _ => first [ exact (Hx 0%nat ltac:(cbn; lia)) | exact (Hx 1%nat ltac:(cbn; lia)) | exact (Hx 2%nat ltac:(cbn; lia)) | exact (Hx 3%nat ltac:(cbn; lia))
    | exact (Hx 4%nat ltac:(cbn; lia)) | exact (Hx 5%nat ltac:(cbn; lia)) | exact (Hx 6%nat ltac:(cbn; lia)) | exact (Hx 7%nat ltac:(cbn; lia))
    | exact (Hx 8%nat ltac:(cbn; lia)) | exact (Hx 9%nat ltac:(cbn; lia)) | exact (Hx 10%nat ltac:(cbn; lia)) | exact (Hx 11%nat ltac:(cbn; lia))
    | exact (Hx 12%nat ltac:(cbn; lia)) | exact (Hx 13%nat ltac:(cbn; lia)) | exact (Hx 14%nat ltac:(cbn; lia)) | exact (Hx 15%nat ltac:(cbn; lia)) ]
  end.
Ltac kclean := cbn [fneg fone fzero fk707 fk924 fk383 RF RFloat_of]; rewrite ?cmul_R; change (@cadd R RF) with Cadd; change (@csub R RF) with Csub.
Lemma near_Done (q : R) S (x : list C) (y z : list C) : DFT x = z -> length y = length x ->
  (forall i, (i < length x)%nat -> near q S (nth i z C0) (nth i y C0)) -> near_list q (fun _ => S) (DFT x) y.
Proof. intros <- Hl H. split; [rewrite DFT_length; exact Hl|]. rewrite DFT_length. exact H. Qed.
Lemma Done_inj A (a b : A) : Done a = Done b -> a = b.
Proof. intros H. injection H. auto. Qed.
Ltac each_index i := (destruct i as [|i]; [|try (exfalso; cbn in *; lia); each_index i]).
Ltac fin K Hx := cbn [nth]; eapply near_mono; [tree K Hx|right; cbn [pow]; ring|right; cbn [rsum]; ring].

Lemma fft2_near (K : kern_ok) q S x xh : length x = 2%nat -> near_list q S x xh ->
  exists y, fft2 (F := G) xh = Done y /\ near_list (q * QQ ^ 1) (fun _ => rsum 2 S) (DFT x) y.
Proof.
  intros E [Hl Hx]. pose proof (fft2_R x E) as ER.
  do 2 (destruct x as [|? x]; [discriminate|]). destruct x; [|discriminate].
  do 2 (destruct xh as [|? xh]; [discriminate|]). destruct xh; [|discriminate]. clear Hl E.
  eexists. split; [reflexivity|]. cbn [fft2] in ER. revert ER. kclean. intros ER. apply Done_inj in ER. symmetry in ER.
  eapply near_Done; [exact ER|reflexivity|]. cbn [length] in *. unfold at_ in Hx. intros i Hi.
  destruct i as [|[|i]]; [fin K Hx|fin K Hx|lia].
Qed.
Lemma fft4_near (K : kern_ok) q S x xh : length x = 4%nat -> near_list q S x xh ->
  exists y, fft4 (F := G) c xh = Done y /\ near_list (q * QQ ^ 2) (fun _ => rsum 4 S) (DFT x) y.
Proof.
  intros E [Hl Hx]. pose proof (fft4_R c x E) as ER.
  do 4 (destruct x as [|? x]; [discriminate|]). destruct x; [|discriminate].
  do 4 (destruct xh as [|? xh]; [discriminate|]). destruct xh; [|discriminate]. clear Hl E.
  eexists. split; [reflexivity|]. cbn [fft4] in ER. revert ER. cbv zeta. kclean. intros ER. apply Done_inj in ER. symmetry in ER.
  rewrite (r_zero HG), (r_neg HG), (r_one HG).
  eapply near_Done; [exact ER|reflexivity|]. cbn [length] in *. unfold at_ in Hx. intros i Hi.
  destruct i as [|[|[|[|i]]]]; [fin K Hx|fin K Hx|fin K Hx|fin K Hx|lia].
Qed.
Lemma fft8_near (K : kern_ok) q S x xh : length x = 8%nat -> near_list q S x xh ->
  exists y, fft8 (F := G) c xh = Done y /\ near_list (q * QQ ^ 3) (fun _ => rsum 8 S) (DFT x) y.
Proof.
  intros E [Hl Hx]. pose proof (fft8_R c x E) as ER.
  do 8 (destruct x as [|? x]; [discriminate|]). destruct x; [|discriminate].
  do 8 (destruct xh as [|? xh]; [discriminate|]). destruct xh; [|discriminate]. clear Hl E.
  eexists. split; [reflexivity|]. cbn [fft8] in ER. revert ER. cbv zeta. kclean. intros ER. apply Done_inj in ER. symmetry in ER.
  rewrite (r_zero HG), (r_one HG), !(r_neg HG).
  eapply near_Done; [exact ER|reflexivity|]. cbn [length] in *. unfold at_ in Hx. intros i Hi.
  destruct i as [|[|[|[|[|[|[|[|i]]]]]]]]; [fin K Hx|fin K Hx|fin K Hx|fin K Hx|fin K Hx|fin K Hx|fin K Hx|fin K Hx|lia].
Qed.
Lemma fft16_near (K : kern_ok) q S x xh : length x = 16%nat -> near_list q S x xh ->
  exists y, fft16 (F := G) c xh = Done y /\ near_list (q * QQ ^ 4) (fun _ => rsum 16 S) (DFT x) y.
Proof.
  intros E [Hl Hx]. pose proof (fft16_R c x E) as ER.
  do 16 (destruct x as [|? x]; [discriminate|]). destruct x; [|discriminate].
  do 16 (destruct xh as [|? xh]; [discriminate|]). destruct xh; [|discriminate]. clear Hl E.
  eexists. split; [reflexivity|]. cbn [fft16] in ER. revert ER. cbv zeta. kclean. intros ER. apply Done_inj in ER. symmetry in ER.
  rewrite (r_zero HG), (r_one HG), !(r_neg HG).
  eapply near_Done; [exact ER|reflexivity|]. cbn [length] in *. unfold at_ in Hx. intros i Hi.
  destruct i as [|[|[|[|[|[|[|[|[|[|[|[|[|[|[|[|i]]]]]]]]]]]]]]]]; [fin K Hx|fin K Hx|fin K Hx|fin K Hx|fin K Hx|fin K Hx|fin K Hx|fin K Hx|fin K Hx|fin K Hx|fin K Hx|fin K Hx|fin K Hx|fin K Hx|fin K Hx|fin K Hx|lia].
Qed.

Lemma log2_16 : Nat.log2 16 = 4%nat. Proof. reflexivity. Qed.
Lemma small_near (K : kern_ok) q S x xh : is_pow2 (length x) = true -> (1 < length x <= 16)%nat -> near_list q S x xh ->
  near_list (q * QQ ^ Nat.log2 (length x)) (fun _ => rsum (length x) S) (DFT x) (small_fft (F := G) c xh).
Proof.
  intros Hp Hn H. assert (Hl : length xh = length x) by apply H. unfold small_fft, small_kernel. rewrite Hl.
  destruct (small_cases Hp ltac:(lia)) as [E|[E|[E|[E|E]]]]; [lia| | | |]; rewrite E; cbn [Nat.eqb].
  - destruct (fft2_near K E H) as (y & -> & Hy). exact Hy.
  - destruct (fft4_near K E H) as (y & -> & Hy). exact Hy.
  - destruct (fft8_near K E H) as (y & -> & Hy). exact Hy.
  - destruct (fft16_near K E H) as (y & -> & Hy). exact Hy.
Qed.
Lemma pow2fft_near q S x xh : ((length x <= 16)%nat -> kern_ok) -> is_pow2 (length x) = true -> ((16 < length x)%nat -> tw_ok (length x)) -> near_list q S x xh ->
  near_list (q * QQ ^ Nat.log2 (length x)) (fun _ => rsum (length x) S) (DFT x) (pow2fft (F := G) c xh).
Proof.
  intros K Hp Ht H. assert (Hl : length xh = length x) by apply H. unfold pow2fft. rewrite Hl.
  destruct (Nat.leb_spec (length x) 1).
  - assert (E : length x = 1%nat). { apply is_pow2_iff in Hp. destruct Hp as [L E]. pose proof (pow2_pos L). lia. }
    rewrite E. cbn [Nat.log2 Nat.log2_iter pow rsum]. destruct x as [|a [|]]; try discriminate. destruct xh as [|b [|]]; try discriminate.
    split; [reflexivity|]. intros i Hi. cbn in Hi. assert (i = 0)%nat by lia. subst i. rewrite DFT_at by (cbn; lia). cbn [length]. rewrite dft_1.
    destruct H as [_ H]. specialize (H 0%nat ltac:(cbn; lia)). rewrite Rmult_1_r, Rplus_0_l. exact H.
  - destruct (Nat.leb_spec (length x) 16).
    + apply small_near; [apply K; lia|exact Hp|lia|exact H].
    + apply stkp_near; [exact mulk_err|exact Hp|apply Ht; lia|exact H].
Qed.

(* ---------- the recurrence that fills the twiddle table ---------- *)
Lemma tw_step_err cs sn wre wim : Cabs (mkcx (@fmul_add R G wre cs (@fneg R G (@fmul R G wim sn))) (@fmul_add R G wim cs (@fmul R G wre sn))
   -c mkcx wre wim *c mkcx cs sn) <= gam * (Cabs (mkcx wre wim) * Cabs (mkcx cs sn)).
Proof.
  apply prod_err; cbn [re im].
  - replace (wre * cs - wim * sn) with (wre * cs + - (wim * sn)) by ring. rewrite <- (Rabs_Ropp (wim * sn)).
    eapply fma_err; [|apply (r_fma HG)]. rewrite (r_neg HG). pose proof (r_mul HG wim sn) as M.
    replace (- fmul wim sn - - (wim * sn)) with (- (@fmul R G wim sn - wim * sn)) by ring. rewrite !Rabs_Ropp. exact M.
  - rewrite (Rplus_comm (wre * sn)), (Rplus_comm (Rabs (wre * sn))). eapply fma_err; [|apply (r_fma HG)]. apply (r_mul HG).
Qed.
Lemma tw_loop_near w cs sn e : Cabs w = 1 -> 0 <= e -> Cabs (mkcx cs sn -c w) <= e ->
  forall n q z wre wim i, near q 1 z (mkcx wre wim) -> (i < n)%nat ->
  near (q * ((1 + e) * (1 + gam)) ^ i) 1 (z *c Cpow w i) (at_ (tw_loop (F := G) n cs sn wre wim) i).
Proof.
  intros Hw He Hcs. induction n as [|n IH]; intros q z wre wim i Hz Hi; [lia|]. cbn [tw_loop]. unfold at_.
  destruct i as [|i]; cbn [nth pow Cpow].
  - rewrite Rmult_1_r. replace (z *c C1) with z by ring. exact Hz.
  - assert (N : near (q * (1 + e) * (1 + gam)) 1 (z *c w) (mkcx (@fmul_add R G wre cs (@fneg R G (@fmul R G wim sn))) (@fmul_add R G wim cs (@fmul R G wre sn)))).
    { set (mul := fun a b : C => mkcx (@fmul_add R G (re a) (re b) (@fneg R G (@fmul R G (im a) (im b)))) (@fmul_add R G (im a) (re b) (@fmul R G (re a) (im b)))).
      assert (Hm : mul_ok mul). { intros [a1 a2] [b1 b2]. apply tw_step_err. }
      assert (Nw : near (1 + e) 1 w (mkcx cs sn)) by (split; [lra|]; split; lra).
      pose proof (near_mul Hm Hz Nw) as P. rewrite Rmult_1_r in P. exact P. }
    specialize (IH _ _ _ _ i N ltac:(lia)). unfold at_ in IH.
    replace (z *c (Cpow w i *c w)) with (z *c w *c Cpow w i) by ring.
    replace (q * ((1 + e) * (1 + gam) * ((1 + e) * (1 + gam)) ^ i)) with (q * (1 + e) * (1 + gam) * ((1 + e) * (1 + gam)) ^ i) by ring. exact IH.
Qed.

Definition tw_angle (n : nat) : R := @fdiv R G (@fmul R G (@fneg R G (@flit R G 2%Q)) (@fpi R G)) (@fofnat R G n).
Lemma pow_ge1 a n : 1 <= a -> 1 <= a ^ n.
Proof. intros H. induction n as [|n IH]; cbn [pow]; [lra|]. nra. Qed.
Lemma pow_mono a n m : 1 <= a -> (n <= m)%nat -> a ^ n <= a ^ m.
Proof. intros H Hnm. apply Rle_pow; assumption. Qed.
Lemma tw_table_near n e k : 0 <= e -> Cabs (expi (F := G) (tw_angle n) -c W n 1) <= e -> (k < n / 2)%nat ->
  Cabs (at_ (tw_table (F := G) n) k -c W n k) <= ((1 + e) * (1 + gam)) ^ k - 1.
Proof.
  intros He Hs Hk. unfold tw_table. fold (tw_angle n). unfold expi in Hs. destruct (fsin_cos (tw_angle n)) as [sn cs].
  assert (N : near 1 1 C1 (mkcx (@fone R G) (@fzero R G))).
  { rewrite (r_one HG), (r_zero HG). apply near_refl. change (Cabs (RtoC 1) <= 1). rewrite Cabs_R, Rabs_R1. lra. }
  assert (Hn : (0 < n)%nat) by (destruct n; [cbn in Hk; lia|lia]).
  pose proof (@tw_loop_near (W n 1) cs sn e (Cabs_W n 1) He Hs (n / 2)%nat 1 C1 (@fone R G) (@fzero R G) k N Hk) as (_ & _ & P).
  rewrite Cpow_W in P by exact Hn. rewrite Nat.mul_1_r in P.
  replace (C1 *c W n k) with (W n k) in P by ring. lra.
Qed.

(* ---------- Bluestein ---------- *)
Lemma at_tab n (f : nat -> C) i : (i < n)%nat -> at_ (tab n f) i = f i.
Proof. intros H. unfold at_. apply nth_tab. exact H. Qed.
(* the chirp is exp(i th(k)) up to e, whatever the angles th *)
Definition chirp_at (th : nat -> R) (n : nat) (e : R) : Prop := forall i, (i < n)%nat ->
  Cabs (expi (F := G) (blue_angle (F := G) n i) -c cis (th i)) <= e /\
  Cabs (expi (F := G) (@fneg R G (blue_angle (F := G) n i)) -c cis (- th i)) <= e.
Definition chirp_ok (n : nat) (e : R) : Prop := chirp_at (fun i => PI * (INR i * INR i) / INR n) n e.
Lemma near_cis e t w : 0 <= e -> Cabs (w -c cis t) <= e -> near (1 + e) 1 (cis t) w.
Proof. intros He H. split; [lra|]. split; [rewrite Cabs_cis; lra|lra]. Qed.
Lemma czero_G : czero (F := G) = C0.
Proof. unfold czero, C0. rewrite (r_zero HG). reflexivity. Qed.
Lemma near_0 q : 1 <= q -> near q 0 C0 C0.
Proof. intros H. split; [exact H|]. split; [rewrite Cabs_0; lra|]. replace (C0 -c C0) with C0 by ring. rewrite Cabs_0. lra. Qed.
(* moduli of the wrapped conjugate chirp *)
Definition bS (n : nat) (i : nat) : R := if (i <? n)%nat then 1 else if (blue_m n - n <? i)%nat then 1 else 0.
Definition bs (th : nat -> R) (n : nat) : list C :=
  tab (blue_m n) (fun i => if (i <? n)%nat then cis (th i) else if (blue_m n - n <? i)%nat then cis (th (blue_m n - i)%nat) else C0).
Lemma bs_length th n : length (bs th n) = blue_m n.
Proof. apply tab_length. Qed.
Lemma bl_b_near th n e : (0 < n)%nat -> 0 <= e -> chirp_at th n e -> near_list (1 + e) (bS n) (bs th n) (bl_b (F := G) n).
Proof.
  intros Hn He Hc. split; [rewrite bl_b_length, bs_length; reflexivity|]. rewrite bs_length. intros i Hi.
  unfold bl_b, bs. rewrite !at_tab by exact Hi. unfold bS. pose proof (blue_m_ge n).
  destruct (Nat.ltb_spec i n).
  - apply near_cis; [exact He|]. apply Hc. assumption.
  - destruct (Nat.ltb_spec (blue_m n - n) i).
    + apply near_cis; [exact He|]. apply Hc. lia.
    + rewrite czero_G. apply near_0. lra.
Qed.
Lemma rsum_split' a b f : rsum (a + b) f = rsum a f + rsum b (fun i => f (a + i)%nat).
Proof. induction b as [|b IH]; [rewrite Nat.add_0_r; cbn; ring|]. rewrite Nat.add_succ_r. cbn [rsum]. rewrite IH. ring. Qed.
Lemma bS_sum n : (0 < n)%nat -> rsum (blue_m n) (bS n) = 2 * INR n - 1.
Proof.
  intros Hn. pose proof (blue_m_ge n). set (m := blue_m n) in *.
  replace (rsum m (bS n)) with (rsum (n + ((m + 1 - 2 * n) + (n - 1))) (bS n)) by (f_equal; lia).
  rewrite !rsum_split'. rewrite (@rsum_ext n _ (fun _ => 1)).
  2:{ intros i Hi. unfold bS. destruct (Nat.ltb_spec i n); [reflexivity|lia]. }
  rewrite (@rsum_0 (m + 1 - 2 * n)).
  2:{ intros i Hi. unfold bS. fold m. destruct (Nat.ltb_spec (n + i) n); [lia|]. destruct (Nat.ltb_spec (m - n) (n + i)); [lia|reflexivity]. }
  rewrite (@rsum_ext (n - 1) _ (fun _ => 1)).
  2:{ intros i Hi. unfold bS. fold m. destruct (Nat.ltb_spec (n + (m + 1 - 2 * n + i)) n); [lia|]. destruct (Nat.ltb_spec (m - n) (n + (m + 1 - 2 * n + i))); [reflexivity|lia]. }
  rewrite !rsum_const', minus_INR by lia. cbn [INR]. ring.
Qed.
Lemma near_list_mono q q' S S' x xh : near_list q S x xh -> q <= q' -> (forall i, (i < length x)%nat -> S i <= S' i) -> near_list q' S' x xh.
Proof. intros [Hl H] Hq HS. split; [exact Hl|]. intros i Hi. eapply near_mono; [apply H; exact Hi|exact Hq|apply HS; exact Hi]. Qed.

Lemma blue_chirp_at n i : (i < n)%nat -> nthc (F := G) (blue_chirp (F := G) n) i = expi (F := G) (@fneg R G (blue_angle (F := G) n i)).
Proof. intros H. unfold nthc, blue_chirp. rewrite nth_tab by exact H. reflexivity. Qed.
Lemma near_list_at q S x xh i : near_list q S x xh -> (i < length x)%nat -> near q (S i) (at_ x i) (at_ xh i).
Proof. intros [_ H]. apply H. Qed.
Lemma zip_apply_at f (a b : list C) i : length a = length b -> (i < length a)%nat -> at_ (zip_apply f a b) i = f (at_ a i) (at_ b i).
Proof.
  intros Hl Hi. unfold at_. rewrite nth_zip_apply with (db := C0) by exact Hi. destruct (Nat.ltb_spec i (length b)); [reflexivity|lia].
Qed.
Lemma map_at (f : C -> C) l i : (i < length l)%nat -> at_ (map f l) i = f (at_ l i).
Proof. intros Hi. unfold at_. rewrite map_as_tab with (d := C0), nth_tab by exact Hi. reflexivity. Qed.
(* the chirp transform with angles th, in exact arithmetic; with th k = pi k^2 / n it is the DFT *)
Definition gap (k j : nat) : nat := ((k - j) + (j - k))%nat.
Definition chirpz (th : nat -> R) (x : list C) : list C :=
  tab (length x) (fun k => csum (length x) (fun j => at_ x j *c cis (- th j + th (gap k j) - th k))).
Lemma chirpz_DFT x : (0 < length x)%nat -> chirpz (fun i => PI * (INR i * INR i) / INR (length x)) x = DFT x.
Proof.
  intros Hn. unfold chirpz, DFT. apply tab_ext. intros k Hk. unfold dft. apply csum_ext. intros j Hj. f_equal. unfold W. f_equal.
  assert (HnR : INR (length x) <> 0) by (apply not_0_INR; lia).
  assert (E : INR (gap k j) * INR (gap k j) = (INR k - INR j) * (INR k - INR j)).
  { unfold gap. destruct (Nat.le_gt_cases j k) as [H|H].
    - replace (k - j + (j - k))%nat with (k - j)%nat by lia. rewrite minus_INR by lia. ring.
    - replace (k - j + (j - k))%nat with (j - k)%nat by lia. rewrite minus_INR by lia. ring. }
  rewrite E, mult_INR. field. exact HnR.
Qed.
Lemma chirpz_conv th x k : (0 < length x)%nat -> (k < length x)%nat -> let n := length x in let m := blue_m n in
  cconv m (at_ (tab n (fun i => at_ x i *c cis (- th i)) ++ repeat C0 (m - n))) (at_ (bs th n)) k *c cis (- th k) = at_ (chirpz th x) k.
Proof.
  intros Hn Hk. set (n := length x) in *. pose proof (blue_m_ge n) as Hm. cbv zeta. set (m := blue_m n) in *.
  unfold chirpz. fold n. rewrite at_tab by exact Hk. unfold cconv. rewrite <- csum_scal_r. rewrite csum_trunc with (n := n); [|lia|].
  - apply csum_ext. intros j Hj.
    assert (Ea : at_ (tab n (fun i => at_ x i *c cis (- th i)) ++ repeat C0 (m - n)) j = at_ x j *c cis (- th j)).
    { unfold at_ at 1. rewrite app_nth1 by (rewrite tab_length; exact Hj). rewrite nth_tab by exact Hj. reflexivity. }
    assert (Eb : at_ (bs th n) ((k + (m - j)) mod m) = cis (th (gap k j))).
    { unfold bs. fold m. rewrite at_tab by (apply Nat.mod_upper_bound; lia). unfold gap.
      destruct (Nat.le_gt_cases j k).
      - assert (Em : ((k + (m - j)) mod m = k - j)%nat).
        { replace (k + (m - j))%nat with ((k - j) + 1 * m)%nat by lia. rewrite Nat.mod_add by lia. apply Nat.mod_small. lia. }
        rewrite Em. destruct (Nat.ltb_spec (k - j) n); [|lia]. f_equal. f_equal. lia.
      - rewrite Nat.mod_small by lia. destruct (Nat.ltb_spec (k + (m - j)) n); [lia|].
        destruct (Nat.ltb_spec (m - n) (k + (m - j))); [|lia]. f_equal. f_equal. lia. }
    rewrite Ea, Eb. unfold Rminus. rewrite !cis_add. ring.
  - intros j Hj. unfold at_ at 1. rewrite app_nth2 by (rewrite tab_length; lia). rewrite nth_repeat. ring.
Qed.
Lemma bluefft_near_gen th q S x xh e : ((blue_m (length x) <= 16)%nat -> kern_ok) -> (0 < length x)%nat -> 0 <= e -> chirp_at th (length x) e ->
  ((16 < blue_m (length x))%nat -> tw_ok (blue_m (length x))) -> @fofnat R G (blue_m (length x)) = INR (blue_m (length x)) ->
  near_list q S x xh ->
  near_list (q * ((1 + e) * (1 + gam)) ^ 3 * (QQ ^ Nat.log2 (blue_m (length x))) ^ 3 * ((1 + u) * (1 + u)))
    (fun _ => (2 * INR (length x) - 1) * rsum (length x) S) (chirpz th x) (bluefft (F := G) c xh).
Proof.
  intros K Hn He Hc Ht Hm Hx. assert (Hl : length xh = length x) by apply Hx.
  unfold bluefft. rewrite Hl. set (n := length x) in *. pose proof (blue_m_ge n) as Hmn. pose proof (blue_m_pow2 n) as Hmp.
  pose proof (bS_sum Hn) as HS. pose proof (bl_b_near Hn He Hc) as Nb. set (m := blue_m n) in *. cbv zeta.
  set (Qm := QQ ^ Nat.log2 m).
  assert (HQm : 1 <= Qm) by (apply pow_ge1, QQ_ge1).
  pose proof gam_pos as Hg. pose proof u_pos as Hu.
  assert (Hn0 : (0 < m)%nat) by lia. assert (HmR : 0 < INR m) by (apply lt_0_INR; exact Hn0).
  (* chirped input *)
  set (S1 := fun i => if (i <? n)%nat then S i else 0).
  assert (HS1 : rsum m S1 = rsum n S).
  { replace (rsum m S1) with (rsum (n + (m - n)) S1) by (f_equal; lia). rewrite rsum_split'. rewrite (@rsum_0 (m - n)).
    - rewrite Rplus_0_r. apply rsum_ext. intros i Hi. unfold S1. destruct (Nat.ltb_spec i n); [reflexivity|lia].
    - intros i Hi. unfold S1. destruct (Nat.ltb_spec (n + i) n); [lia|reflexivity]. }
  assert (Hq : 1 <= q). { pose proof (near_list_at Hx (i := 0) Hn) as Q. apply Q. }
  assert (H1eg : 1 <= (1 + e) * (1 + gam)) by nra.
  set (a := tab n (fun i => at_ x i *c cis (- th i)) ++ repeat C0 (m - n)). set (ah := bl_a (F := G) c xh ++ repeat (czero (F := G)) (m - n)).
  assert (La : length a = m) by (unfold a; rewrite app_length, tab_length, repeat_length; lia).
  assert (Na : near_list (q * ((1 + e) * (1 + gam))) S1 a ah).
  { split; [unfold a, ah; rewrite !app_length, bl_a_length, tab_length, !repeat_length, Hl; fold n; lia|].
    rewrite La. intros i Hi. unfold a, ah, at_, S1. destruct (Nat.ltb_spec i n).
    - rewrite !app_nth1 by (rewrite ?bl_a_length, ?tab_length; lia). unfold bl_a. rewrite Hl. fold n. rewrite !nth_tab by assumption.
      rewrite blue_chirp_at by assumption. rewrite nthc_at by lia.
      pose proof (near_list_at Hx (i := i) ltac:(assumption)) as N1.
      pose proof (@near_cis e _ _ He (proj2 (Hc i ltac:(assumption)))) as N2.
      pose proof (near_mul cmul_err N1 N2) as P. rewrite Rmult_1_r in P.
      eapply near_mono; [exact P|right; ring|apply Rle_refl].
    - rewrite !app_nth2 by (rewrite ?bl_a_length, ?tab_length; fold n; lia). rewrite bl_a_length, tab_length, Hl.
      rewrite czero_G, !nth_repeat. apply near_0. nra. }
  assert (NA := pow2fft_near). specialize (NA _ _ _ _ ltac:(rewrite La; exact K) ltac:(rewrite La; exact Hmp) ltac:(rewrite La; exact Ht) Na).
  rewrite La, HS1 in NA. fold Qm in NA.
  assert (Lb : length (bs th n) = m) by apply bs_length.
  assert (NB := pow2fft_near). specialize (NB _ _ _ _ ltac:(rewrite Lb; exact K) ltac:(rewrite Lb; exact Hmp) ltac:(rewrite Lb; exact Ht) Nb).
  rewrite Lb, HS in NB. fold Qm in NB. clear Na Nb.
  unfold bl_fft_b.
  set (A := DFT a) in *. set (Ah := pow2fft c ah) in *. set (B := DFT (bs th n)) in *. set (Bh := pow2fft c (bl_b n)) in *.
  assert (LA : length A = m) by (unfold A; rewrite DFT_length; exact La).
  assert (LB : length B = m) by (unfold B; rewrite DFT_length; exact Lb).
  assert (LAh : length Ah = m) by (rewrite (proj1 NA); exact LA).
  assert (LBh : length Bh = m) by (rewrite (proj1 NB); exact LB).
  set (q1 := q * ((1 + e) * (1 + gam)) * Qm * ((1 + e) * Qm) * (1 + gam)).
  set (sx := rsum n S) in *.
  (* product, conjugated *)
  set (D := map Cconj (zip_apply Cmul A B)). set (Dh := map (cconj (F := G)) (zip_apply (cmul (F := G) c) Ah Bh)).
  assert (LD : length D = m) by (unfold D; rewrite map_length, zip_apply_length; exact LA).
  assert (LDh : length Dh = m) by (unfold Dh; rewrite map_length, zip_apply_length; exact LAh).
  assert (ND : near_list q1 (fun _ => sx * (2 * INR n - 1)) D Dh).
  { split; [lia|]. rewrite LD. intros i Hi. unfold D, Dh. rewrite !map_at by (rewrite zip_apply_length; lia).
    rewrite !zip_apply_at by lia. apply near_conj.
    apply (near_mul cmul_err); [apply (near_list_at NA); lia|apply (near_list_at NB); lia]. }
  assert (NE := pow2fft_near). specialize (NE _ _ _ _ ltac:(rewrite LD; exact K) ltac:(rewrite LD; exact Hmp) ltac:(rewrite LD; exact Ht) ND).
  rewrite LD, rsum_const' in NE. fold Qm in NE.
  set (E := DFT D) in *. set (Eh := pow2fft c Dh) in *.
  assert (LE : length E = m) by (unfold E; rewrite DFT_length; exact LD).
  assert (LEh : length Eh = m) by (rewrite (proj1 NE); exact LE).
  split; [unfold bl_out, chirpz; rewrite !tab_length; reflexivity|]. unfold chirpz at 1. rewrite tab_length. fold n. intros i Hi.
  unfold bl_out. rewrite at_tab by exact Hi. rewrite blue_chirp_at by assumption.
  rewrite nthc_at by (rewrite map_length; lia). rewrite map_at by lia.
  assert (EC : RtoC (/ INR m) *c Cconj (at_ E i) = cconv m (at_ a) (at_ (bs th n)) i).
  { rewrite <- idft_conv by lia. rewrite <- idft_conj. f_equal. f_equal. unfold E. rewrite DFT_at by lia. rewrite LD. apply dft_ext.
    intros t Ht'. unfold D. rewrite map_at by (rewrite zip_apply_length; lia). f_equal. rewrite zip_apply_at by lia.
    unfold A, B. rewrite !DFT_at by lia. rewrite La, Lb. reflexivity. }
  pose proof (@chirpz_conv th x i Hn Hi) as EZ. cbv zeta in EZ. fold n in EZ. fold m in EZ. fold a in EZ. rewrite <- EZ, <- EC. clear EZ EC.
  pose proof (near_conj (near_list_at NE (i := i) ltac:(lia))) as N1.
  assert (N2 : near (q1 * Qm * ((1 + u) * (1 + u))) (sx * (2 * INR n - 1)) (RtoC (/ INR m) *c Cconj (at_ E i)) (bl_scale (F := G) m (at_ Eh i))).
  { unfold bl_scale. rewrite Hm, (r_one HG).
    assert (Hs : Rabs (@fdiv R G 1 (INR m) - / INR m) <= u * / INR m).
    { pose proof (r_div HG 1 (b := INR m) ltac:(lra)) as P. unfold Rdiv in P. rewrite Rmult_1_l in P. rewrite (Rabs_pos_eq (/ INR m)) in P; [exact P|].
      left. apply Rinv_0_lt_compat. exact HmR. }
    pose proof (@near_scale _ _ _ _ (/ INR m) _ N1 ltac:(left; apply Rinv_0_lt_compat; exact HmR) Hs) as P.
    replace (/ INR m * (INR m * (sx * (2 * INR n - 1)))) with (sx * (2 * INR n - 1)) in P by (field; lra).
    exact P. }
  pose proof (@near_cis e _ _ He (proj2 (Hc i Hi))) as N3.
  pose proof (near_mul cmul_err N2 N3) as P.
  eapply near_mono; [exact P|right; unfold q1; ring|right; ring].
Qed.
Lemma bluefft_near q S x xh e : ((blue_m (length x) <= 16)%nat -> kern_ok) -> (0 < length x)%nat -> 0 <= e -> chirp_ok (length x) e ->
  ((16 < blue_m (length x))%nat -> tw_ok (blue_m (length x))) -> @fofnat R G (blue_m (length x)) = INR (blue_m (length x)) ->
  near_list q S x xh ->
  near_list (q * ((1 + e) * (1 + gam)) ^ 3 * (QQ ^ Nat.log2 (blue_m (length x))) ^ 3 * ((1 + u) * (1 + u)))
    (fun _ => (2 * INR (length x) - 1) * rsum (length x) S) (DFT x) (bluefft (F := G) c xh).
Proof. intros K Hn He Hc Ht Hm Hx. rewrite <- (chirpz_DFT x Hn). exact (@bluefft_near_gen _ q S x xh e K Hn He Hc Ht Hm Hx). Qed.

(* ---------- inverse ---------- *)
Lemma near_list_conj q S x xh : near_list q S x xh -> near_list q S (map Cconj x) (map (cconj (F := G)) xh).
Proof.
  intros [Hl H]. split; [rewrite !map_length; exact Hl|]. rewrite map_length. intros i Hi. rewrite !map_at by lia.
  apply near_conj, H. exact Hi.
Qed.
Lemma IDFT_at y k : (k < length y)%nat -> at_ (IDFT y) k = RtoC (/ INR (length y)) *c Cconj (at_ (DFT (map Cconj y)) k).
Proof.
  intros H. rewrite DFT_at by (rewrite map_length; exact H). unfold IDFT, at_ at 1. rewrite nth_tab by exact H. rewrite map_length.
  rewrite <- idft_conj. f_equal. f_equal. apply dft_ext. intros i Hi. rewrite map_at by exact Hi. reflexivity.
Qed.
Lemma ifft_of_near n q S y (D Dh : list C) : (1 < n)%nat -> length y = n -> @fofnat R G n = INR n -> D = DFT (map Cconj y) ->
  near_list q (fun _ => S) D Dh ->
  near_list (q * ((1 + u) * (1 + u))) (fun _ => / INR n * S) (IDFT y)
    (map (fun v => cscale (F := G) (@fdiv R G (@fone R G) (@fofnat R G n)) (cconj (F := G) v)) Dh).
Proof.
  intros Hn Hy Hf -> [Hl HD]. rewrite DFT_length, map_length, Hy in *.
  split; [unfold IDFT; rewrite map_length, tab_length; congruence|]. unfold IDFT at 1. rewrite tab_length, Hy. intros i Hi.
  assert (HnR : 0 < INR n) by (apply lt_0_INR; lia).
  rewrite map_at by lia. rewrite IDFT_at by lia. rewrite Hy, Hf, (r_one HG).
  assert (Hs : Rabs (@fdiv R G 1 (INR n) - / INR n) <= u * / INR n).
  { pose proof (r_div HG 1 (b := INR n) ltac:(lra)) as P. unfold Rdiv in P. rewrite Rmult_1_l in P. rewrite (Rabs_pos_eq (/ INR n)) in P; [exact P|].
    left. apply Rinv_0_lt_compat. exact HnR. }
  exact (@near_scale _ _ _ _ (/ INR n) _ (near_conj (HD i Hi)) ltac:(left; apply Rinv_0_lt_compat; exact HnR) Hs).
Qed.
Lemma ifft_near q S y yh : ((length y <= 16)%nat -> kern_ok) -> is_pow2 (length y) = true -> ((16 < length y)%nat -> tw_ok (length y)) ->
  @fofnat R G (length y) = INR (length y) -> near_list q S y yh ->
  near_list (q * QQ ^ Nat.log2 (length y) * ((1 + u) * (1 + u))) (fun _ => / INR (length y) * rsum (length y) S) (IDFT y) (ifft_fresh (F := G) c yh).
Proof.
  intros K Hp Ht Hf H. assert (Hl : length yh = length y) by apply H. unfold ifft_fresh. rewrite Hl.
  pose proof u_pos. assert (U : 1 <= (1 + u) * (1 + u)) by nra.
  destruct (Nat.eqb_spec (length y) 1) as [E|E].
  - rewrite E. cbn [Nat.log2 Nat.log2_iter pow rsum INR]. destruct y as [|a [|]]; try discriminate. destruct yh as [|b [|]]; try discriminate.
    split; [reflexivity|]. intros i Hi. cbn in Hi. assert (i = 0)%nat by lia. subst i. rewrite IDFT_at by (cbn; lia). rewrite DFT_at by (cbn; lia). cbn [length map INR]. rewrite dft_1.
    destruct H as [_ H]. specialize (H 0%nat ltac:(cbn; lia)). rewrite Rinv_1. unfold at_. cbn [nth].
    replace (RtoC 1 *c Cconj (Cconj a)) with a by (creal; ring). pose proof (proj1 H) as H1q.
    eapply near_mono; [exact H|clear - U H1q; rewrite Rmult_1_r; rewrite <- (Rmult_1_r q) at 1; apply Rmult_le_compat_l; lra|lra].
  - assert (Hn : (1 < length y)%nat). { apply is_pow2_iff in Hp. destruct Hp as [L EL]. pose proof (pow2_pos L). lia. }
    unfold fft_fresh. rewrite map_length, Hl, Hp.
    pose proof (@pow2fft_near q S (map Cconj y) (map (cconj (F := G)) yh)) as P. rewrite map_length in P.
    specialize (P K Hp Ht (near_list_conj H)).
    exact (@ifft_of_near (length y) _ _ y _ _ Hn eq_refl Hf eq_refl P).
Qed.
End Err.

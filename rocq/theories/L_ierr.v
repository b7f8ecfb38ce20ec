(* Rounding with overflow and underflow: a number type whose finite values v stand for reals, whose operations
   are off by a relative error u0 plus an absolute error eta (gradual underflow) as long as the exact result
   does not exceed Mx, and about whose other results (infinities, NaN) nothing is known. *)
From Coq Require Import Reals Lra Lia.
From Verif Require Import L_err.
Set Implicit Arguments.
Open Scope R_scope.

Section Ieee.
Context {T : Type}.
Variables (G : Float T) (fin : T -> Prop) (v : T -> R).
Definition op_ok (u0 eta Mx : R) (r : R) (x : T) : Prop := Rabs r <= Mx -> fin x /\ Rabs (v x - r) <= u0 * Rabs r + eta.
Record bounded (u0 eta Mx : R) : Prop := {
  i_u : 0 <= u0 <= / 16;
  i_eta : 0 <= eta;
  i_zero : fin (@fzero T G) /\ v (@fzero T G) = 0;
  i_one : fin (@fone T G) /\ v (@fone T G) = 1;
  i_neg : forall a, fin a -> fin (@fneg T G a) /\ v (@fneg T G a) = - v a;
  i_add : forall a b, fin a -> fin b -> op_ok u0 eta Mx (v a + v b) (@fadd T G a b);
  i_sub : forall a b, fin a -> fin b -> op_ok u0 eta Mx (v a - v b) (@fsub T G a b);
  i_mul : forall a b, fin a -> fin b -> op_ok u0 eta Mx (v a * v b) (@fmul T G a b);
  i_div : forall a b, fin a -> fin b -> v b <> 0 -> op_ok u0 eta Mx (v a / v b) (@fdiv T G a b);
  i_fma : forall a b d, fin a -> fin b -> fin d -> op_ok u0 eta Mx (v a * v b + v d) (@fmul_add T G a b d) }.
Definition cv (z : cx T) : C := mkcx (v (re z)) (v (im z)).
Definition cfin (z : cx T) : Prop := fin (re z) /\ fin (im z).
End Ieee.

(* complex combination of two component errors *)
Lemma comp_err e z k j : Rabs (re e) <= k * Rabs (re z) + j -> Rabs (im e) <= k * Rabs (im z) + j -> 0 <= k -> 0 <= j -> Cabs e <= k * Cabs z + 2 * j.
Proof.
  intros H1 H2 Hk Hj. pose proof (Cabs_nonneg z) as Hz. pose proof (Rabs_pos (re z)). pose proof (Rabs_pos (im z)).
  assert (Sq : forall x : R, Rabs x * Rabs x = x * x) by (intros; rewrite <- Rabs_mult; apply Rabs_pos_eq; nra).
  assert (R1 : Rabs (re z) <= Cabs z). { apply le_sq; [exact Hz|]. rewrite Cabs_sq, Sq. unfold Cnorm2. nra. }
  assert (R2 : Rabs (im z) <= Cabs z). { apply le_sq; [exact Hz|]. rewrite Cabs_sq, Sq. unfold Cnorm2. nra. }
  eapply Cabs_comp; [exact H1|exact H2|nra|].
  replace ((k * Cabs z + 2 * j) * (k * Cabs z + 2 * j)) with (k * k * (Cabs z * Cabs z) + 4 * (k * j) * Cabs z + 4 * (j * j)) by ring.
  rewrite Cabs_sq. unfold Cnorm2. rewrite <- (Sq (re z)), <- (Sq (im z)). assert (0 <= k * j) by nra.
  assert (k * j * Rabs (re z) <= k * j * Cabs z) by (apply Rmult_le_compat_l; assumption). assert (k * j * Rabs (im z) <= k * j * Cabs z) by (apply Rmult_le_compat_l; assumption).
  assert (0 <= j * j) by nra. lra.
Qed.
Lemma Rabs_re z : Rabs (re z) <= Cabs z.
Proof. apply le_sq; [apply Cabs_nonneg|]. rewrite Cabs_sq, <- Rabs_mult, Rabs_pos_eq by nra. unfold Cnorm2. nra. Qed.
Lemma Rabs_im z : Rabs (im z) <= Cabs z.
Proof. apply le_sq; [apply Cabs_nonneg|]. rewrite Cabs_sq, <- Rabs_mult, Rabs_pos_eq by nra. unfold Cnorm2. nra. Qed.
(* Cauchy-Schwarz for one component of a product *)
Lemma comp_prod x y z w : Rabs (x * z) + Rabs (y * w) <= Cabs (mkcx x y) * Cabs (mkcx z w).
Proof.
  rewrite !Rabs_mult. apply le_sq; [apply Rmult_le_pos; apply Cabs_nonneg|].
  replace (Cabs (mkcx x y) * Cabs (mkcx z w) * (Cabs (mkcx x y) * Cabs (mkcx z w))) with ((Cabs (mkcx x y) * Cabs (mkcx x y)) * (Cabs (mkcx z w) * Cabs (mkcx z w))) by ring.
  rewrite !Cabs_sq. unfold Cnorm2. cbn [re im].
  assert (Sq : forall x : R, x * x = Rabs x * Rabs x) by (intros; rewrite <- Rabs_mult; symmetry; apply Rabs_pos_eq; nra).
  rewrite (Sq x), (Sq y), (Sq z), (Sq w). generalize (Rabs x) (Rabs y) (Rabs z) (Rabs w). intros a b d e.
  pose proof (Rle_0_sqr (a * e - b * d)) as Q. unfold Rsqr in Q. nra.
Qed.

Section Err.
Context {T : Type}.
Variables (G : Float T) (fin : T -> Prop) (v : T -> R) (u0 eta Mx : R).
Hypothesis HG : bounded G fin v u0 eta Mx.
Local Notation cv := (cv v).
Local Notation cfin := (cfin fin).
Variable c : cfg.
Lemma u0_pos : 0 <= u0 <= / 16. Proof. apply HG. Qed.
Lemma eta_pos : 0 <= eta. Proof. apply HG. Qed.
Definition gam0 : R := 3 / 2 * (2 * u0 + u0 * u0).

Lemma cadd_i a b : cfin a -> cfin b -> Cabs (cv a +c cv b) <= Mx ->
  cfin (cadd (F := G) a b) /\ Cabs (cv (cadd (F := G) a b) -c (cv a +c cv b)) <= u0 * Cabs (cv a +c cv b) + 2 * eta.
Proof.
  intros (A1 & A2) (B1 & B2) H. pose proof u0_pos. pose proof eta_pos.
  destruct (i_add HG _ _ A1 B1) as [F1 E1]; [eapply Rle_trans; [apply (Rabs_re (cv a +c cv b))|exact H]|].
  destruct (i_add HG _ _ A2 B2) as [F2 E2]; [eapply Rle_trans; [apply (Rabs_im (cv a +c cv b))|exact H]|].
  split; [split; assumption|]. apply comp_err; [exact E1|exact E2|lra|lra].
Qed.
Lemma csub_i a b : cfin a -> cfin b -> Cabs (cv a -c cv b) <= Mx ->
  cfin (csub (F := G) a b) /\ Cabs (cv (csub (F := G) a b) -c (cv a -c cv b)) <= u0 * Cabs (cv a -c cv b) + 2 * eta.
Proof.
  intros (A1 & A2) (B1 & B2) H. pose proof u0_pos. pose proof eta_pos.
  destruct (i_sub HG _ _ A1 B1) as [F1 E1]; [eapply Rle_trans; [apply (Rabs_re (cv a -c cv b))|exact H]|].
  destruct (i_sub HG _ _ A2 B2) as [F2 E2]; [eapply Rle_trans; [apply (Rabs_im (cv a -c cv b))|exact H]|].
  split; [split; assumption|]. apply comp_err; [exact E1|exact E2|lra|lra].
Qed.
(* one component of a product: two rounded products, then a rounded difference or sum *)
Lemma sub_prod_i p q p' q' r : Rabs (p' - p) <= u0 * Rabs p + eta -> Rabs (q' - q) <= u0 * Rabs q + eta ->
  Rabs (r - (p' - q')) <= u0 * Rabs (p' - q') + eta -> Rabs (r - (p - q)) <= (2 * u0 + u0 * u0) * (Rabs p + Rabs q) + 4 * eta.
Proof.
  intros Hp Hq Hr. pose proof u0_pos. pose proof eta_pos. pose proof (Rabs_pos p). pose proof (Rabs_pos q).
  assert (E : Rabs (p' - q' - (p - q)) <= u0 * Rabs p + u0 * Rabs q + 2 * eta).
  { replace (p' - q' - (p - q)) with ((p' - p) + - (q' - q)) by ring. pose proof (Rabs_triang (p' - p) (- (q' - q))). rewrite Rabs_Ropp in *. lra. }
  assert (E2 : Rabs (p' - q') <= (1 + u0) * (Rabs p + Rabs q) + 2 * eta).
  { apply Rabs_le_sum in E. pose proof (Rabs_triang p (- q)) as Q. rewrite Rabs_Ropp in Q. unfold Rminus in *. lra. }
  pose proof (@near_trans_abs r (p' - q') (p - q) _ Hr).
  assert (u0 * Rabs (p' - q') <= u0 * ((1 + u0) * (Rabs p + Rabs q) + 2 * eta)) by (apply Rmult_le_compat_l; lra).
  assert (u0 * eta <= / 16 * eta) by (apply Rmult_le_compat_r; lra). lra.
Qed.
Lemma add_prod_i p q p' q' r : Rabs (p' - p) <= u0 * Rabs p + eta -> Rabs (q' - q) <= u0 * Rabs q + eta ->
  Rabs (r - (p' + q')) <= u0 * Rabs (p' + q') + eta -> Rabs (r - (p + q)) <= (2 * u0 + u0 * u0) * (Rabs p + Rabs q) + 4 * eta.
Proof.
  intros Hp Hq Hr. replace (p + q) with (p - - q) by ring. rewrite <- (Rabs_Ropp q).
  apply (@sub_prod_i p (- q) p' (- q')); [exact Hp| |].
  - replace (- q' - - q) with (- (q' - q)) by ring. rewrite !Rabs_Ropp. exact Hq.
  - replace (p' - - q') with (p' + q') by ring. exact Hr.
Qed.
Lemma prod_i r a b : Rabs (re r - (re a * re b - im a * im b)) <= (2 * u0 + u0 * u0) * (Rabs (re a * re b) + Rabs (im a * im b)) + 4 * eta ->
  Rabs (im r - (re a * im b + im a * re b)) <= (2 * u0 + u0 * u0) * (Rabs (re a * im b) + Rabs (im a * re b)) + 4 * eta ->
  Cabs (r -c a *c b) <= gam0 * (Cabs a * Cabs b) + 6 * eta.
Proof.
  intros H1 H2. pose proof u0_pos. pose proof eta_pos. pose proof (Cabs_nonneg a). pose proof (Cabs_nonneg b).
  set (k := 2 * u0 + u0 * u0) in *. assert (Hk : 0 <= k) by (unfold k; nra).
  destruct a as [a1 a2], b as [b1 b2]. cbn [re im] in *.
  pose proof (comp_prod a1 a2 b1 b2) as Q1. pose proof (comp_prod a1 a2 b2 b1) as Q2.
  assert (EB : Cabs (mkcx b2 b1) = Cabs (mkcx b1 b2)) by (unfold Cabs, Cnorm2; cbn [re im]; f_equal; ring). rewrite EB in Q2.
  pose proof (@prod_bound k a1 a2 b1 b2 Hk) as PB.
  assert (NN : (a1 * a1 + a2 * a2) * (b1 * b1 + b2 * b2) = (Cabs (mkcx a1 a2) * Cabs (mkcx b1 b2)) * (Cabs (mkcx a1 a2) * Cabs (mkcx b1 b2))).
  { replace (Cabs (mkcx a1 a2) * Cabs (mkcx b1 b2) * (Cabs (mkcx a1 a2) * Cabs (mkcx b1 b2))) with ((Cabs (mkcx a1 a2) * Cabs (mkcx a1 a2)) * (Cabs (mkcx b1 b2) * Cabs (mkcx b1 b2))) by ring.
    rewrite !Cabs_sq. reflexivity. }
  rewrite NN in PB. set (M := Cabs (mkcx a1 a2) * Cabs (mkcx b1 b2)) in *. assert (HM : 0 <= M) by (unfold M; apply Rmult_le_pos; assumption).
  pose proof (Rabs_pos (a1 * b1)). pose proof (Rabs_pos (a2 * b2)). pose proof (Rabs_pos (a1 * b2)). pose proof (Rabs_pos (a2 * b1)).
  set (A := Rabs (a1 * b1) + Rabs (a2 * b2)) in *. set (B := Rabs (a1 * b2) + Rabs (a2 * b1)) in *.
  eapply Cabs_comp; [exact H1|exact H2| |].
  - unfold gam0. fold k. nra.
  - unfold gam0. fold k. assert (KE : 0 <= k * eta) by nra. assert (0 <= eta * eta) by nra.
    assert (k * eta * A <= k * eta * M) by (apply Rmult_le_compat_l; assumption). assert (k * eta * B <= k * eta * M) by (apply Rmult_le_compat_l; assumption).
    replace ((k * A + 4 * eta) * (k * A + 4 * eta) + (k * B + 4 * eta) * (k * B + 4 * eta)) with (k * A * (k * A) + k * B * (k * B) + 8 * (k * eta * A) + 8 * (k * eta * B) + 32 * (eta * eta)) by ring.
    replace ((3 / 2 * k * M + 6 * eta) * (3 / 2 * k * M + 6 * eta)) with (9 / 4 * (k * k) * (M * M) + 18 * (k * eta * M) + 36 * (eta * eta)) by field.
    assert (0 <= k * eta * M) by (apply Rmult_le_pos; assumption). lra.
Qed.
(* products of finite numbers whose moduli allow it *)
Definition mul_i (mul : cx T -> cx T -> cx T) := forall a b, cfin a -> cfin b -> (1 + u0) * (Cabs (cv a) * Cabs (cv b)) + 2 * eta <= Mx ->
  cfin (mul a b) /\ Cabs (cv (mul a b) -c cv a *c cv b) <= gam0 * (Cabs (cv a) * Cabs (cv b)) + 6 * eta.
Lemma rnd_le p p' : Rabs (p' - p) <= u0 * Rabs p + eta -> Rabs p' <= (1 + u0) * Rabs p + eta.
Proof. intros H. apply Rabs_le_sum in H. lra. Qed.
Lemma one_le x y z w : Rabs (x * z) <= Cabs (mkcx x y) * Cabs (mkcx z w).
Proof. pose proof (comp_prod x y z w). pose proof (Rabs_pos (y * w)). lra. Qed.
Lemma swapC x y : Cabs (mkcx y x) = Cabs (mkcx x y).
Proof. unfold Cabs, Cnorm2; cbn [re im]; f_equal; ring. Qed.
Section Prod.
Variables (a b : cx T).
Hypothesis (Fa : cfin a) (Fb : cfin b) (HM : (1 + u0) * (Cabs (cv a) * Cabs (cv b)) + 2 * eta <= Mx).
Let M := Cabs (cv a) * Cabs (cv b).
Lemma M_le x : Rabs x <= M -> Rabs x <= Mx.
Proof. intros H. pose proof u0_pos. pose proof eta_pos. assert (0 <= M) by (apply Rmult_le_pos; apply Cabs_nonneg). unfold M in *. nra. Qed.
Lemma p_rr : Rabs (v (re a) * v (re b)) <= M. Proof. apply one_le. Qed.
Lemma p_ii : Rabs (v (im a) * v (im b)) <= M.
Proof. unfold M, cv. rewrite (swapC (v (im a))), (swapC (v (im b))). apply one_le. Qed.
Lemma p_ri : Rabs (v (re a) * v (im b)) <= M. Proof. unfold M, cv. rewrite (swapC (v (im b))). apply one_le. Qed.
Lemma p_ir : Rabs (v (im a) * v (re b)) <= M. Proof. unfold M, cv. rewrite (swapC (v (im a))). apply one_le. Qed.
Lemma p_re : Rabs (v (re a) * v (re b)) + Rabs (v (im a) * v (im b)) <= M. Proof. apply comp_prod. Qed.
Lemma p_im : Rabs (v (re a) * v (im b)) + Rabs (v (im a) * v (re b)) <= M.
Proof. unfold M, cv. rewrite (swapC (v (im b)) (v (re b))). apply comp_prod. Qed.
Lemma sum_le p q p' q' : Rabs p + Rabs q <= M -> Rabs (p' - p) <= u0 * Rabs p + eta -> Rabs (q' - q) <= u0 * Rabs q + eta -> Rabs (p' + q') <= Mx /\ Rabs (p' - q') <= Mx.
Proof.
  intros H Hp Hq. apply rnd_le in Hp. apply rnd_le in Hq. pose proof u0_pos. assert (B : Rabs p' + Rabs q' <= Mx) by (unfold M in H; nra).
  split; [pose proof (Rabs_triang p' q'); lra|]. pose proof (Rabs_triang p' (- q')) as Q. rewrite Rabs_Ropp in Q. unfold Rminus. lra.
Qed.
Lemma cmul_plain_i : cfin (cmul_plain (F := G) a b) /\ Cabs (cv (cmul_plain (F := G) a b) -c cv a *c cv b) <= gam0 * M + 6 * eta.
Proof.
  destruct Fa as (A1 & A2), Fb as (B1 & B2).
  destruct (i_mul HG _ _ A1 B1 (M_le _ p_rr)) as [F1 E1]. destruct (i_mul HG _ _ A2 B2 (M_le _ p_ii)) as [F2 E2].
  destruct (i_mul HG _ _ A1 B2 (M_le _ p_ri)) as [F3 E3]. destruct (i_mul HG _ _ A2 B1 (M_le _ p_ir)) as [F4 E4].
  destruct (i_sub HG _ _ F1 F2 (proj2 (sum_le _ _ _ _ p_re E1 E2))) as [F5 E5]. destruct (i_add HG _ _ F3 F4 (proj1 (sum_le _ _ _ _ p_im E3 E4))) as [F6 E6].
  split; [split; assumption|]. apply prod_i; cbn [cmul_plain cv re im].
  - exact (sub_prod_i _ _ _ _ _ E1 E2 E5).
  - exact (add_prod_i _ _ _ _ _ E3 E4 E6).
Qed.
Lemma neg_err (p : R) x : fin x -> Rabs (v x - p) <= u0 * Rabs p + eta -> fin (@fneg T G x) /\ Rabs (v (@fneg T G x) - - p) <= u0 * Rabs (- p) + eta.
Proof. intros F E. destruct (i_neg HG _ F) as [F' ->]. split; [exact F'|]. replace (- v x - - p) with (- (v x - p)) by ring. rewrite !Rabs_Ropp. exact E. Qed.
Lemma exact_err p : Rabs (p - p) <= u0 * Rabs p + eta.
Proof. replace (p - p) with 0 by ring. rewrite Rabs_R0. pose proof u0_pos. pose proof eta_pos. pose proof (Rabs_pos p). nra. Qed.
Lemma cmul_fma_i : cfin (cmul_fma (F := G) a b) /\ Cabs (cv (cmul_fma (F := G) a b) -c cv a *c cv b) <= gam0 * M + 6 * eta.
Proof.
  destruct Fa as (A1 & A2), Fb as (B1 & B2).
  destruct (i_mul HG _ _ A2 B2 (M_le _ p_ii)) as [F2 E2]. destruct (i_mul HG _ _ A2 B1 (M_le _ p_ir)) as [F4 E4].
  destruct (neg_err _ F2 E2) as [F2' E2'].
  assert (P : Rabs (v (re a) * v (re b)) + Rabs (- (v (im a) * v (im b))) <= M) by (rewrite Rabs_Ropp; apply p_re).
  destruct (i_fma HG _ _ _ A1 B1 F2' (proj1 (sum_le _ _ _ _ P (exact_err _) E2'))) as [F5 E5].
  destruct (i_fma HG _ _ _ A1 B2 F4 (proj1 (sum_le _ _ _ _ p_im (exact_err _) E4))) as [F6 E6].
  split; [split; assumption|]. apply prod_i; cbn [cmul_fma cv re im].
  - pose proof (add_prod_i _ _ _ _ _ (exact_err _) E2' E5) as Q. rewrite Rabs_Ropp in Q.
    replace (v (re a) * v (re b) - v (im a) * v (im b)) with (v (re a) * v (re b) + - (v (im a) * v (im b))) by ring. exact Q.
  - exact (add_prod_i _ _ _ _ _ (exact_err _) E4 E6).
Qed.
Lemma tw_step_i : let r := mkcx (@fmul_add T G (re a) (re b) (@fneg T G (@fmul T G (im a) (im b)))) (@fmul_add T G (im a) (re b) (@fmul T G (re a) (im b))) in
  cfin r /\ Cabs (cv r -c cv a *c cv b) <= gam0 * M + 6 * eta.
Proof.
  cbv zeta. destruct Fa as (A1 & A2), Fb as (B1 & B2).
  destruct (i_mul HG _ _ A2 B2 (M_le _ p_ii)) as [F2 E2]. destruct (i_mul HG _ _ A1 B2 (M_le _ p_ri)) as [F4 E4].
  destruct (neg_err _ F2 E2) as [F2' E2'].
  assert (P : Rabs (v (re a) * v (re b)) + Rabs (- (v (im a) * v (im b))) <= M) by (rewrite Rabs_Ropp; apply p_re).
  assert (P2 : Rabs (v (im a) * v (re b)) + Rabs (v (re a) * v (im b)) <= M) by (rewrite Rplus_comm; apply p_im).
  destruct (i_fma HG _ _ _ A1 B1 F2' (proj1 (sum_le _ _ _ _ P (exact_err _) E2'))) as [F5 E5].
  destruct (i_fma HG _ _ _ A2 B1 F4 (proj1 (sum_le _ _ _ _ P2 (exact_err _) E4))) as [F6 E6].
  split; [split; assumption|]. apply prod_i; cbn [cv re im].
  - pose proof (add_prod_i _ _ _ _ _ (exact_err _) E2' E5) as Q. rewrite Rabs_Ropp in Q.
    replace (v (re a) * v (re b) - v (im a) * v (im b)) with (v (re a) * v (re b) + - (v (im a) * v (im b))) by ring. exact Q.
  - rewrite (Rplus_comm (v (re a) * v (im b))), (Rplus_comm (Rabs (v (re a) * v (im b)))). exact (add_prod_i _ _ _ _ _ (exact_err _) E4 E6).
Qed.
End Prod.
Lemma cmul_i : mul_i (cmul (F := G) c).
Proof. intros a b Fa Fb H. unfold cmul. destruct (c_fma c); [apply cmul_fma_i|apply cmul_plain_i]; assumption. Qed.
Lemma mulk_i : mul_i (mulk (F := G) c).
Proof. intros a b Fa Fb H. unfold mulk. destruct (c_kind c); [apply cmul_plain_i|apply cmul_plain_i|apply cmul_i]; assumption. Qed.

(* FL: size below which the absolute error eta is no longer covered by the slack u - u0 *)
Variables (FL u : R).
Hypothesis (HFL : 0 < FL) (Hu : u0 <= u) (Hu16 : u <= / 16) (Heta : 2 * eta <= (u - u0) * FL).
Local Notation gam := (gam u).
Lemma gamI_pos : 0 <= gam. Proof. unfold L_err.gam. pose proof u0_pos. nra. Qed.
Lemma u_ge0 : 0 <= u. Proof. pose proof u0_pos. lra. Qed.
Lemma gam_slack S : FL <= S -> gam0 * S + 6 * eta <= gam * S.
Proof.
  intros H. pose proof u0_pos. unfold L_err.gam, gam0. assert (A : (u - u0) * FL <= (u - u0) * S) by (apply Rmult_le_compat_l; lra).
  assert (u0 * u0 * S <= u * u * S) by (apply Rmult_le_compat_r; nra). lra.
Qed.
Lemma u_slack S : FL <= S -> u0 * S + 2 * eta <= u * S.
Proof. intros H. assert (A : (u - u0) * FL <= (u - u0) * S) by (apply Rmult_le_compat_l; lra). lra. Qed.
Lemma u_le_gam : u <= gam. Proof. unfold L_err.gam. pose proof u_ge0. nra. Qed.

(* zh is finite and within (q - 1) S of z, which has modulus at most S; inear: provided q S does not exceed Mx *)
Definition fnear (q S : R) (z : C) (zh : cx T) : Prop := 1 <= q /\ FL <= S /\ Cabs z <= S /\ cfin zh /\ Cabs (cv zh -c z) <= (q - 1) * S.
Definition inear (q S : R) (z : C) (zh : cx T) : Prop := 1 <= q /\ FL <= S /\ Cabs z <= S /\ (q * S <= Mx -> cfin zh /\ Cabs (cv zh -c z) <= (q - 1) * S).
Lemma fnear_inear q S z zh : fnear q S z zh -> inear q S z zh.
Proof. intros (A & B & C & D & E). repeat split; try assumption; apply D. Qed.
Lemma inear_fnear q S z zh : inear q S z zh -> q * S <= Mx -> fnear q S z zh.
Proof. intros (A & B & C & D) H. destruct (D H). repeat split; try assumption; apply H0. Qed.
Lemma inear_S q S S' z zh : inear q S z zh -> S = S' -> inear q S' z zh.
Proof. intros H <-. exact H. Qed.
Lemma inear_mono q q' S S' z zh : inear q S z zh -> q <= q' -> S <= S' -> inear q' S' z zh.
Proof.
  intros (H1 & H2 & H3 & H4) Hq HS. split; [lra|]. split; [lra|]. split; [lra|]. intros HM.
  assert (q * S <= q' * S') by (apply Rmult_le_compat; lra). destruct (H4 ltac:(lra)) as [F E]. split; [exact F|].
  eapply Rle_trans; [exact E|]. apply Rmult_le_compat; lra.
Qed.
Lemma fnear_mono q q' S S' z zh : fnear q S z zh -> q <= q' -> S <= S' -> fnear q' S' z zh.
Proof.
  intros (H1 & H2 & H3 & H4 & H5) Hq HS. split; [lra|]. split; [lra|]. split; [lra|]. split; [exact H4|].
  eapply Rle_trans; [exact H5|]. apply Rmult_le_compat; lra.
Qed.
Lemma fnear_refl zh : cfin zh -> fnear 1 (Cabs (cv zh) + FL) (cv zh) zh.
Proof.
  intros F. pose proof (Cabs_nonneg (cv zh)). repeat split; try lra; try apply F.
  replace (cv zh -c cv zh) with C0 by ring. rewrite Cabs_0. lra.
Qed.
Lemma fnear_abs q S z zh : fnear q S z zh -> Cabs (cv zh) <= q * S.
Proof. intros (H1 & _ & H2 & _ & H3). replace (cv zh) with ((cv zh -c z) +c z) by ring. eapply Rle_trans; [apply Cabs_tri|]. lra. Qed.
Lemma cv_conj z : cfin z -> cfin (cconj (F := G) z) /\ cv (cconj (F := G) z) = Cconj (cv z).
Proof. intros [A B]. unfold cconj, Cconj, L_ierr.cv, L_ierr.cfin. cbn [re im]. destruct (i_neg HG _ B) as [F ->]. repeat split; assumption. Qed.
Lemma inear_conj q S z zh : inear q S z zh -> inear q S (Cconj z) (cconj (F := G) zh).
Proof.
  intros (H1 & H2 & H3 & H4). split; [exact H1|]. split; [exact H2|]. split; [rewrite Cabs_conj; exact H3|]. intros HM.
  destruct (H4 HM) as [F E]. destruct (cv_conj F) as [F' ->]. split; [exact F'|].
  replace (Cconj (cv zh) -c Cconj z) with (Cconj (cv zh -c z)) by (creal; ring). rewrite Cabs_conj. exact E.
Qed.
Lemma add_bound q Sa Sb : 1 <= q -> FL <= Sa -> FL <= Sb -> q * (1 + u) * (Sa + Sb) <= Mx ->
  q * Sa <= Mx /\ q * Sb <= Mx /\ q * (Sa + Sb) <= Mx.
Proof.
  intros Hq Ha Hb H. pose proof u_ge0. assert (A : 0 <= q * Sa) by nra. assert (B : 0 <= q * Sb) by nra.
  assert (0 <= u * (q * Sa)) by nra. assert (0 <= u * (q * Sb)) by nra. repeat split; lra.
Qed.
Lemma inear_add q Sa Sb a b ah bh : inear q Sa a ah -> inear q Sb b bh -> inear (q * (1 + u)) (Sa + Sb) (a +c b) (cadd (F := G) ah bh).
Proof.
  intros (Hq & Fa & A1 & A2) (_ & Fb & B1 & B2). pose proof u_ge0. pose proof u0_pos.
  split; [nra|]. split; [lra|]. split; [eapply Rle_trans; [apply Cabs_tri|]; lra|]. intros HM.
  destruct (add_bound Hq Fa Fb HM) as (M1 & M2 & M3). destruct (A2 M1) as [A3 A4]. destruct (B2 M2) as [B3 B4].
  assert (D : Cabs ((cv ah +c cv bh) -c (a +c b)) <= (q - 1) * (Sa + Sb)).
  { replace ((cv ah +c cv bh) -c (a +c b)) with ((cv ah -c a) +c (cv bh -c b)) by ring. eapply Rle_trans; [apply Cabs_tri|]. lra. }
  assert (D2 : Cabs (cv ah +c cv bh) <= q * (Sa + Sb)).
  { replace (cv ah +c cv bh) with (((cv ah +c cv bh) -c (a +c b)) +c (a +c b)) by ring. eapply Rle_trans; [apply Cabs_tri|]. pose proof (Cabs_tri a b). lra. }
  destruct (cadd_i A3 B3 ltac:(lra)) as [F E]. split; [exact F|].
  replace (cv (cadd (F := G) ah bh) -c (a +c b)) with ((cv (cadd (F := G) ah bh) -c (cv ah +c cv bh)) +c ((cv ah +c cv bh) -c (a +c b))) by ring.
  eapply Rle_trans; [apply Cabs_tri|].
  assert (U : u0 * Cabs (cv ah +c cv bh) <= u0 * (q * (Sa + Sb))) by (apply Rmult_le_compat_l; lra).
  pose proof (@u_slack (q * (Sa + Sb)) ltac:(nra)). lra.
Qed.
Lemma inear_sub q Sa Sb a b ah bh : inear q Sa a ah -> inear q Sb b bh -> inear (q * (1 + u)) (Sa + Sb) (a -c b) (csub (F := G) ah bh).
Proof.
  intros (Hq & Fa & A1 & A2) (_ & Fb & B1 & B2). pose proof u_ge0. pose proof u0_pos.
  split; [nra|]. split; [lra|]. split; [eapply Rle_trans; [apply Cabs_sub|]; lra|]. intros HM.
  destruct (add_bound Hq Fa Fb HM) as (M1 & M2 & M3). destruct (A2 M1) as [A3 A4]. destruct (B2 M2) as [B3 B4].
  assert (D : Cabs ((cv ah -c cv bh) -c (a -c b)) <= (q - 1) * (Sa + Sb)).
  { replace ((cv ah -c cv bh) -c (a -c b)) with ((cv ah -c a) -c (cv bh -c b)) by ring. eapply Rle_trans; [apply Cabs_sub|]. lra. }
  assert (D2 : Cabs (cv ah -c cv bh) <= q * (Sa + Sb)).
  { replace (cv ah -c cv bh) with (((cv ah -c cv bh) -c (a -c b)) +c (a -c b)) by ring. eapply Rle_trans; [apply Cabs_tri|]. pose proof (Cabs_sub a b). lra. }
  destruct (csub_i A3 B3 ltac:(lra)) as [F E]. split; [exact F|].
  replace (cv (csub (F := G) ah bh) -c (a -c b)) with ((cv (csub (F := G) ah bh) -c (cv ah -c cv bh)) +c ((cv ah -c cv bh) -c (a -c b))) by ring.
  eapply Rle_trans; [apply Cabs_tri|].
  assert (U : u0 * Cabs (cv ah -c cv bh) <= u0 * (q * (Sa + Sb))) by (apply Rmult_le_compat_l; lra).
  pose proof (@u_slack (q * (Sa + Sb)) ltac:(nra)). lra.
Qed.
(* product with a factor that is known to be finite and of scale at least 1 *)
Lemma inear_mul mul qa qb Sa Sb a b ah bh : mul_i mul -> inear qa Sa a ah -> fnear qb Sb b bh -> 1 <= Sb ->
  inear (qa * qb * (1 + gam)) (Sa * Sb) (a *c b) (mul ah bh).
Proof.
  intros Hm Ha Hb HSb. pose proof (fnear_abs Hb) as B3. pose proof Ha as (Hqa & Fa & A1 & A2). destruct Hb as (Hqb & Fb & B1 & B4 & B2). pose proof gamI_pos as Hg. pose proof u0_pos as H0. pose proof eta_pos as He.
  pose proof (Cabs_nonneg a). pose proof (Cabs_nonneg b).
  assert (Q1 : 1 <= qa * qb) by nra. assert (S1 : Sa <= Sa * Sb) by nra.
  split; [nra|]. split; [lra|]. split; [rewrite Cabs_mul; apply Rmult_le_compat; assumption|]. intros HM.
  assert (P1 : 0 <= qa * qb * (Sa * Sb)) by (apply Rmult_le_pos; nra).
  assert (M1 : qa * Sa <= qa * qb * (Sa * Sb)).
  { replace (qa * qb * (Sa * Sb)) with ((qa * Sa) * (qb * Sb)) by ring. assert (0 <= qa * Sa) by nra. assert (1 <= qb * Sb) by nra. nra. }
  assert (M2 : qa * qb * (Sa * Sb) <= qa * qb * (1 + gam) * (Sa * Sb)) by nra.
  destruct (A2 ltac:(lra)) as [A3 A4].
  pose proof (@fnear_abs qa Sa a ah (inear_fnear Ha ltac:(lra))) as A5.
  pose proof (Cabs_nonneg (cv ah)). pose proof (Cabs_nonneg (cv bh)). pose proof (Cabs_nonneg (cv ah -c a)). pose proof (Cabs_nonneg (cv bh -c b)).
  assert (E : Cabs (cv ah *c cv bh -c a *c b) <= (qa * qb - 1) * (Sa * Sb)).
  { replace (cv ah *c cv bh -c a *c b) with ((cv ah -c a) *c cv bh +c a *c (cv bh -c b)) by ring.
    eapply Rle_trans; [apply Cabs_tri|]. rewrite !Cabs_mul.
    apply Rle_trans with ((qa - 1) * Sa * (qb * Sb) + Sa * ((qb - 1) * Sb)); [|right; ring].
    apply Rplus_le_compat; apply Rmult_le_compat; assumption. }
  assert (M : Cabs (cv ah) * Cabs (cv bh) <= qa * qb * (Sa * Sb)).
  { replace (qa * qb * (Sa * Sb)) with (qa * Sa * (qb * Sb)) by ring. apply Rmult_le_compat; assumption. }
  assert (FS : FL <= qa * qb * (Sa * Sb)) by nra.
  pose proof (u_slack FS) as Z. pose proof u_le_gam.
  assert (Z2 : u * (qa * qb * (Sa * Sb)) <= gam * (qa * qb * (Sa * Sb))) by (apply Rmult_le_compat_r; lra).
  assert (Z3 : (1 + u0) * (Cabs (cv ah) * Cabs (cv bh)) <= (1 + u0) * (qa * qb * (Sa * Sb))) by (apply Rmult_le_compat_l; lra).
  destruct (@Hm ah bh A3 B4) as [F E2]; [lra|]. split; [exact F|].
  replace (cv (mul ah bh) -c a *c b) with ((cv (mul ah bh) -c cv ah *c cv bh) +c (cv ah *c cv bh -c a *c b)) by ring.
  eapply Rle_trans; [apply Cabs_tri|]. pose proof (gam_slack FS) as Z4.
  assert (G0 : 0 <= gam0) by (unfold gam0; nra).
  assert (Z5 : gam0 * (Cabs (cv ah) * Cabs (cv bh)) <= gam0 * (qa * qb * (Sa * Sb))) by (apply Rmult_le_compat_l; assumption). lra.
Qed.

(* growth factor of one butterfly with a twiddle accurate to d *)
Variable d : R.
Hypothesis (Hd : 0 <= d) (HF1 : FL <= 1).
Local Notation QQ := (QQ u d).
Lemma QQI_ge1 : 1 <= QQ.
Proof. unfold L_err.QQ. pose proof u_ge0. pose proof gamI_pos. assert (1 <= (1 + d) * (1 + gam)) by nra. nra. Qed.
Definition wnear (w : C) (wh : cx T) : Prop := cfin wh /\ Cabs w = 1 /\ Cabs (cv wh -c w) <= d.
Lemma wnear_f w wh : wnear w wh -> fnear (1 + d) 1 w wh.
Proof. intros (F & W1 & E). repeat split; try lra; apply F. Qed.
Lemma bfI_add mul q Sa Sb a b w ah bh wh : mul_i mul -> inear q Sa a ah -> inear q Sb b bh -> wnear w wh ->
  inear (q * QQ) (Sa + Sb) (a +c b *c w) (cadd (F := G) ah (mul bh wh)).
Proof.
  intros Hm Ha Hb Hw. pose proof (inear_mul Hm Hb (wnear_f Hw) (Rle_refl 1)) as P. rewrite Rmult_1_r in P.
  pose proof gamI_pos. pose proof (proj1 Ha). unfold L_err.QQ. assert (1 <= (1 + d) * (1 + gam)) by nra.
  eapply inear_mono; [apply (@inear_add (q * (1 + d) * (1 + gam)))|right; ring|apply Rle_refl].
  - eapply inear_mono; [exact Ha| |apply Rle_refl]. nra.
  - exact P.
Qed.
Lemma bfI_sub mul q Sa Sb a b w ah bh wh : mul_i mul -> inear q Sa a ah -> inear q Sb b bh -> wnear w wh ->
  inear (q * QQ) (Sa + Sb) (a -c b *c w) (csub (F := G) ah (mul bh wh)).
Proof.
  intros Hm Ha Hb Hw. pose proof (inear_mul Hm Hb (wnear_f Hw) (Rle_refl 1)) as P. rewrite Rmult_1_r in P.
  pose proof gamI_pos. pose proof (proj1 Ha). unfold L_err.QQ. assert (1 <= (1 + d) * (1 + gam)) by nra.
  eapply inear_mono; [apply (@inear_sub (q * (1 + d) * (1 + gam)))|right; ring|apply Rle_refl].
  - eapply inear_mono; [exact Ha| |apply Rle_refl]. nra.
  - exact P.
Qed.
Lemma uI_le_QQ : 1 + u <= QQ.
Proof. unfold L_err.QQ. pose proof u_ge0. pose proof gamI_pos. assert (1 <= (1 + d) * (1 + gam)) by nra. nra. Qed.
Lemma bfI_add0 q Sa Sb a b ah bh : inear q Sa a ah -> inear q Sb b bh -> inear (q * QQ) (Sa + Sb) (a +c b) (cadd (F := G) ah bh).
Proof. intros Ha Hb. pose proof uI_le_QQ. pose proof (proj1 Ha). eapply inear_mono; [apply (inear_add Ha Hb)|nra|apply Rle_refl]. Qed.
Lemma bfI_sub0 q Sa Sb a b ah bh : inear q Sa a ah -> inear q Sb b bh -> inear (q * QQ) (Sa + Sb) (a -c b) (csub (F := G) ah bh).
Proof. intros Ha Hb. pose proof uI_le_QQ. pose proof (proj1 Ha). eapply inear_mono; [apply (inear_sub Ha Hb)|nra|apply Rle_refl]. Qed.

(* ---------- Stockham ---------- *)
Lemma stkI mul (tw : nat -> cx T) L q0 (S : nat -> R) (x : nat -> C) (xh : nat -> cx T) s : mul_i mul ->
  (forall k, (k < 2 ^ L / 2)%nat -> wnear (W (2 ^ L) k) (tw k)) ->
  (forall i, (i < 2 ^ L)%nat -> inear q0 (S i) (x i) (xh i)) -> (s <= L)%nat ->
  forall k j, (k < 2 ^ s)%nat -> (j < 2 ^ (L - s))%nat ->
  inear (q0 * QQ ^ s) (rsum (2 ^ s) (fun m => S (j + m * 2 ^ (L - s))%nat))
    (dft (2 ^ s) (fun m => x (j + m * 2 ^ (L - s))%nat) k) (stk_fun (F := G) mul tw (2 ^ L) s xh (k * 2 ^ (L - s) + j)).
Proof.
  intros Hm Htw Hx. induction s as [|s IH]; intros Hs k j Hk Hj.
  - cbn [stk_fun Nat.pow pow rsum]. assert (k = 0)%nat by (cbn in Hk; lia). subst k. rewrite dft_1. rewrite Nat.sub_0_r in *.
    cbn [Nat.mul Nat.add]. rewrite Nat.add_0_r, Rmult_1_r, Rplus_0_l. apply Hx. exact Hj.
  - cbn [stk_fun].
    assert (EN : (2 ^ L = 2 ^ (Datatypes.S s) * 2 ^ (L - Datatypes.S s))%nat) by (rewrite <- Nat.pow_add_r; f_equal; lia).
    assert (Hdv : (2 ^ L / 2 ^ Datatypes.S s = 2 ^ (L - Datatypes.S s))%nat).
    { rewrite EN, Nat.mul_comm, Nat.div_mul by (apply Nat.pow_nonzero; lia). reflexivity. }
    rewrite Hdv. set (n2 := (2 ^ (L - Datatypes.S s))%nat) in *.
    assert (E2 : (2 ^ (L - s) = 2 * n2)%nat).
    { unfold n2. rewrite <- Nat.pow_succ_r'. f_equal. lia. }
    rewrite Nat.pow_succ_r' in *. set (n1 := (2 ^ s)%nat) in *.
    assert (Hn1 : (0 < n1)%nat) by apply pow2_pos. assert (Hn2 : (0 < n2)%nat) by apply pow2_pos.
    specialize (IH ltac:(lia)). rewrite E2 in IH.
    assert (Htk : forall k, (k < n1)%nat -> wnear (W (2 * n1) k) (tw (k * n2)%nat)).
    { intros k' Hk'. replace (W (2 * n1) k') with (W (2 ^ L) (k' * n2)).
      - apply Htw. rewrite EN. apply Nat.div_le_lower_bound; nia.
      - rewrite EN. rewrite (Nat.mul_comm k'), (Nat.mul_comm (2 * n1)). apply W_scale; lia. }
    assert (ES : rsum (2 * n1) (fun m => S (j + m * n2)%nat) =
      rsum n1 (fun m => S (j + m * (2 * n2))%nat) + rsum n1 (fun m => S (j + n2 + m * (2 * n2))%nat)).
    { rewrite rsum_even_odd. f_equal; apply rsum_ext; intros; f_equal; lia. }
    rewrite ES. cbn [pow]. replace (q0 * (QQ * QQ ^ s)) with (q0 * QQ ^ s * QQ) by ring.
    assert (SF : forall k, (k < n1)%nat ->
      stage_fun (F := G) mul tw n1 n2 (stk_fun (F := G) mul tw (2 ^ L) s xh) (k * n2 + j) =
        cadd (F := G) (stk_fun (F := G) mul tw (2 ^ L) s xh (k * (2 * n2) + j)) (mul (stk_fun (F := G) mul tw (2 ^ L) s xh (k * (2 * n2) + (j + n2))) (tw (k * n2)%nat)) /\
      stage_fun (F := G) mul tw n1 n2 (stk_fun (F := G) mul tw (2 ^ L) s xh) ((k + n1) * n2 + j) =
        csub (F := G) (stk_fun (F := G) mul tw (2 ^ L) s xh (k * (2 * n2) + j)) (mul (stk_fun (F := G) mul tw (2 ^ L) s xh (k * (2 * n2) + (j + n2))) (tw (k * n2)%nat))).
    { clear k Hk. intros k Hk. unfold stage_fun.
      assert (D1 : ((k * n2 + j) / n2 = k)%nat) by (apply div_iff; lia).
      assert (D2 : (((k + n1) * n2 + j) / n2 = k + n1)%nat) by (apply div_iff; lia).
      rewrite D1, D2, (@mod_of_div _ k), (@mod_of_div _ (k + n1)) by lia.
      destruct (Nat.ltb_spec k n1); [|lia]. destruct (Nat.ltb_spec (k + n1) n1); [lia|].
      replace (k + n1 - n1)%nat with k by lia.
      replace (2 * k * n2 + (k * n2 + j - k * n2))%nat with (k * (2 * n2) + j)%nat by lia.
      replace (2 * k * n2 + n2 + (k * n2 + j - k * n2))%nat with (k * (2 * n2) + (j + n2))%nat by lia.
      replace (2 * k * n2 + ((k + n1) * n2 + j - (k + n1) * n2))%nat with (k * (2 * n2) + j)%nat by lia.
      replace (2 * k * n2 + n2 + ((k + n1) * n2 + j - (k + n1) * n2))%nat with (k * (2 * n2) + (j + n2))%nat by lia.
      split; reflexivity. }
    assert (DE : forall k, dft n1 (fun i => x (j + 2 * i * n2)%nat) k = dft n1 (fun m => x (j + m * (2 * n2))%nat) k)
      by (intros; apply dft_ext; intros; f_equal; lia).
    assert (DO : forall k, dft n1 (fun i => x (j + (2 * i + 1) * n2)%nat) k = dft n1 (fun m => x (j + n2 + m * (2 * n2))%nat) k)
      by (intros; apply dft_ext; intros; f_equal; lia).
    destruct (Nat.lt_ge_cases k n1) as [Hk1|Hk1].
    + destruct (SF k Hk1) as [-> _]. rewrite dft_even_odd, DE, DO by exact Hn1.
      rewrite (Cmul_comm (W _ _)). apply bfI_add; [exact Hm|apply IH; lia|apply IH; lia|apply Htk; exact Hk1].
    + replace k with ((k - n1) + n1)%nat by lia.
      destruct (SF (k - n1)%nat ltac:(lia)) as [_ ->]. rewrite dft_hi, DE, DO by exact Hn1.
      rewrite (Cmul_comm (W _ _)). apply bfI_sub; [exact Hm|apply IH; lia|apply IH; lia|apply Htk; lia].
Qed.

Definition ilist (q : R) (S : nat -> R) (x : list C) (xh : list (cx T)) : Prop :=
  length xh = length x /\ forall i, (i < length x)%nat -> inear q (S i) (at_ x i) (nthc (F := G) xh i).
Definition twI_ok (n : nat) : Prop := forall k, (k < n / 2)%nat -> wnear (W n k) (nthc (F := G) (twf (F := G) c n) k).
Lemma stkpI mul q S x xh : mul_i mul -> is_pow2 (length x) = true -> twI_ok (length x) -> ilist q S x xh ->
  ilist (q * QQ ^ Nat.log2 (length x)) (fun _ => rsum (length x) S) (DFT x) (stkp (F := G) c mul xh).
Proof.
  intros Hm Hp Ht [Hl Hx]. apply is_pow2_iff in Hp. destruct Hp as [L HL].
  split; [rewrite stkp_length, DFT_length; exact Hl|]. rewrite DFT_length. intros k Hk.
  rewrite DFT_at by exact Hk. unfold stkp, nthc at 1. rewrite Hl, nth_tab by exact Hk. rewrite HL in *. rewrite Nat.log2_pow2 by lia.
  pose proof (@stkI mul (nthc (F := G) (twf (F := G) c (2 ^ L))) L q S (at_ x) (nthc (F := G) xh) L Hm) as P.
  rewrite Nat.sub_diag in P. cbn [Nat.pow] in P. specialize (P Ht Hx (le_n _) k 0%nat Hk ltac:(lia)).
  replace (k * 1 + 0)%nat with k in P by lia.
  rewrite (@dft_ext (2 ^ L) (fun m => at_ x (0 + m * 1)) (at_ x)) in P by (intros; f_equal; lia).
  eapply inear_S; [exact P|]. apply rsum_ext. intros. f_equal. lia.
Qed.

(* ---------- straight-line kernels ---------- *)
Definition knear (a : R) (x : T) : Prop := fin x /\ Rabs (v x - a) <= d / 2.
Record kernI_ok : Prop := {
  kI7 : knear (cos (PI / 4)) (@fk707 T G);
  kI9 : knear (cos (PI / 8)) (@fk924 T G);
  kI3 : knear (sin (PI / 8)) (@fk383 T G) }.
Lemma nearI_const a b ah bh : knear a ah -> knear b bh -> a * a + b * b = 1 -> wnear (mkcx a b) (mkcx ah bh).
Proof.
  intros [F1 H1] [F2 H2] H3. repeat split; try assumption.
  - unfold Cabs, Cnorm2. cbn [re im]. rewrite H3. apply sqrt_1.
  - apply (@Cabs_comp _ (d / 2) (d / 2)); [exact H1|exact H2|exact Hd|nra].
Qed.
Lemma knear_neg a x : knear a x -> knear (- a) (@fneg T G x).
Proof. intros [F H]. destruct (i_neg HG _ F) as [F' E]. split; [exact F'|]. rewrite E. replace (- v x - - a) with (- (v x - a)) by ring. rewrite Rabs_Ropp. exact H. Qed.
Lemma knear_0 : knear 0 (@fzero T G).
Proof. destruct (i_zero HG) as [F E]. split; [exact F|]. rewrite E, Rminus_diag_eq, Rabs_R0 by reflexivity. lra. Qed.
Lemma knear_1 : knear 1 (@fone T G).
Proof. destruct (i_one HG) as [F E]. split; [exact F|]. rewrite E, Rminus_diag_eq, Rabs_R0 by reflexivity. lra. Qed.
Ltac kc K := first [ apply knear_neg; kc K | exact (kI7 K) | exact (kI9 K) | exact (kI3 K) | exact knear_0 | exact knear_1 ].
Ltac wc K := apply nearI_const; [kc K | kc K | first [ pose proof cos_PI4_sq; lra | pose proof unit8; lra | lra ] ].
Ltac tree K Hx :=
  match goal with
  | |- inear _ _ (_ +c (_ *c mkcx _ _)) (cadd _ (cmul _ _ _)) => eapply bfI_add; [exact cmul_i | tree K Hx | tree K Hx | wc K]
  | |- inear _ _ (_ -c (_ *c mkcx _ _)) (csub _ (cmul _ _ _)) => eapply bfI_sub; [exact cmul_i | tree K Hx | tree K Hx | wc K]
  | |- inear _ _ (_ +c _) (cadd _ _) => eapply bfI_add0; tree K Hx
  | |- inear _ _ (_ -c _) (csub _ _) => eapply bfI_sub0; tree K Hx
  | _ => first [ exact (Hx 0%nat ltac:(cbn; lia)) | exact (Hx 1%nat ltac:(cbn; lia)) | exact (Hx 2%nat ltac:(cbn; lia)) | exact (Hx 3%nat ltac:(cbn; lia))
    | exact (Hx 4%nat ltac:(cbn; lia)) | exact (Hx 5%nat ltac:(cbn; lia)) | exact (Hx 6%nat ltac:(cbn; lia)) | exact (Hx 7%nat ltac:(cbn; lia))
    | exact (Hx 8%nat ltac:(cbn; lia)) | exact (Hx 9%nat ltac:(cbn; lia)) | exact (Hx 10%nat ltac:(cbn; lia)) | exact (Hx 11%nat ltac:(cbn; lia))
    | exact (Hx 12%nat ltac:(cbn; lia)) | exact (Hx 13%nat ltac:(cbn; lia)) | exact (Hx 14%nat ltac:(cbn; lia)) | exact (Hx 15%nat ltac:(cbn; lia)) ]
  end.
Ltac kclean := cbn [fneg fone fzero fk707 fk924 fk383 RF RFloat_of]; rewrite ?cmul_R; change (@cadd R RF) with Cadd; change (@csub R RF) with Csub.
Lemma ilist_Done (q : R) S (x : list C) (y : list (cx T)) (z : list C) : DFT x = z -> length y = length x ->
  (forall i, (i < length x)%nat -> inear q S (nth i z C0) (nth i y (czero (F := G)))) -> ilist q (fun _ => S) (DFT x) y.
Proof. intros <- Hl H. split; [rewrite DFT_length; exact Hl|]. rewrite DFT_length. exact H. Qed.
Ltac fin K Hx := cbn [nth]; eapply inear_mono; [tree K Hx|right; cbn [pow]; ring|right; cbn [rsum]; ring].

Lemma fft2_I (K : kernI_ok) q S x xh : length x = 2%nat -> ilist q S x xh ->
  exists y, fft2 (F := G) xh = Done y /\ ilist (q * QQ ^ 1) (fun _ => rsum 2 S) (DFT x) y.
Proof.
  intros E [Hl Hx]. pose proof (fft2_R x E) as ER.
  do 2 (destruct x as [|? x]; [discriminate|]). destruct x; [|discriminate].
  do 2 (destruct xh as [|? xh]; [discriminate|]). destruct xh; [|discriminate]. clear Hl E.
  eexists. split; [reflexivity|]. cbn [fft2] in ER. revert ER. kclean. intros ER. apply Done_inj in ER. symmetry in ER.
  eapply ilist_Done; [exact ER|reflexivity|]. cbn [length] in *. unfold at_, nthc in Hx. intros i Hi.
  destruct i as [|[|i]]; [fin K Hx|fin K Hx|lia].
Qed.
Lemma fft4_I (K : kernI_ok) q S x xh : length x = 4%nat -> ilist q S x xh ->
  exists y, fft4 (F := G) c xh = Done y /\ ilist (q * QQ ^ 2) (fun _ => rsum 4 S) (DFT x) y.
Proof.
  intros E [Hl Hx]. pose proof (fft4_R c x E) as ER.
  do 4 (destruct x as [|? x]; [discriminate|]). destruct x; [|discriminate].
  do 4 (destruct xh as [|? xh]; [discriminate|]). destruct xh; [|discriminate]. clear Hl E.
  eexists. split; [reflexivity|]. cbn [fft4] in ER. revert ER. cbv zeta. kclean. intros ER. apply Done_inj in ER. symmetry in ER.
  eapply ilist_Done; [exact ER|reflexivity|]. cbn [length] in *. unfold at_, nthc in Hx. intros i Hi.
  destruct i as [|[|[|[|i]]]]; [fin K Hx|fin K Hx|fin K Hx|fin K Hx|lia].
Qed.
Lemma fft8_I (K : kernI_ok) q S x xh : length x = 8%nat -> ilist q S x xh ->
  exists y, fft8 (F := G) c xh = Done y /\ ilist (q * QQ ^ 3) (fun _ => rsum 8 S) (DFT x) y.
Proof.
  intros E [Hl Hx]. pose proof (fft8_R c x E) as ER.
  do 8 (destruct x as [|? x]; [discriminate|]). destruct x; [|discriminate].
  do 8 (destruct xh as [|? xh]; [discriminate|]). destruct xh; [|discriminate]. clear Hl E.
  eexists. split; [reflexivity|]. cbn [fft8] in ER. revert ER. cbv zeta. kclean. intros ER. apply Done_inj in ER. symmetry in ER.
  eapply ilist_Done; [exact ER|reflexivity|]. cbn [length] in *. unfold at_, nthc in Hx. intros i Hi.
  destruct i as [|[|[|[|[|[|[|[|i]]]]]]]]; [fin K Hx|fin K Hx|fin K Hx|fin K Hx|fin K Hx|fin K Hx|fin K Hx|fin K Hx|lia].
Qed.
Lemma fft16_I (K : kernI_ok) q S x xh : length x = 16%nat -> ilist q S x xh ->
  exists y, fft16 (F := G) c xh = Done y /\ ilist (q * QQ ^ 4) (fun _ => rsum 16 S) (DFT x) y.
Proof.
  intros E [Hl Hx]. pose proof (fft16_R c x E) as ER.
  do 16 (destruct x as [|? x]; [discriminate|]). destruct x; [|discriminate].
  do 16 (destruct xh as [|? xh]; [discriminate|]). destruct xh; [|discriminate]. clear Hl E.
  eexists. split; [reflexivity|]. cbn [fft16] in ER. revert ER. cbv zeta. kclean. intros ER. apply Done_inj in ER. symmetry in ER.
  eapply ilist_Done; [exact ER|reflexivity|]. cbn [length] in *. unfold at_, nthc in Hx. intros i Hi.
  destruct i as [|[|[|[|[|[|[|[|[|[|[|[|[|[|[|[|i]]]]]]]]]]]]]]]]; [fin K Hx|fin K Hx|fin K Hx|fin K Hx|fin K Hx|fin K Hx|fin K Hx|fin K Hx|fin K Hx|fin K Hx|fin K Hx|fin K Hx|fin K Hx|fin K Hx|fin K Hx|fin K Hx|lia].
Qed.
Lemma small_I (K : kernI_ok) q S x xh : is_pow2 (length x) = true -> (1 < length x <= 16)%nat -> ilist q S x xh ->
  ilist (q * QQ ^ Nat.log2 (length x)) (fun _ => rsum (length x) S) (DFT x) (small_fft (F := G) c xh).
Proof.
  intros Hp Hn H. assert (Hl : length xh = length x) by apply H. unfold small_fft, small_kernel. rewrite Hl.
  destruct (small_cases Hp ltac:(lia)) as [E|[E|[E|[E|E]]]]; [lia| | | |]; rewrite E; cbn [Nat.eqb].
  - destruct (fft2_I K E H) as (y & -> & Hy). exact Hy.
  - destruct (fft4_I K E H) as (y & -> & Hy). exact Hy.
  - destruct (fft8_I K E H) as (y & -> & Hy). exact Hy.
  - destruct (fft16_I K E H) as (y & -> & Hy). exact Hy.
Qed.
Lemma pow2fft_I q S x xh : ((length x <= 16)%nat -> kernI_ok) -> is_pow2 (length x) = true -> ((16 < length x)%nat -> twI_ok (length x)) -> ilist q S x xh ->
  ilist (q * QQ ^ Nat.log2 (length x)) (fun _ => rsum (length x) S) (DFT x) (pow2fft (F := G) c xh).
Proof.
  intros K Hp Ht H. assert (Hl : length xh = length x) by apply H. unfold pow2fft. rewrite Hl.
  destruct (Nat.leb_spec (length x) 1).
  - assert (E : length x = 1%nat). { apply is_pow2_iff in Hp. destruct Hp as [L E]. pose proof (pow2_pos L). lia. }
    rewrite E. cbn [Nat.log2 Nat.log2_iter pow rsum]. destruct x as [|a [|]]; try discriminate. destruct xh as [|b [|]]; try discriminate.
    split; [reflexivity|]. intros i Hi. cbn in Hi. assert (i = 0)%nat by lia. subst i. rewrite DFT_at by (cbn; lia). cbn [length]. rewrite dft_1.
    destruct H as [_ H]. specialize (H 0%nat ltac:(cbn; lia)). rewrite Rmult_1_r, Rplus_0_l. exact H.
  - destruct (Nat.leb_spec (length x) 16).
    + apply small_I; [apply K; lia|exact Hp|lia|exact H].
    + apply stkpI; [exact mulk_i|exact Hp|apply Ht; lia|exact H].
Qed.

(* ---------- the recurrence that fills the twiddle table ---------- *)
Definition tw_angleI (n : nat) : T := @fdiv T G (@fmul T G (@fneg T G (@flit T G 2%Q)) (@fpi T G)) (@fofnat T G n).
Lemma tw_loopI w cs sn e : fnear (1 + e) 1 w (mkcx cs sn) -> forall n q z wre wim i, inear q 1 z (mkcx wre wim) -> (i < n)%nat ->
  inear (q * ((1 + e) * (1 + gam)) ^ i) 1 (z *c Cpow w i) (nthc (F := G) (tw_loop (F := G) n cs sn wre wim) i).
Proof.
  intros Nw. induction n as [|n IH]; intros q z wre wim i Hz Hi; [lia|]. cbn [tw_loop]. unfold nthc.
  destruct i as [|i]; cbn [nth pow Cpow].
  - rewrite Rmult_1_r. replace (z *c C1) with z by ring. exact Hz.
  - assert (N : inear (q * (1 + e) * (1 + gam)) 1 (z *c w) (mkcx (@fmul_add T G wre cs (@fneg T G (@fmul T G wim sn))) (@fmul_add T G wim cs (@fmul T G wre sn)))).
    { set (mul := fun a b : cx T => mkcx (@fmul_add T G (re a) (re b) (@fneg T G (@fmul T G (im a) (im b)))) (@fmul_add T G (im a) (re b) (@fmul T G (re a) (im b)))).
      assert (Hm : mul_i mul). { intros a b Fa Fb HM. apply (tw_step_i Fa Fb HM). }
      pose proof (inear_mul Hm Hz Nw (Rle_refl 1)) as P. rewrite Rmult_1_r in P. exact P. }
    specialize (IH _ _ _ _ i N ltac:(lia)). unfold nthc in IH.
    replace (z *c (Cpow w i *c w)) with (z *c w *c Cpow w i) by ring.
    replace (q * ((1 + e) * (1 + gam) * ((1 + e) * (1 + gam)) ^ i)) with (q * (1 + e) * (1 + gam) * ((1 + e) * (1 + gam)) ^ i) by ring. exact IH.
Qed.
Lemma tw_tableI n e k : fnear (1 + e) 1 (W n 1) (expi (F := G) (tw_angleI n)) -> (k < n / 2)%nat -> ((1 + e) * (1 + gam)) ^ k <= Mx ->
  ((1 + e) * (1 + gam)) ^ k - 1 <= d -> wnear (W n k) (nthc (F := G) (tw_table (F := G) n) k).
Proof.
  intros Hs Hk HM Hle. unfold tw_table. fold (tw_angleI n). unfold expi in Hs. destruct (fsin_cos (tw_angleI n)) as [sn cs].
  assert (N : inear 1 1 C1 (mkcx (@fone T G) (@fzero T G))).
  { destruct (i_zero HG) as [F0 E0]. destruct (i_one HG) as [F1 E1]. apply fnear_inear. repeat split; try lra; try assumption.
    - change (Cabs (RtoC 1) <= 1). rewrite Cabs_R, Rabs_R1. lra.
    - unfold L_ierr.cv. cbn [re im]. rewrite E0, E1. replace (mkcx 1 0 -c C1) with C0 by (creal; ring). rewrite Cabs_0. lra. }
  assert (Hn : (0 < n)%nat) by (destruct n; [cbn in Hk; lia|lia]).
  pose proof (tw_loopI Hs N Hk) as (_ & _ & _ & P).
  rewrite Cpow_W in P by exact Hn. rewrite Nat.mul_1_r in P.
  replace (C1 *c W n k) with (W n k) in P by ring. destruct (P ltac:(lra)) as [F E].
  split; [exact F|]. split; [apply Cabs_W|]. lra.
Qed.

(* ---------- inverse ---------- *)
Lemma cscaleI q S z zh s sh : fnear q S z zh -> 0 <= s <= 1 -> fin sh -> Rabs (v sh - s) <= u * s -> q * (1 + u) * S <= Mx ->
  fnear (q * ((1 + u) * (1 + u))) (s * S + FL) (RtoC s *c z) (cscale (F := G) sh zh).
Proof.
  intros Hz Hs Fs Hsh HM. pose proof (fnear_abs Hz) as Z3. destruct Hz as (Hq & FS & Z1 & [Fz1 Fz2] & Z2). pose proof u_ge0 as H0. pose proof u0_pos as H1.
  pose proof (Cabs_nonneg (cv zh)). pose proof (Cabs_nonneg (cv zh -c z)). pose proof (Cabs_nonneg z).
  assert (U2 : 1 <= (1 + u) * (1 + u)) by nra. assert (Q2 : 1 <= q * ((1 + u) * (1 + u))) by nra.
  split; [exact Q2|]. assert (SS : 0 <= s * S) by nra. split; [lra|].
  split. { rewrite Cabs_mul, Cabs_R, Rabs_pos_eq by lra. assert (s * Cabs z <= s * S) by (apply Rmult_le_compat_l; lra). lra. }
  assert (Hsa : Rabs (v sh) <= (1 + u) * s). { apply Rabs_le_sum in Hsh. rewrite (Rabs_pos_eq s) in Hsh by lra. lra. }
  pose proof (Rabs_pos (v sh)).
  assert (E3 : Rabs (v sh) * Cabs (cv zh) <= (1 + u) * s * (q * S)) by (apply Rmult_le_compat; assumption).
  assert (E4 : (1 + u) * s * (q * S) <= q * (1 + u) * S).
  { replace ((1 + u) * s * (q * S)) with (s * (q * (1 + u) * S)) by ring. assert (0 <= q * (1 + u) * S) by (apply Rmult_le_pos; nra). nra. }
  set (w := RtoC (v sh) *c cv zh).
  assert (Cw : Cabs w = Rabs (v sh) * Cabs (cv zh)) by (unfold w; rewrite Cabs_mul, Cabs_R; reflexivity).
  assert (Rw : re w = v (re zh) * v sh) by (unfold w, L_ierr.cv; cbn [re im Cmul RtoC]; ring).
  assert (Iw : im w = v (im zh) * v sh) by (unfold w, L_ierr.cv; cbn [re im Cmul RtoC]; ring).
  destruct (i_mul HG _ _ Fz1 Fs) as [F1 E1]. { rewrite <- Rw. pose proof (Rabs_re w). lra. }
  destruct (i_mul HG _ _ Fz2 Fs) as [F2 E2]. { rewrite <- Iw. pose proof (Rabs_im w). lra. }
  rewrite <- Rw in E1. rewrite <- Iw in E2.
  split; [split; assumption|]. pose proof eta_pos.
  assert (A : Cabs (cv (cscale (F := G) sh zh) -c w) <= u0 * Cabs w + 2 * eta) by (apply comp_err; [exact E1|exact E2|lra|lra]).
  assert (B : Cabs (w -c RtoC s *c z) <= u * s * (q * S) + s * ((q - 1) * S)).
  { unfold w. replace (RtoC (v sh) *c cv zh -c RtoC s *c z) with (RtoC (v sh - s) *c cv zh +c RtoC s *c (cv zh -c z)) by (creal; ring).
    eapply Rle_trans; [apply Cabs_tri|]. rewrite !Cabs_mul, !Cabs_R, (Rabs_pos_eq s) by lra.
    apply Rplus_le_compat; apply Rmult_le_compat; try assumption; try apply Rabs_pos; try lra. }
  replace (cv (cscale (F := G) sh zh) -c RtoC s *c z) with ((cv (cscale (F := G) sh zh) -c w) +c (w -c RtoC s *c z)) by ring.
  eapply Rle_trans; [apply Cabs_tri|]. rewrite Cw in A.
  assert (U1 : u0 * (Rabs (v sh) * Cabs (cv zh)) <= u0 * ((1 + u) * s * (q * S))) by (apply Rmult_le_compat_l; lra).
  assert (PP : 0 <= (1 + u) * s * (q * S)) by (apply Rmult_le_pos; nra).
  assert (U3 : u0 * ((1 + u) * s * (q * S)) <= u * ((1 + u) * s * (q * S))) by (apply Rmult_le_compat_r; assumption).
  assert (U4 : (u - u0) * FL <= u * FL) by (apply Rmult_le_compat_r; lra).
  assert (U5 : u * FL <= (q * ((1 + u) * (1 + u)) - 1) * FL) by (apply Rmult_le_compat_r; nra). lra.
Qed.
Lemma nthc_map (f : cx T -> cx T) l i : (i < length l)%nat -> nthc (F := G) (map f l) i = f (nthc (F := G) l i).
Proof. intros H. unfold nthc. rewrite map_as_tab with (d := czero (F := G)), nth_tab by exact H. reflexivity. Qed.
Lemma ilist_conj q S x xh : ilist q S x xh -> ilist q S (map Cconj x) (map (cconj (F := G)) xh).
Proof.
  intros [Hl H]. split; [rewrite !map_length; exact Hl|]. rewrite map_length. intros i Hi. rewrite map_at, nthc_map by lia.
  apply inear_conj, H. exact Hi.
Qed.
Lemma recip_i n : (0 < n)%nat -> fin (@fofnat T G n) -> v (@fofnat T G n) = INR n -> FL <= / INR n -> 1 <= Mx ->
  fin (@fdiv T G (@fone T G) (@fofnat T G n)) /\ Rabs (v (@fdiv T G (@fone T G) (@fofnat T G n)) - / INR n) <= u * / INR n.
Proof.
  intros Hn Ff Hf HF HM. assert (HnR : 1 <= INR n) by (replace 1 with (INR 1) by reflexivity; apply le_INR; lia).
  destruct (i_one HG) as [F1 E1]. assert (Hi : 0 < / INR n <= 1). { split; [apply Rinv_0_lt_compat; lra|]. rewrite <- Rinv_1. apply Rinv_le_contravar; lra. }
  assert (ED : v (@fone T G) / v (@fofnat T G n) = / INR n) by (rewrite E1, Hf; unfold Rdiv; ring).
  destruct (@i_div _ _ _ _ _ _ _ HG _ _ F1 Ff) as [F E]; [rewrite Hf; lra|rewrite ED, Rabs_pos_eq; lra|]. rewrite ED, (Rabs_pos_eq (/ INR n)) in E by lra.
  split; [exact F|]. pose proof (u_slack HF). pose proof eta_pos. lra.
Qed.
Lemma ifft_I q S y yh : ((length y <= 16)%nat -> kernI_ok) -> is_pow2 (length y) = true -> ((16 < length y)%nat -> twI_ok (length y)) ->
  fin (@fofnat T G (length y)) -> v (@fofnat T G (length y)) = INR (length y) -> FL <= / INR (length y) -> 1 <= Mx ->
  ilist q S y yh -> q * QQ ^ Nat.log2 (length y) * (1 + u) * rsum (length y) S <= Mx ->
  length (ifft_fresh (F := G) c yh) = length y /\ forall i, (i < length y)%nat ->
  fnear (q * QQ ^ Nat.log2 (length y) * ((1 + u) * (1 + u))) (/ INR (length y) * rsum (length y) S + FL) (at_ (IDFT y) i) (nthc (F := G) (ifft_fresh (F := G) c yh) i).
Proof.
  intros K Hp Ht Ff Hf HF HM1 H HM. assert (Hl : length yh = length y) by apply H. unfold ifft_fresh. rewrite Hl.
  pose proof u_ge0 as U0. assert (U : 1 <= (1 + u) * (1 + u)) by nra.
  destruct (Nat.eqb_spec (length y) 1) as [E|E].
  - rewrite E in *. cbn [Nat.log2 Nat.log2_iter pow rsum INR] in *. destruct y as [|a [|]]; try discriminate. destruct yh as [|b [|]]; try discriminate.
    split; [reflexivity|]. intros i Hi. assert (i = 0)%nat by lia. subst i. rewrite IDFT_at by (cbn; lia). rewrite DFT_at by (cbn; lia). cbn [length map INR]. rewrite dft_1.
    destruct H as [_ H]. specialize (H 0%nat ltac:(cbn; lia)). rewrite Rinv_1. unfold at_, nthc in *. cbn [nth] in *.
    replace (RtoC 1 *c Cconj (Cconj a)) with a by (creal; ring). pose proof (proj1 H) as H1q. pose proof (proj1 (proj2 H)) as HFS.
    apply inear_fnear in H; [|]. 
    + eapply fnear_mono; [exact H|clear - U H1q; rewrite Rmult_1_r; rewrite <- (Rmult_1_r q) at 1; apply Rmult_le_compat_l; lra|lra].
    + change (Nat.log2 1) with 0%nat in HM. cbn [pow] in HM. assert (Z1 : 0 <= q * S 0%nat) by (apply Rmult_le_pos; lra). assert (0 <= u * (q * S 0%nat)) by (apply Rmult_le_pos; lra). lra.
  - assert (Hn : (1 < length y)%nat). { apply is_pow2_iff in Hp. destruct Hp as [L EL]. pose proof (pow2_pos L). lia. }
    unfold fft_fresh. rewrite (map_length (cconj (F := G)) yh), Hl, Hp.
    pose proof (@pow2fft_I q S (map Cconj y) (map (cconj (F := G)) yh)) as P. rewrite map_length in P.
    specialize (P K Hp Ht (ilist_conj H)). destruct P as [Pl P]. rewrite DFT_length, map_length in Pl, P.
    split; [rewrite map_length; exact Pl|]. intros i Hi. rewrite nthc_map by lia. rewrite IDFT_at by exact Hi.
    destruct (@recip_i (length y) ltac:(lia) Ff Hf HF HM1) as [Fs Es].
    assert (HnR : 1 <= INR (length y)) by (replace 1 with (INR 1) by reflexivity; apply le_INR; lia).
    assert (Hi1 : 0 <= / INR (length y) <= 1). { split; [left; apply Rinv_0_lt_compat; lra|]. rewrite <- Rinv_1. apply Rinv_le_contravar; lra. }
    pose proof (inear_conj (P i Hi)) as N. pose proof (proj1 N) as N1. pose proof (proj1 (proj2 N)) as N2.
    apply cscaleI; [apply inear_fnear; [exact N|]|exact Hi1|exact Fs|exact Es|exact HM].
    eapply Rle_trans; [|exact HM]. assert (Z1 : 0 <= q * QQ ^ Nat.log2 (length y) * rsum (length y) S) by (apply Rmult_le_pos; lra).
    assert (0 <= u * (q * QQ ^ Nat.log2 (length y) * rsum (length y) S)) by (apply Rmult_le_pos; lra). lra.
Qed.

(* ---------- Bluestein ---------- *)
Definition chirpI_at (th : nat -> R) (n : nat) (e : R) : Prop := forall i, (i < n)%nat ->
  fnear (1 + e) 1 (cis (th i)) (expi (F := G) (blue_angle (F := G) n i)) /\
  fnear (1 + e) 1 (cis (- th i)) (expi (F := G) (@fneg T G (blue_angle (F := G) n i))).
Lemma fnear_0 q : 1 <= q -> fnear q FL C0 (czero (F := G)).
Proof.
  intros H. destruct (i_zero HG) as [F0 E0]. repeat split; try lra; try assumption; [rewrite Cabs_0; lra|].
  unfold L_ierr.cv, czero. cbn [re im]. rewrite E0. change (mkcx 0 0) with C0. replace (C0 -c C0) with C0 by ring. rewrite Cabs_0. apply Rmult_le_pos; lra.
Qed.
Lemma ilist_at q S x xh i : ilist q S x xh -> (i < length x)%nat -> inear q (S i) (at_ x i) (nthc (F := G) xh i).
Proof. intros [_ H]. apply H. Qed.
Lemma nthc_tab n (f : nat -> cx T) i : (i < n)%nat -> nthc (F := G) (tab n f) i = f i.
Proof. intros H. unfold nthc. apply nth_tab. exact H. Qed.
Lemma nthc_zip f (a b : list (cx T)) i : length a = length b -> (i < length a)%nat -> nthc (F := G) (zip_apply f a b) i = f (nthc (F := G) a i) (nthc (F := G) b i).
Proof. intros Hl Hi. unfold nthc. rewrite nth_zip_apply with (db := czero (F := G)) by exact Hi. destruct (Nat.ltb_spec i (length b)); [reflexivity|lia]. Qed.
Lemma bl_b_I th n e : (0 < n)%nat -> 0 <= e -> chirpI_at th n e -> ilist (1 + e) (fun i => bS n i + FL) (bs th n) (bl_b (F := G) n).
Proof.
  intros Hn He Hc. split; [rewrite bl_b_length, bs_length; reflexivity|]. rewrite bs_length. intros i Hi.
  unfold bl_b, bs. rewrite at_tab, nthc_tab by exact Hi. unfold bS. pose proof (blue_m_ge n).
  destruct (Nat.ltb_spec i n).
  - eapply inear_mono; [apply fnear_inear, Hc; assumption|apply Rle_refl|lra].
  - destruct (Nat.ltb_spec (blue_m n - n) i).
    + eapply inear_mono; [apply fnear_inear, Hc; lia|apply Rle_refl|lra].
    + eapply inear_mono; [apply fnear_inear, (@fnear_0 (1 + e)); lra|apply Rle_refl|lra].
Qed.
Lemma rsum_plus n f g : rsum n (fun i => f i + g i) = rsum n f + rsum n g.
Proof. induction n as [|n IH]; cbn [rsum]; [ring|]. rewrite IH. ring. Qed.
Lemma blue_chirp_I n i : (i < n)%nat -> nthc (F := G) (blue_chirp (F := G) n) i = expi (F := G) (@fneg T G (blue_angle (F := G) n i)).
Proof. intros H. unfold nthc, blue_chirp. rewrite nth_tab by exact H. reflexivity. Qed.
Lemma big_le a b c' : 1 <= a -> 0 <= b -> a * b <= c' -> b <= c'.
Proof. intros. nra. Qed.
Lemma bluefft_I th q S x xh e : let n := length x in let m := blue_m n in let Qm := QQ ^ Nat.log2 m in
  let sA := rsum n S + INR (m - n) * FL in let sB := 2 * INR n - 1 + INR m * FL in
  let Q := q * ((1 + e) * (1 + gam)) ^ 3 * Qm ^ 3 * ((1 + u) * (1 + u)) in
  ((m <= 16)%nat -> kernI_ok) -> (0 < n)%nat -> 0 <= e -> chirpI_at th n e ->
  ((16 < m)%nat -> twI_ok m) -> fin (@fofnat T G m) -> v (@fofnat T G m) = INR m -> FL <= / INR m -> 1 <= Mx ->
  ilist q S x xh -> (1 + e) * Qm * sB <= Mx -> Q * (INR m * (sA * sB) + FL) <= Mx ->
  length (bluefft (F := G) c xh) = n /\ forall i, (i < n)%nat ->
    fnear Q (sA * sB + FL) (at_ (chirpz th x) i) (nthc (F := G) (bluefft (F := G) c xh) i).
Proof.
  intros n m Qm sA sB Q K Hn He Hc Ht Ff Hf HF HM1 Hx HMB HMQ. assert (Hl : length xh = length x) by apply Hx.
  unfold bluefft. rewrite Hl. fold n. pose proof (blue_m_ge n) as Hmn. pose proof (blue_m_pow2 n) as Hmp.
  pose proof (bS_sum Hn) as HS. pose proof (bl_b_I Hn He Hc) as Nb. fold m in Hmn, Hmp, HS. fold m. cbv zeta.
  assert (HQm : 1 <= Qm) by (apply pow_ge1, QQI_ge1).
  pose proof gamI_pos as Hg. pose proof u_ge0 as Hu0.
  assert (Hn0 : (0 < m)%nat) by lia. assert (HmR : 1 <= INR m) by (replace 1 with (INR 1) by reflexivity; apply le_INR; lia).
  assert (HnR : 1 <= INR n) by (replace 1 with (INR 1) by reflexivity; apply le_INR; lia).
  (* chirped input *)
  set (S1 := fun i => if (i <? n)%nat then S i else FL).
  assert (HS1 : rsum m S1 = sA).
  { replace (rsum m S1) with (rsum (n + (m - n)) S1) by (f_equal; lia). rewrite rsum_split'. unfold sA. rewrite <- rsum_const'. f_equal.
    - apply rsum_ext. intros i Hi. unfold S1. destruct (Nat.ltb_spec i n); [reflexivity|lia].
    - apply rsum_ext. intros i Hi. unfold S1. destruct (Nat.ltb_spec (n + i) n); [lia|reflexivity]. }
  assert (HSB : rsum m (fun i => bS n i + FL) = sB) by (rewrite rsum_plus, HS, rsum_const'; unfold sB; ring).
  assert (Hq : 1 <= q). { pose proof (ilist_at Hx (i := 0) Hn) as N. apply N. }
  assert (H1eg : 1 <= (1 + e) * (1 + gam)) by nra.
  set (a := tab n (fun i => at_ x i *c cis (- th i)) ++ repeat C0 (m - n)). set (ah := bl_a (F := G) c xh ++ repeat (czero (F := G)) (m - n)).
  assert (La : length a = m) by (unfold a; rewrite app_length, tab_length, repeat_length; lia).
  assert (Na : ilist (q * ((1 + e) * (1 + gam))) S1 a ah).
  { split; [unfold a, ah; rewrite !app_length, bl_a_length, tab_length, !repeat_length, Hl; fold n; lia|].
    rewrite La. intros i Hi. unfold a, ah, at_, nthc, S1. destruct (Nat.ltb_spec i n).
    - rewrite !app_nth1 by (rewrite ?bl_a_length, ?tab_length; lia). unfold bl_a. rewrite Hl. fold n. rewrite !nth_tab by assumption.
      rewrite blue_chirp_I by assumption.
      pose proof (ilist_at Hx (i := i) ltac:(assumption)) as N1.
      pose proof (inear_mul cmul_i N1 (proj2 (Hc i ltac:(assumption))) (Rle_refl 1)) as P. rewrite Rmult_1_r in P.
      eapply inear_mono; [exact P|right; ring|apply Rle_refl].
    - rewrite !app_nth2 by (rewrite ?bl_a_length, ?tab_length; fold n; lia). rewrite bl_a_length, tab_length, Hl.
      rewrite !nth_repeat. apply fnear_inear, fnear_0. nra. }
  assert (NA := pow2fft_I). specialize (NA _ _ _ _ ltac:(rewrite La; exact K) ltac:(rewrite La; exact Hmp) ltac:(rewrite La; exact Ht) Na).
  rewrite La, HS1 in NA. fold Qm in NA.
  assert (Lb : length (bs th n) = m) by apply bs_length.
  assert (NB := pow2fft_I). specialize (NB _ _ _ _ ltac:(rewrite Lb; exact K) ltac:(rewrite Lb; exact Hmp) ltac:(rewrite Lb; exact Ht) Nb).
  rewrite Lb, HSB in NB. fold Qm in NB. clear Nb.
  unfold bl_fft_b.
  set (A := DFT a) in *. set (Ah := pow2fft c ah) in *. set (B := DFT (bs th n)) in *. set (Bh := pow2fft c (bl_b n)) in *.
  assert (LA : length A = m) by (unfold A; rewrite DFT_length; exact La).
  assert (LB : length B = m) by (unfold B; rewrite DFT_length; exact Lb).
  assert (LAh : length Ah = m) by (rewrite (proj1 NA); exact LA).
  assert (LBh : length Bh = m) by (rewrite (proj1 NB); exact LB).
  set (q1 := q * ((1 + e) * (1 + gam)) * Qm * ((1 + e) * Qm) * (1 + gam)).
  assert (HsB : 1 <= sB). { unfold sB. assert (0 <= INR m * FL) by (apply Rmult_le_pos; lra). lra. }
  assert (HsA : FL <= sA). { pose proof (ilist_at NA (i := 0) ltac:(lia)) as N. apply N. }
  (* product, conjugated *)
  set (D := map Cconj (zip_apply Cmul A B)). set (Dh := map (cconj (F := G)) (zip_apply (cmul (F := G) c) Ah Bh)).
  assert (LD : length D = m) by (unfold D; rewrite map_length, zip_apply_length; exact LA).
  assert (LDh : length Dh = m) by (unfold Dh; rewrite map_length, zip_apply_length; exact LAh).
  assert (ND : ilist q1 (fun _ => sA * sB) D Dh).
  { split; [lia|]. rewrite LD. intros i Hi. unfold D, Dh. rewrite map_at, nthc_map by (rewrite zip_apply_length; lia).
    rewrite zip_apply_at, nthc_zip by lia. apply inear_conj.
    apply (inear_mul cmul_i); [apply (ilist_at NA); lia| |exact HsB].
    apply inear_fnear; [apply (ilist_at NB); lia|exact HMB]. }
  assert (NE := pow2fft_I). specialize (NE _ _ _ _ ltac:(rewrite LD; exact K) ltac:(rewrite LD; exact Hmp) ltac:(rewrite LD; exact Ht) ND).
  rewrite LD, rsum_const' in NE. fold Qm in NE.
  set (E := DFT D) in *. set (Eh := pow2fft c Dh) in *.
  assert (LE : length E = m) by (unfold E; rewrite DFT_length; exact LD).
  assert (LEh : length Eh = m) by (rewrite (proj1 NE); exact LE).
  split; [unfold bl_out; rewrite tab_length; reflexivity|]. intros i Hi.
  unfold bl_out. rewrite nthc_tab by exact Hi. rewrite blue_chirp_I by assumption. rewrite nthc_map by lia.
  assert (EC : RtoC (/ INR m) *c Cconj (at_ E i) = cconv m (at_ a) (at_ (bs th n)) i).
  { rewrite <- idft_conv by lia. rewrite <- idft_conj. f_equal. f_equal. unfold E. rewrite DFT_at by lia. rewrite LD. apply dft_ext.
    intros t Ht'. unfold D. rewrite map_at by (rewrite zip_apply_length; lia). f_equal. rewrite zip_apply_at by lia.
    unfold A, B. rewrite !DFT_at by lia. rewrite La, Lb. reflexivity. }
  pose proof (@chirpz_conv th x i Hn Hi) as EZ. cbv zeta in EZ. fold n in EZ. fold m in EZ. fold a in EZ. rewrite <- EZ, <- EC. clear EZ EC.
  pose proof (inear_conj (ilist_at NE (i := i) ltac:(lia))) as N1.
  (* the overflow condition of the inverse transform and of the last product *)
  set (X := INR m * (sA * sB)) in *. assert (HX : 0 <= X) by (unfold X; repeat apply Rmult_le_pos; lra).
  set (f := (1 + e) * (1 + gam)) in *.
  assert (EQ : Q = q1 * Qm * ((1 + u) * (1 + u)) * f) by (unfold Q, q1, f; ring).
  assert (Hq1 : 1 <= q1). { pose proof (ilist_at ND (i := 0) ltac:(lia)) as N. apply N. }
  assert (Hq1m : 1 <= q1 * Qm) by nra. assert (U : 1 <= (1 + u) * (1 + u)) by nra.
  assert (BM : q1 * Qm * (1 + u) * X <= Mx).
  { assert (Z : Q * X <= Mx). { eapply Rle_trans; [|exact HMQ]. apply Rmult_le_compat_l; [rewrite EQ; repeat apply Rmult_le_pos; lra|lra]. }
    rewrite EQ in Z. apply (@big_le ((1 + u) * f)); [nra| |]; [repeat apply Rmult_le_pos; lra|].
    replace ((1 + u) * f * (q1 * Qm * (1 + u) * X)) with (q1 * Qm * ((1 + u) * (1 + u)) * f * X) by ring. exact Z. }
  assert (BM0 : q1 * Qm * X <= Mx).
  { apply (@big_le (1 + u)); [lra| |]; [repeat apply Rmult_le_pos; lra|]. replace ((1 + u) * (q1 * Qm * X)) with (q1 * Qm * (1 + u) * X) by ring. exact BM. }
  assert (Hi1 : 0 <= / INR m <= 1). { split; [left; apply Rinv_0_lt_compat; lra|]. rewrite <- Rinv_1. apply Rinv_le_contravar; lra. }
  destruct (@recip_i m Hn0 Ff Hf HF HM1) as [Fs Es].
  assert (N2 : fnear (q1 * Qm * ((1 + u) * (1 + u))) (sA * sB + FL) (RtoC (/ INR m) *c Cconj (at_ E i)) (bl_scale (F := G) m (nthc (F := G) Eh i))).
  { unfold bl_scale. pose proof (@cscaleI _ _ _ _ (/ INR m) _ (inear_fnear N1 BM0) Hi1 Fs Es BM) as P.
    replace (/ INR m * X) with (sA * sB) in P by (unfold X; field; lra). exact P. }
  pose proof (inear_mul cmul_i (fnear_inear N2) (proj2 (Hc i Hi)) (Rle_refl 1)) as P. rewrite Rmult_1_r in P.
  replace (q1 * Qm * ((1 + u) * (1 + u)) * (1 + e) * (1 + gam)) with Q in P by (rewrite EQ; unfold f; ring).
  apply inear_fnear; [exact P|]. eapply Rle_trans; [|exact HMQ]. apply Rmult_le_compat_l; [rewrite EQ; repeat apply Rmult_le_pos; lra|].
  assert (0 <= sA * sB) by (apply Rmult_le_pos; lra). unfold X. nra.
Qed.
End Err.

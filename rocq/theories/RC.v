(* Exact-arithmetic side: the Float instance over Coq's reals, complex numbers
   over R, finite sums, roots of unity. Independent of the FFT model. *)
From Coq Require Export Reals.
From Coq Require Import Qreals Lra.
From Verif Require Export Num.
Set Implicit Arguments.

(* exact instance; the three kernel literals are parameters *)
Definition RFloat_of (k7 k9 k3 : R) : Float R := {|
  fzero := 0%R; fone := 1%R;
  fadd := Rplus; fsub := Rminus; fmul := Rmult; fdiv := Rdiv; fneg := Ropp;
  fmul_add := fun a b c => (a * b + c)%R;
  fcos := cos; fsin := sin; fsin_cos := fun t => (sin t, cos t);
  fpi := PI; fofnat := INR; fas := INR; freparse := fun x => x;
  flit := Q2R; fk707 := k7; fk924 := k9; fk383 := k3 |}.
(* ideal constants: the literals 0.70710677, 0.9238795, 0.38268343 of
   src/fft_kernels.rs read as cos(pi/4), cos(pi/8), sin(pi/8) *)
Global Instance RF : Float R := RFloat_of (cos (PI / 4)) (cos (PI / 8)) (sin (PI / 8)).

Notation C := (cx R).
Definition C0 : C := mkcx 0%R 0%R.
Definition C1 : C := mkcx 1%R 0%R.
Definition Cadd (a b : C) : C := mkcx (re a + re b)%R (im a + im b)%R.
Definition Csub (a b : C) : C := mkcx (re a - re b)%R (im a - im b)%R.
Definition Cmul (a b : C) : C := mkcx (re a * re b - im a * im b)%R (re a * im b + im a * re b)%R.
Definition Copp (a : C) : C := mkcx (- re a)%R (- im a)%R.
Definition Cconj (a : C) : C := mkcx (re a) (- im a)%R.
Definition RtoC (r : R) : C := mkcx r 0%R.
(* complex operators; plain + - * stay on nat *)
Infix "+c" := Cadd (at level 50, left associativity).
Infix "-c" := Csub (at level 50, left associativity).
Infix "*c" := Cmul (at level 40, left associativity).

Lemma C_eq (a b : C) : re a = re b -> im a = im b -> a = b.
Proof. destruct a, b; cbn; intros -> ->; reflexivity. Qed.

Ltac creal := apply C_eq; cbn [re im Cadd Csub Cmul Copp Cconj RtoC C0 C1].

Lemma C_ring : ring_theory C0 C1 Cadd Cmul Csub Copp (@eq C).
Proof. constructor; intros; creal; ring. Qed.
Add Ring CRing : C_ring.

(* the model's operations over R are the mathematical ones *)
Lemma cadd_R a b : cadd (F := RF) a b = Cadd a b. Proof. reflexivity. Qed.
Lemma csub_R a b : csub (F := RF) a b = Csub a b. Proof. reflexivity. Qed.
Lemma cconj_R a : cconj (F := RF) a = Cconj a. Proof. reflexivity. Qed.
Lemma czero_R : czero (F := RF) = C0. Proof. reflexivity. Qed.
Lemma cmul_plain_R a b : cmul_plain (F := RF) a b = Cmul a b. Proof. reflexivity. Qed.
Lemma cmul_R c a b : cmul (F := RF) c a b = Cmul a b.
Proof. unfold cmul. destruct (c_fma c); [|reflexivity]. unfold cmul_fma; cbn. creal; ring. Qed.

Lemma Cconj_mul a b : Cconj (a *c b) = Cconj a *c Cconj b.
Proof. creal; ring. Qed.
Lemma Cconj_add a b : Cconj (a +c b) = Cconj a +c Cconj b.
Proof. creal; ring. Qed.
Lemma Cconj_conj a : Cconj (Cconj a) = a.
Proof. creal; ring. Qed.
Lemma RtoC_mul a b : RtoC (a * b)%R = RtoC a *c RtoC b.
Proof. creal; ring. Qed.
Lemma RtoC_add a b : RtoC (a + b)%R = RtoC a +c RtoC b.
Proof. creal; ring. Qed.
Lemma RtoC_inv a : a <> 0%R -> RtoC a *c RtoC (/ a)%R = C1.
Proof. intros H. creal; field; exact H. Qed.

Definition Cnorm2 (a : C) : R := (re a * re a + im a * im a)%R.
Lemma Cnorm2_conj a : RtoC (Cnorm2 a) = a *c Cconj a.
Proof. creal; unfold Cnorm2; ring. Qed.
Lemma Cmul_integral_norm (a b : C) : a *c b = C0 -> a <> C0 -> b = C0.
Proof.
  intros H Ha.
  assert (E : Cconj a *c (a *c b) = RtoC (Cnorm2 a) *c b).
  { rewrite Cnorm2_conj. ring. }
  rewrite H in E.
  assert (Hn : Cnorm2 a <> 0%R).
  { intros Z. apply Ha. unfold Cnorm2 in Z.
    assert (re a = 0 /\ im a = 0)%R as [? ?].
    { assert (0 <= re a * re a)%R by (apply Rle_0_sqr). assert (0 <= im a * im a)%R by (apply Rle_0_sqr).
      split; apply Rsqr_0_uniq; unfold Rsqr; lra. }
    creal; assumption. }
  replace b with (RtoC (/ Cnorm2 a) *c (RtoC (Cnorm2 a) *c b)).
  - rewrite <- E. ring.
  - creal; field; exact Hn.
Qed.

(* e^{i t} *)
Definition cis (t : R) : C := mkcx (cos t) (sin t).
Lemma cis_0 : cis 0 = C1.
Proof. unfold cis. rewrite cos_0, sin_0. reflexivity. Qed.
Lemma cis_add a b : cis (a + b) = cis a *c cis b.
Proof. creal; unfold cis; cbn. apply cos_plus. rewrite sin_plus. ring. Qed.
Lemma cis_conj a : Cconj (cis a) = cis (- a).
Proof. unfold cis, Cconj; cbn. rewrite cos_neg, sin_neg. reflexivity. Qed.
Lemma cis_2PI_nat k : cis (2 * INR k * PI) = C1.
Proof.
  creal; unfold cis; cbn.
  - replace (2 * INR k * PI)%R with (0 + 2 * INR k * PI)%R by ring. rewrite cos_period. apply cos_0.
  - replace (2 * INR k * PI)%R with (0 + 2 * INR k * PI)%R by ring. rewrite sin_period. apply sin_0.
Qed.
Lemma cis_2PI_neg_nat k : cis (- (2 * INR k * PI)) = C1.
Proof. rewrite <- cis_conj, cis_2PI_nat. creal; ring. Qed.
Lemma cis_PI : cis PI = Copp C1.
Proof. creal; unfold cis; cbn; [rewrite cos_PI|rewrite sin_PI]; ring. Qed.
Lemma cis_norm a : cis a *c cis (- a) = C1.
Proof. rewrite <- cis_add. replace (a + - a)%R with 0%R by ring. apply cis_0. Qed.

(* finite sums f 0 + ... + f (n-1) *)
Fixpoint csum (n : nat) (f : nat -> C) : C :=
  match n with 0 => C0 | S m => csum m f +c f m end.

Lemma csum_ext n f g : (forall i, i < n -> f i = g i) -> csum n f = csum n g.
Proof.
  induction n as [|n IH]; intros H; cbn [csum]; [reflexivity|].
  rewrite IH by (intros; apply H; lia). rewrite H by lia. reflexivity.
Qed.
Lemma csum_add n f g : csum n (fun i => f i +c g i) = csum n f +c csum n g.
Proof. induction n as [|n IH]; cbn [csum]; [ring|]. rewrite IH. ring. Qed.
Lemma csum_sub n f g : csum n (fun i => f i -c g i) = csum n f -c csum n g.
Proof. induction n as [|n IH]; cbn [csum]; [ring|]. rewrite IH. ring. Qed.
Lemma csum_scal n a f : csum n (fun i => a *c f i) = a *c csum n f.
Proof. induction n as [|n IH]; cbn [csum]; [ring|]. rewrite IH. ring. Qed.
Lemma csum_scal_r n a f : csum n (fun i => f i *c a) = csum n f *c a.
Proof. induction n as [|n IH]; cbn [csum]; [ring|]. rewrite IH. ring. Qed.
Lemma csum_0 n f : (forall i, i < n -> f i = C0) -> csum n f = C0.
Proof.
  induction n as [|n IH]; intros H; cbn [csum]; [reflexivity|].
  rewrite IH by (intros; apply H; lia). rewrite H by lia. ring.
Qed.
Lemma csum_conj n f : Cconj (csum n f) = csum n (fun i => Cconj (f i)).
Proof.
  induction n as [|n IH]; cbn [csum]; [creal; ring|]. rewrite Cconj_add, IH. reflexivity.
Qed.
Lemma csum_app n m f : csum (n + m) f = csum n f +c csum m (fun i => f (n + i)).
Proof.
  induction m as [|m IH]; cbn [csum].
  - rewrite Nat.add_0_r. ring.
  - rewrite Nat.add_succ_r. cbn [csum]. rewrite IH. ring.
Qed.
Lemma csum_S_l n f : csum (S n) f = f 0 +c csum n (fun i => f (S i)).
Proof. change (S n) with (1 + n). rewrite csum_app. cbn [csum]. f_equal. ring. Qed.
Lemma csum_const n a : csum n (fun _ => a) = RtoC (INR n) *c a.
Proof.
  induction n as [|n IH]; cbn [csum].
  - creal; cbn [INR]; ring.
  - rewrite IH, S_INR, RtoC_add. change (RtoC 1) with C1. ring.
Qed.
Lemma csum_swap n m f : csum n (fun i => csum m (fun j => f i j)) = csum m (fun j => csum n (fun i => f i j)).
Proof.
  induction n as [|n IH]; cbn [csum].
  - symmetry. apply csum_0. reflexivity.
  - rewrite IH, <- csum_add. reflexivity.
Qed.
Lemma csum_single n k f : k < n -> (forall i, i < n -> i <> k -> f i = C0) -> csum n f = f k.
Proof.
  revert k. induction n as [|n IH]; intros k Hk H; [lia|]. cbn [csum].
  destruct (Nat.eq_dec k n) as [->|Hne].
  - rewrite csum_0 by (intros; apply H; lia). ring.
  - rewrite (IH k) by (try lia; intros; apply H; lia). rewrite (H n) by lia. ring.
Qed.
(* split by parity *)
Lemma csum_even_odd n f :
  csum (2 * n) f = csum n (fun i => f (2 * i)) +c csum n (fun i => f (2 * i + 1)).
Proof.
  induction n as [|n IH]; [cbn [csum Nat.mul]; cbn; ring|].
  replace (2 * S n) with (S (S (2 * n))) by lia. cbn [csum]. rewrite IH.
  replace (2 * n + 1) with (S (2 * n)) by lia. ring.
Qed.
Lemma csum_rev n f : csum n f = csum n (fun i => f (n - 1 - i)).
Proof.
  revert f. induction n as [|n IH]; intros f; [reflexivity|].
  rewrite (csum_S_l n (fun i => f (S n - 1 - i))). cbn [csum].
  rewrite (IH f). replace (S n - 1 - 0) with n by lia.
  rewrite (csum_ext (n := n) (fun i => f (n - 1 - i)) (fun i => f (S n - 1 - S i)))
    by (intros; f_equal; lia). ring.
Qed.
(* cyclic shift of summation index *)
Lemma csum_cyclic n s f : s <= n -> csum n (fun i => f ((i + s) mod n)) = csum n f.
Proof.
  intros Hs. destruct (Nat.eq_dec n 0) as [->|Hn]; [reflexivity|].
  replace n with ((n - s) + s) at 1 by lia. rewrite csum_app.
  rewrite (csum_ext (n := n - s) _ (fun i => f (s + i))).
  2:{ intros i Hi. f_equal. rewrite Nat.mod_small by lia. lia. }
  rewrite (csum_ext (n := s) _ f).
  2:{ intros i Hi. f_equal. replace (n - s + i + s) with (i + 1 * n) by lia.
      rewrite Nat.mod_add by lia. apply Nat.mod_small. lia. }
  assert (E : csum n f = csum s f +c csum (n - s) (fun i => f (s + i))).
  { replace n with (s + (n - s)) at 1 by lia. apply csum_app. }
  rewrite E. ring.
Qed.
Lemma csum_cyclic_mod n s f : 0 < n -> csum n (fun i => f ((i + s) mod n)) = csum n f.
Proof.
  intros Hn. rewrite <- (@csum_cyclic n (s mod n) f).
  - apply csum_ext. intros i _. f_equal. rewrite Nat.add_mod_idemp_r by lia. reflexivity.
  - pose proof (Nat.mod_upper_bound s n). lia.
Qed.
(* reflection i -> (s - i) mod n *)
Lemma csum_reflect n s f : 0 < n -> csum n (fun i => f ((s + n - i mod n) mod n)) = csum n f.
Proof.
  intros Hn.
  rewrite <- (@csum_cyclic_mod n (s + 1) f Hn).
  rewrite (csum_rev n (fun i => f ((i + (s + 1)) mod n))).
  apply csum_ext. intros i Hi. f_equal. rewrite (Nat.mod_small i n) by lia.
  f_equal. lia.
Qed.
Lemma csum_trunc n m f : n <= m -> (forall i, n <= i < m -> f i = C0) -> csum m f = csum n f.
Proof.
  intros Hnm H. replace m with (n + (m - n)) by lia. rewrite csum_app.
  rewrite (csum_0 (n := m - n)) by (intros; apply H; lia). ring.
Qed.

(* ---- DFT specification ---- *)
(* the kernel exp(-2 pi i k / n) *)
Definition W (n : nat) (k : nat) : C := cis (- (2 * PI * INR k / INR n)).
(* X[k] = sum_j x[j] exp(-2 pi i j k / n) *)
Definition dft (n : nat) (x : nat -> C) (k : nat) : C := csum n (fun j => x j *c W n (j * k)).
(* x[j] = 1/n sum_k X[k] exp(+2 pi i j k / n) *)
Definition idft (n : nat) (y : nat -> C) (j : nat) : C :=
  RtoC (/ INR n) *c csum n (fun k => y k *c Cconj (W n (j * k))).
(* the samples of a buffer *)
Definition at_ (l : list C) (i : nat) : C := nth i l C0.
Definition DFT (x : list C) : list C := tab (length x) (dft (length x) (at_ x)).
Definition IDFT (x : list C) : list C := tab (length x) (idft (length x) (at_ x)).

Lemma INR_pos n : 0 < n -> (0 < INR n)%R.
Proof. intros H. apply lt_0_INR. exact H. Qed.
Lemma INR_neq0 n : 0 < n -> INR n <> 0%R.
Proof. intros H. apply not_0_INR. lia. Qed.

Lemma W_0 n : W n 0 = C1.
Proof. unfold W. cbn [INR]. replace (- (2 * PI * 0 / INR n))%R with 0%R by (unfold Rdiv; ring). apply cis_0. Qed.
Lemma W_add n a b : 0 < n -> W n (a + b) = W n a *c W n b.
Proof.
  intros Hn. unfold W. rewrite <- cis_add, plus_INR. f_equal. field. apply INR_neq0, Hn.
Qed.
Lemma W_n n q : 0 < n -> W n (q * n) = C1.
Proof.
  intros Hn. unfold W. rewrite mult_INR.
  replace (- (2 * PI * (INR q * INR n) / INR n))%R with (- (2 * INR q * PI))%R
    by (field; apply INR_neq0, Hn).
  apply cis_2PI_neg_nat.
Qed.
Lemma W_mod n a : 0 < n -> W n (a mod n) = W n a.
Proof.
  intros Hn. rewrite (Nat.div_mod_eq a n) at 2. rewrite W_add, Nat.mul_comm, W_n by exact Hn. ring.
Qed.
Lemma W_scale n q a : 0 < n -> 0 < q -> W (q * n) (q * a) = W n a.
Proof.
  intros Hn Hq. unfold W. f_equal. rewrite !mult_INR. field. split; apply INR_neq0; assumption.
Qed.
Lemma W_half n a : 0 < n -> W (2 * n) (a + n) = Copp (W (2 * n) a).
Proof.
  intros Hn. rewrite W_add by lia.
  assert (W (2 * n) n = Copp C1) as ->.
  { unfold W. rewrite mult_INR. cbn [INR].
    replace (- (2 * PI * INR n / ((1 + 1) * INR n)))%R with (- PI)%R by (field; apply INR_neq0, Hn).
    rewrite <- cis_conj, cis_PI. creal; ring. }
  ring.
Qed.
Lemma W_conj_l n a : W n a *c Cconj (W n a) = C1.
Proof. unfold W. rewrite cis_conj. apply cis_norm. Qed.
Lemma W_norm n a : Cnorm2 (W n a) = 1%R.
Proof. unfold W, cis, Cnorm2. cbn. pose proof (sin2_cos2 (- (2 * PI * INR a / INR n))) as H. unfold Rsqr in H. lra. Qed.
Lemma W_conj_neg n a : 0 < n -> a <= n -> Cconj (W n a) = W n (n - a).
Proof.
  intros Hn Ha.
  assert (E : W n (n - a) *c W n a = C1).
  { rewrite <- W_add by exact Hn. replace (n - a + a) with (1 * n) by lia. apply W_n, Hn. }
  transitivity (W n (n - a) *c (W n a *c Cconj (W n a))).
  - transitivity ((W n (n - a) *c W n a) *c Cconj (W n a)); [rewrite E; ring | ring].
  - rewrite W_conj_l. ring.
Qed.

Lemma W_neq1 n d : 0 < d < n -> W n d <> C1.
Proof.
  intros Hd E. unfold W, cis in E.
  assert (Hc : cos (- (2 * PI * INR d / INR n)) = 1%R) by (inversion E; reflexivity).
  rewrite cos_neg in Hc.
  assert (Hn : (0 < INR n)%R) by (apply INR_pos; lia).
  assert (Hdp : (0 < INR d)%R) by (apply INR_pos; lia).
  assert (Hlt : (INR d < INR n)%R) by (apply lt_INR; lia).
  set (t := (PI * INR d / INR n)%R) in *.
  replace (2 * PI * INR d / INR n)%R with (2 * t)%R in Hc by (unfold t; field; lra).
  rewrite cos_2a_sin in Hc.
  assert (0 < sin t)%R.
  { apply sin_gt_0.
    - unfold t. pose proof PI_RGT_0. apply Rmult_lt_0_compat; [apply Rmult_lt_0_compat; lra|].
      apply Rinv_0_lt_compat; lra.
    - unfold t. pose proof PI_RGT_0. apply Rmult_lt_reg_r with (INR n); [lra|].
      replace (PI * INR d / INR n * INR n)%R with (PI * INR d)%R by (field; lra).
      apply Rmult_lt_compat_l; lra. }
  assert (0 < sin t * sin t)%R by (apply Rmult_lt_0_compat; assumption).
  lra.
Qed.

(* geometric sums *)
Fixpoint Cpow (z : C) (n : nat) : C := match n with 0 => C1 | S m => Cpow z m *c z end.
Lemma Cpow_geom z n : (z -c C1) *c csum n (fun j => Cpow z j) = Cpow z n -c C1.
Proof.
  induction n as [|n IH]; cbn [csum Cpow]; [ring|].
  transitivity ((z -c C1) *c csum n (fun j => Cpow z j) +c (z -c C1) *c Cpow z n); [ring|].
  rewrite IH. ring.
Qed.
Lemma Cpow_W n d j : 0 < n -> Cpow (W n d) j = W n (j * d).
Proof.
  intros Hn. induction j as [|j IH]; cbn [Cpow]; [rewrite Nat.mul_0_l, W_0; reflexivity|].
  rewrite IH, <- W_add by exact Hn. f_equal. lia.
Qed.
Lemma W_sum n d : 0 < n -> csum n (fun j => W n (j * d)) = if d mod n =? 0 then RtoC (INR n) else C0.
Proof.
  intros Hn. destruct (Nat.eqb_spec (d mod n) 0) as [E|E].
  - rewrite (csum_ext (n := n) _ (fun _ => C1)).
    + rewrite csum_const. ring.
    + intros j _. rewrite (Nat.div_mod_eq d n), E.
      replace (j * (n * (d / n) + 0)) with ((j * (d / n)) * n) by lia. apply W_n, Hn.
  - assert (H1 : W n d -c C1 <> C0).
    { intros H. apply (@W_neq1 n (d mod n)).
      - pose proof (Nat.mod_upper_bound d n). lia.
      - rewrite W_mod by exact Hn. transitivity (W n d -c C1 +c C1); [ring|]. rewrite H. ring. }
    apply (@Cmul_integral_norm (W n d -c C1)); [|exact H1].
    rewrite (csum_ext (n := n) _ (fun j => Cpow (W n d) j)) by (intros; rewrite Cpow_W; [reflexivity|exact Hn]).
    rewrite Cpow_geom, Cpow_W by exact Hn. rewrite Nat.mul_comm, W_n by exact Hn. ring.
Qed.
(* orthogonality in the form used below *)
Lemma W_orth n a b : a < n -> b < n ->
  csum n (fun k => W n (a * k) *c Cconj (W n (b * k))) = if a =? b then RtoC (INR n) else C0.
Proof.
  intros Ha Hb. assert (Hn : 0 < n) by lia.
  rewrite (csum_ext (n := n) _ (fun k => W n (k * (a + (n - b))))).
  - rewrite W_sum by exact Hn. destruct (Nat.eqb_spec a b) as [->|Hne].
    + replace (b + (n - b)) with n by lia. rewrite Nat.mod_same by lia. reflexivity.
    + destruct (Nat.eqb_spec ((a + (n - b)) mod n) 0) as [E|_]; [|reflexivity].
      exfalso. destruct (Nat.lt_ge_cases (a + (n - b)) n).
      * rewrite Nat.mod_small in E by lia. lia.
      * replace (a + (n - b)) with ((a - b) + 1 * n) in E by lia.
        rewrite Nat.mod_add in E by lia. rewrite Nat.mod_small in E by lia. lia.
  - intros k _.
    assert (Cconj (W n (b * k)) = W n (k * (n - b))) as ->.
    { assert (E : W n (k * (n - b)) *c W n (b * k) = C1).
      { rewrite <- W_add by exact Hn.
        replace (k * (n - b) + b * k) with (k * n) by nia. apply W_n, Hn. }
      transitivity (W n (k * (n - b)) *c (W n (b * k) *c Cconj (W n (b * k)))).
      - transitivity ((W n (k * (n - b)) *c W n (b * k)) *c Cconj (W n (b * k))); [rewrite E; ring | ring].
      - rewrite W_conj_l. ring. }
    rewrite <- W_add by exact Hn. f_equal. lia.
Qed.

Lemma dft_ext n x y k : (forall i, i < n -> x i = y i) -> dft n x k = dft n y k.
Proof. intros H. apply csum_ext. intros i Hi. rewrite H by exact Hi. reflexivity. Qed.
Lemma idft_ext n x y k : (forall i, i < n -> x i = y i) -> idft n x k = idft n y k.
Proof. intros H. unfold idft. f_equal. apply csum_ext. intros i Hi. rewrite H by exact Hi. reflexivity. Qed.

Lemma idft_dft n x j : j < n -> idft n (dft n x) j = x j.
Proof.
  intros Hj. assert (Hn : 0 < n) by lia. unfold idft, dft.
  rewrite (csum_ext (n := n) _ (fun k => csum n (fun i => x i *c (W n (i * k) *c Cconj (W n (j * k)))))).
  2:{ intros k _. rewrite <- csum_scal_r. apply csum_ext. intros i _. ring. }
  rewrite csum_swap.
  rewrite (csum_single (k := j)); [|exact Hj|].
  - rewrite csum_scal, W_orth, Nat.eqb_refl by exact Hj.
    transitivity (RtoC (INR n) *c RtoC (/ INR n) *c x j); [ring|].
    rewrite RtoC_inv by (apply INR_neq0, Hn). ring.
  - intros i Hi Hne. rewrite csum_scal, W_orth by assumption.
    destruct (Nat.eqb_spec i j); [contradiction|ring].
Qed.
Lemma dft_idft n y k : k < n -> dft n (idft n y) k = y k.
Proof.
  intros Hk. assert (Hn : 0 < n) by lia. unfold idft, dft.
  rewrite (csum_ext (n := n) _ (fun j => RtoC (/ INR n) *c csum n (fun i => y i *c (W n (k * j) *c Cconj (W n (i * j)))))).
  2:{ intros j _. rewrite (Nat.mul_comm j k). 
      rewrite (csum_ext (n := n) (fun i => y i *c (W n (k * j) *c Cconj (W n (i * j)))) (fun i => W n (k * j) *c (y i *c Cconj (W n (j * i))))).
      2:{ intros i _. rewrite (Nat.mul_comm i j). ring. }
      rewrite csum_scal. ring. }
  rewrite csum_scal, csum_swap.
  rewrite (csum_single (k := k)); [|exact Hk|].
  - rewrite csum_scal, W_orth, Nat.eqb_refl by exact Hk.
    transitivity (RtoC (INR n) *c RtoC (/ INR n) *c y k); [ring|].
    rewrite RtoC_inv by (apply INR_neq0, Hn). ring.
  - intros i Hi Hne. rewrite csum_scal, W_orth by assumption.
    destruct (Nat.eqb_spec k i); [congruence|ring].
Qed.
(* inverse through conjugation *)
Lemma idft_conj n y j :
  RtoC (/ INR n) *c Cconj (dft n (fun k => Cconj (y k)) j) = idft n y j.
Proof.
  unfold idft, dft. f_equal. rewrite csum_conj. apply csum_ext. intros k _.
  rewrite Cconj_mul, Cconj_conj. rewrite Nat.mul_comm. reflexivity.
Qed.

Lemma DFT_length x : length (DFT x) = length x. Proof. apply tab_length. Qed.
Lemma IDFT_length x : length (IDFT x) = length x. Proof. apply tab_length. Qed.
Lemma at_tab n f i : i < n -> at_ (tab n f) i = f i.
Proof. intros H. unfold at_. apply nth_tab, H. Qed.
Lemma list_at_ext (a b : list C) :
  length a = length b -> (forall i, i < length a -> at_ a i = at_ b i) -> a = b.
Proof. intros Hl H. apply list_ext with (d := C0); assumption. Qed.
Lemma IDFT_DFT x : IDFT (DFT x) = x.
Proof.
  apply list_at_ext; [rewrite IDFT_length; apply DFT_length|].
  rewrite IDFT_length, DFT_length. intros i Hi.
  unfold IDFT. rewrite DFT_length. rewrite at_tab by exact Hi.
  rewrite (@idft_ext _ _ (dft (length x) (at_ x))) by (intros j Hj; unfold DFT; rewrite at_tab by exact Hj; reflexivity).
  apply idft_dft, Hi.
Qed.
Lemma DFT_IDFT x : DFT (IDFT x) = x.
Proof.
  apply list_at_ext; [rewrite DFT_length; apply IDFT_length|].
  rewrite DFT_length, IDFT_length. intros i Hi.
  unfold DFT. rewrite IDFT_length. rewrite at_tab by exact Hi.
  rewrite (@dft_ext _ _ (idft (length x) (at_ x))) by (intros j Hj; unfold IDFT; rewrite at_tab by exact Hj; reflexivity).
  apply dft_idft, Hi.
Qed.

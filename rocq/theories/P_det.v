(* Properties C51, C52: Goertzel detector and chirp-z transform. *)
From Coq Require Import Reals Lra ZArith Lia.
From Verif Require Import L_trig P_trig.
Set Implicit Arguments.
Open Scope R_scope.

(* ------------------------------------------------------------------ C51 *)
Lemma goertzel_fold w : forall (x : list R) s1 s2,
  let s := fold_left (goertzel_step (2 * cos w)) x (s1, s2) in
  RtoC (fst s) -c cis (- w) *c RtoC (snd s) =
  csum (length x) (fun j => RtoC (nth j x 0) *c cis (w * INR (length x - 1 - j))) +c cis (w * INR (length x)) *c (RtoC s1 -c cis (- w) *c RtoC s2).
Proof.
  induction x as [|v x IH]; intros s1 s2 s.
  - unfold s. cbn [fold_left length fst snd csum INR]. rewrite Rmult_0_r, cis_0. ring.
  - unfold s. cbn [fold_left goertzel_step]. rewrite (IH _ _). clear IH s. cbn [length]. rewrite csum_S_l. cbn [nth].
    replace (S (length x) - 1 - 0)%nat with (length x) by lia.
    rewrite (@csum_ext (length x) (fun j => RtoC (nth j x 0) *c cis (w * INR (length x - 1 - j)))
       (fun i => RtoC (nth i x 0) *c cis (w * INR (S (length x) - 1 - S i)))) by (intros j Hj; do 3 f_equal; f_equal; lia).
    assert (E : RtoC (v + 2 * cos w * s1 - s2) -c cis (- w) *c RtoC s1 = RtoC v +c cis w *c (RtoC s1 -c cis (- w) *c RtoC s2)).
    { creal; unfold cis; cbn [re im Cadd Csub Cmul RtoC]; rewrite ?cos_neg, ?sin_neg; pose proof (sin2_cos2 w) as Q; unfold Rsqr in Q; [|ring].
      replace (v + 2 * cos w * s1 - s2 - (cos w * s1 - - sin w * 0)) with (v + cos w * s1 - s2 * (sin w * sin w + cos w * cos w)) by (rewrite Q; ring). ring. }
    cbn [fadd fsub fmul RF RFloat_of]. rewrite E. rewrite S_INR, Rmult_plus_distr_l, Rmult_1_r, cis_add. ring.
Qed.
Lemma Cnorm2_mul a b : Cnorm2 (a *c b) = Cnorm2 a * Cnorm2 b.
Proof. unfold Cnorm2. cbn. ring. Qed.
Lemma Cnorm2_cis w : Cnorm2 (cis w) = 1.
Proof. unfold Cnorm2, cis. cbn. pose proof (sin2_cos2 w) as Q. unfold Rsqr in Q. lra. Qed.
Lemma cis_2PI_Z w m : cis (w + 2 * PI * IZR m) = cis w.
Proof. unfold cis. rewrite cos_2PI_Z, sin_2PI_Z. reflexivity. Qed.
Lemma Int_part_spec r z : IZR z <= r < IZR z + 1 -> Int_part r = z.
Proof.
  intros [H1 H2]. destruct (base_Int_part r) as [B1 B2].
  assert (IZR z < IZR (Int_part r) + 1) by lra. assert (IZR (Int_part r) < IZR z + 1) by lra.
  rewrite <- plus_IZR in *. apply lt_IZR in H, H0. lia.
Qed.
(* k is the integer part of f n / rate; the bin of the DFT is k modulo n *)
Theorem C51_goertzel : forall (x : list R) (rate f : R) (k : Z), x <> [] -> 0 < rate ->
  IZR k <= f * INR (length x) / rate < IZR k + 1 ->
  goertzel x rate f = Ok (sqrt (Cnorm2 (dft (length x) (fun j => RtoC (nth j x 0)) (Z.to_nat (k mod Z.of_nat (length x)))))).
Proof.
  intros x rate f k Hx Hr Hk. assert (Hn : (0 < length x)%nat) by (destruct x; [congruence|cbn; lia]).
  assert (P : INR (length x) <> 0) by (apply not_0_INR; lia).
  assert (E : goertzel x rate f = if fleb rate fzero then Err InvalidValue else
    let w := 2 * PI * IZR k / INR (length x) in
    let '(s1, s2) := fold_left (goertzel_step (2 * cos w)) x (0, 0) in Ok (sqrt (s2 * s2 + s1 * s1 - 2 * cos w * s1 * s2))).
  { destruct x as [|a l]; [congruence|]. unfold goertzel. fr. cbn [ffloorf fsqrt RX]. rewrite (@Int_part_spec _ k Hk). reflexivity. }
  rewrite E. cbn [fleb RX fzero RF RFloat_of]. destruct (Rle_dec rate 0); [lra|]. cbv zeta.
  set (w := 2 * PI * IZR k / INR (length x)). pose proof (goertzel_fold w x 0 0) as G. cbv zeta in G.
  destruct (fold_left (goertzel_step (2 * cos w)) x (0, 0)) as [s1 s2]. cbn [fst snd] in G. do 2 f_equal.
  assert (N : s2 * s2 + s1 * s1 - 2 * cos w * s1 * s2 = Cnorm2 (RtoC s1 -c cis (- w) *c RtoC s2)).
  { unfold Cnorm2, cis. cbn [re im Cadd Csub Cmul RtoC]. rewrite cos_neg, sin_neg. pose proof (sin2_cos2 w) as Q. unfold Rsqr in Q. 
    replace (s2 * s2) with (s2 * s2 * (sin w * sin w + cos w * cos w)) by (rewrite Q; ring). ring. }
  rewrite N, G. replace (RtoC 0 -c cis (- w) *c RtoC 0) with C0 by (creal; unfold cis; cbn; ring).
  replace (csum (length x) (fun j => RtoC (nth j x 0) *c cis (w * INR (length x - 1 - j))) +c cis (w * INR (length x)) *c C0)
    with (cis (w * INR (length x - 1)) *c dft (length x) (fun j => RtoC (nth j x 0)) (Z.to_nat (k mod Z.of_nat (length x)))).
  - rewrite Cnorm2_mul, Cnorm2_cis. ring.
  - unfold dft. rewrite <- csum_scal.
    replace (cis (w * INR (length x)) *c C0) with C0 by (creal; ring).
    replace (csum (length x) (fun j => RtoC (nth j x 0) *c cis (w * INR (length x - 1 - j))) +c C0) with (csum (length x) (fun j => RtoC (nth j x 0) *c cis (w * INR (length x - 1 - j)))) by ring.
    apply csum_ext. intros j Hj.
    assert (V : W (length x) (j * Z.to_nat (k mod Z.of_nat (length x))) = cis (- (w * INR j))).
    { unfold W. pose proof (Z.div_mod k (Z.of_nat (length x))) as D. pose proof (Z.mod_pos_bound k (Z.of_nat (length x))) as B.
      rewrite <- (@cis_2PI_Z (- (w * INR j)) (Z.of_nat j * (k / Z.of_nat (length x)))). f_equal.
      rewrite mult_INR, (INR_IZR_INZ (Z.to_nat _)), Z2Nat.id by lia. unfold w. rewrite D at 2 by lia.
      rewrite plus_IZR, !mult_IZR, <- !INR_IZR_INZ. field. exact P. }
    rewrite V. replace (w * INR (length x - 1 - j)) with (w * INR (length x - 1) + - (w * INR j)) by (rewrite (minus_INR (length x - 1) j) by lia; ring).
    rewrite cis_add. ring.
Qed.
Print Assumptions C51_goertzel.
Theorem C51_errors : forall (T : Type) (F : Float T) (X : FloatX T) (x : list T) rate f,
  goertzel [] rate f = Err EmptyInput /\ (x <> [] -> fleb rate fzero = true -> goertzel x rate f = Err InvalidValue).
Proof. intros. split; [reflexivity|]. intros Hx H. destruct x; [congruence|]. unfold goertzel. rewrite H. reflexivity. Qed.
Print Assumptions C51_errors.
Theorem C51_rate_error : forall (x : list R) rate f, x <> [] -> rate <= 0 -> goertzel x rate f = Err InvalidValue.
Proof. intros x rate f Hx H. apply (@C51_errors R RF RX x rate f); [exact Hx|]. cbn. destruct (Rle_dec rate 0); [reflexivity|lra]. Qed.
Print Assumptions C51_rate_error.
Example C51_example : goertzel [1; 2; 3] 8000 3000 = Ok (sqrt (Cnorm2 (dft 3 (fun j => RtoC (nth j [1; 2; 3] 0)) 1))).
Proof. apply (@C51_goertzel [1; 2; 3] 8000 3000 1); [discriminate|lra|cbn [length INR]; lra]. Qed.

(* ------------------------------------------------------------------ C52 *)
(* Cpow z n = z * .. * z, n times (RC.v) *)
Lemma Cpow_add z a b : Cpow z (a + b) = Cpow z a *c Cpow z b.
Proof. induction a as [|a IH]; cbn [Cpow Nat.add]; [ring|]. rewrite IH. ring. Qed.
Lemma Cpow_mul z a b : Cpow z (a * b) = Cpow (Cpow z a) b.
Proof. induction b as [|b IH]; [rewrite Nat.mul_0_r; reflexivity|]. rewrite Nat.mul_succ_r, Cpow_add, IH. cbn [Cpow]. ring. Qed.
Lemma pmul_R (a b : C) : pmul a b = a *c b.
Proof. reflexivity. Qed.
Lemma czt_wk_R (w : C) k : czt_wk w k = Cpow w k.
Proof. induction k as [|k IH]; cbn [czt_wk Cpow]; [reflexivity|]. rewrite pmul_R, IH. ring. Qed.
Lemma czt_bin_R (wk ainv : C) : forall x wnk apow out,
  czt_bin wk ainv x wnk apow out = out +c csum (length x) (fun j => RtoC (nth j x 0) *c (apow *c Cpow ainv j) *c (wnk *c Cpow wk j)).
Proof.
  induction x as [|v x IH]; intros wnk apow out; cbn [czt_bin length]; [cbn [csum]; ring|].
  rewrite IH, csum_S_l. cbn [nth Cpow]. rewrite !pmul_R.
  replace (mkcx (fadd (re out) (fmul v (re (apow *c wnk)))) (fadd (im out) (fmul v (im (apow *c wnk))))) with (out +c RtoC v *c (apow *c wnk))
    by (creal; cbn [fadd fmul RF RFloat_of]; ring).
  match goal with |- _ +c csum ?n ?f = _ => rewrite (@csum_ext n f (fun i => RtoC (nth i x 0) *c (apow *c (Cpow ainv i *c ainv)) *c (wnk *c (Cpow wk i *c wk))))
    by (intros; cbv beta; change (@pmul R RF) with Cmul; ring) end.
  ring.
Qed.
(* b is the inverse of a *)
Theorem C52_czt : forall (x : list R) m (w a b : C), a *c b = C1 ->
  czt x m w a = tab m (fun k => csum (length x) (fun j => RtoC (nth j x 0) *c Cpow b j *c Cpow w (j * k))).
Proof.
  intros x m w a b Hab. unfold czt.
  assert (D : re a * re a + im a * im a <> 0).
  { intros H. assert (re a = 0 /\ im a = 0) as [Ha Hb] by (split; nra).
    apply (f_equal re) in Hab. cbn in Hab. rewrite Ha, Hb in Hab. lra. }
  set (ainv := mkcx _ _).
  assert (E : ainv = b).
  { unfold ainv. cbn [feqb RX fadd fmul fdiv fneg fzero RF RFloat_of]. destruct (Req_EM_T (re a * re a + im a * im a) 0); [contradiction|].
    set (i := mkcx _ _). assert (Hi : i *c a = C1) by (creal; cbn [re im i]; field; exact D).
    replace i with (i *c (a *c b)) by (rewrite Hab; ring). replace (i *c (a *c b)) with (i *c a *c b) by ring. rewrite Hi. ring. }
  rewrite E. apply tab_ext. intros k _. rewrite czt_bin_R, czt_wk_R. change (mkcx fzero fzero) with C0. change (@cone R RF) with C1.
  rewrite (@csum_ext (length x) _ (fun j => RtoC (nth j x 0) *c Cpow b j *c Cpow w (j * k))); [ring|].
  intros j _. rewrite (Nat.mul_comm j k), Cpow_mul. ring.
Qed.
Print Assumptions C52_czt.
Lemma Cpow_1 j : Cpow C1 j = C1.
Proof. induction j as [|j IH]; cbn [Cpow]; [reflexivity|]. rewrite IH. ring. Qed.
Theorem C52_czt_dft : forall x : list R, czt x (length x) (cis (- (2 * PI / INR (length x)))) C1 = tab (length x) (dft (length x) (fun j => RtoC (nth j x 0))).
Proof.
  intros x. rewrite (@C52_czt x (length x) _ C1 C1) by ring. apply tab_ext. intros k Hk. unfold dft. apply csum_ext. intros j Hj.
  replace (cis (- (2 * PI / INR (length x)))) with (W (length x) 1) by (unfold W; cbn [INR]; do 2 f_equal; unfold Rdiv; ring).
  rewrite Cpow_W, Cpow_1, Nat.mul_1_r by lia. ring.
Qed.
Print Assumptions C52_czt_dft.
(* a = 0 is treated as if 1/a were 0: only the first sample is seen *)
Theorem C52_zero_start : forall (x : list R) m w, czt x m w C0 = tab m (fun _ => RtoC (nth 0 x 0)).
Proof.
  intros x m w. unfold czt. apply tab_ext. intros k _. cbn [feqb RX fadd fmul fdiv fneg fzero RF RFloat_of re im C0].
  destruct (Req_EM_T (0 * 0 + 0 * 0) 0); [|lra]. rewrite czt_bin_R. change (mkcx 0 0) with C0. change (@cone R RF) with C1.
  destruct x as [|v x]; [cbn [length csum nth]; creal; ring|]. cbn [length]. rewrite csum_S_l. cbn [nth Cpow].
  rewrite (@csum_ext (length x) _ (fun _ => C0)) by (intros; ring).
  rewrite csum_0 by reflexivity. ring.
Qed.
Print Assumptions C52_zero_start.
Example C52_example : mkcx (1 / 2) 0 *c mkcx 2 0 = C1.
Proof. creal; lra. Qed.

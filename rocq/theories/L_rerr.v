(* Rounding errors of the real transforms: the running product of their table, the
   post-processing of one bin, and the two closed forms of L_rfft.v. *)
From Coq Require Import Reals Lra Lia.
From Verif Require Export L_err L_rfft.
Set Implicit Arguments.
Open Scope R_scope.

Lemma Rabs_re z : Rabs (re z) <= Cabs z.
Proof.
  apply le_sq; [apply Cabs_nonneg|]. rewrite Cabs_sq. unfold Cnorm2.
  replace (Rabs (re z) * Rabs (re z)) with (re z * re z); [nra|]. rewrite <- Rabs_mult. symmetry. apply Rabs_pos_eq. nra.
Qed.
Lemma Rabs_im z : Rabs (im z) <= Cabs z.
Proof.
  apply le_sq; [apply Cabs_nonneg|]. rewrite Cabs_sq. unfold Cnorm2.
  replace (Rabs (im z) * Rabs (im z)) with (im z * im z); [nra|]. rewrite <- Rabs_mult. symmetry. apply Rabs_pos_eq. nra.
Qed.
Lemma Cabs_parts z : Cabs z <= Rabs (re z) + Rabs (im z).
Proof.
  pose proof (Rabs_pos (re z)). pose proof (Rabs_pos (im z)).
  apply (@Cabs_comp z (Rabs (re z)) (Rabs (im z))); try apply Rle_refl; nra.
Qed.

Section RErr.
Variable G : Float R.
Variable u : R.
Hypothesis HG : rounded G u.
Variable c : cfg.
Local Notation gam := (gam u).

(* the real part of the calculus of L_err.v *)
Definition rnear (q S x xh : R) : Prop := 1 <= q /\ Rabs x <= S /\ Rabs (xh - x) <= (q - 1) * S.
Lemma near_re q S z zh : near q S z zh -> rnear q S (re z) (re zh).
Proof.
  intros (H1 & H2 & H3). split; [exact H1|]. split; [eapply Rle_trans; [apply Rabs_re|exact H2]|].
  eapply Rle_trans; [|exact H3]. apply (Rabs_re (zh -c z)).
Qed.
Lemma near_im q S z zh : near q S z zh -> rnear q S (im z) (im zh).
Proof.
  intros (H1 & H2 & H3). split; [exact H1|]. split; [eapply Rle_trans; [apply Rabs_im|exact H2]|].
  eapply Rle_trans; [|exact H3]. apply (Rabs_im (zh -c z)).
Qed.
Lemma rnear_neg q S x xh : rnear q S x xh -> rnear q S (- x) (- xh).
Proof. intros (H1 & H2 & H3). split; [exact H1|]. split; [rewrite Rabs_Ropp; exact H2|]. replace (- xh - - x) with (- (xh - x)) by ring. rewrite Rabs_Ropp. exact H3. Qed.
Lemma rnear_pos q S x xh : rnear q S x xh -> 0 <= S.
Proof. intros (_ & H & _). pose proof (Rabs_pos x). lra. Qed.
Lemma rnear_C q S x xh : rnear q S x xh -> near q S (RtoC x) (RtoC xh).
Proof.
  intros (H1 & H2 & H3). split; [exact H1|]. split; [rewrite Cabs_R; exact H2|].
  replace (RtoC xh -c RtoC x) with (RtoC (xh - x)) by (creal; ring). rewrite Cabs_R. exact H3.
Qed.
Lemma rnear_add_gen q Sa Sb a b ah bh r : rnear q Sa a ah -> rnear q Sb b bh -> Rabs (r - (ah + bh)) <= u * Rabs (ah + bh) ->
  rnear (q * (1 + u)) (Sa + Sb) (a + b) r.
Proof.
  intros Ha Hb Hr. pose proof (rnear_pos Ha). pose proof (rnear_pos Hb). pose proof (u_pos HG). destruct Ha as (Hq & A1 & A2), Hb as (_ & B1 & B2).
  assert (D : Rabs (ah + bh - (a + b)) <= (q - 1) * (Sa + Sb)).
  { replace (ah + bh - (a + b)) with ((ah - a) + (bh - b)) by ring. pose proof (Rabs_triang (ah - a) (bh - b)). lra. }
  assert (A : Rabs (a + b) <= Sa + Sb) by (pose proof (Rabs_triang a b); lra).
  split; [nra|]. split; [exact A|].
  pose proof (@Rabs_le_sum _ _ _ D) as E. pose proof (@near_trans_abs _ _ (a + b) _ Hr) as P. nra.
Qed.
Lemma rnear_add q Sa Sb a b ah bh : rnear q Sa a ah -> rnear q Sb b bh -> rnear (q * (1 + u)) (Sa + Sb) (a + b) (@fadd R G ah bh).
Proof. intros Ha Hb. eapply rnear_add_gen; [exact Ha|exact Hb|apply (r_add HG)]. Qed.
Lemma rnear_sub q Sa Sb a b ah bh : rnear q Sa a ah -> rnear q Sb b bh -> rnear (q * (1 + u)) (Sa + Sb) (a - b) (@fsub R G ah bh).
Proof. intros Ha Hb. eapply rnear_add_gen; [exact Ha|apply rnear_neg; exact Hb|]. pose proof (r_sub HG ah bh) as P. unfold Rminus in *. exact P. Qed.
(* scaling both parts of a complex number by one half *)
Definition halves (h : R -> R) : Prop := forall x, Rabs (h x - x / 2) <= u * Rabs (x / 2).
Lemma rnear_half h q S x xh : halves h -> rnear q S x xh -> rnear (q * (1 + u)) (S / 2) (x / 2) (h xh).
Proof.
  intros Hh (H1 & H2 & H3). pose proof (u_pos HG). pose proof (Rabs_pos x).
  assert (E : forall y, Rabs (y / 2) = Rabs y / 2) by (intros y; unfold Rdiv; rewrite Rabs_mult, (Rabs_pos_eq (/ 2)) by lra; reflexivity).
  split; [nra|]. split; [rewrite E; lra|]. specialize (Hh xh). rewrite E in Hh.
  pose proof (@Rabs_le_sum _ _ _ H3) as A. pose proof (@near_trans_abs _ _ (x / 2) _ Hh) as P.
  replace (xh / 2 - x / 2) with ((xh - x) / 2) in P by field. rewrite E in P. nra.
Qed.
Lemma near_half h q S z zh : halves h -> near q S z zh -> near (q * (1 + u)) (S / 2) (RtoC (/ 2) *c z) (mkcx (h (re zh)) (h (im zh))).
Proof.
  intros Hh Hz. pose proof (near_abs Hz) as A. pose proof (near_pos Hz) as HS. destruct Hz as (H1 & H2 & H3). pose proof (u_pos HG) as Hu.
  split; [nra|]. split; [rewrite Cabs_mul, Cabs_R, Rabs_pos_eq by lra; lra|].
  set (w := RtoC (/ 2) *c zh).
  assert (E1 : Cabs (mkcx (h (re zh)) (h (im zh)) -c w) <= u * Cabs w).
  { pose proof (Cabs_nonneg w). apply (@Cabs_comp _ (u * Rabs (re w)) (u * Rabs (im w))).
    - unfold w. cbn [re im Csub Cmul RtoC]. replace (/ 2 * re zh - 0 * im zh) with (re zh / 2) by field. apply Hh.
    - unfold w. cbn [re im Csub Cmul RtoC]. replace (/ 2 * im zh + 0 * re zh) with (im zh / 2) by field. apply Hh.
    - nra.
    - replace (u * Cabs w * (u * Cabs w)) with (u * u * (Cabs w * Cabs w)) by ring. rewrite Cabs_sq. unfold Cnorm2.
      assert (E : forall z, Rabs z * Rabs z = z * z) by (intros; rewrite <- Rabs_mult; apply Rabs_pos_eq; nra).
      pose proof (E (re w)). pose proof (E (im w)). nra. }
  assert (E2 : Cabs w <= q * S / 2) by (unfold w; rewrite Cabs_mul, Cabs_R, Rabs_pos_eq by lra; lra).
  assert (E3 : Cabs (w -c RtoC (/ 2) *c z) <= (q - 1) * S / 2).
  { unfold w. replace (RtoC (/ 2) *c zh -c RtoC (/ 2) *c z) with (RtoC (/ 2) *c (zh -c z)) by ring. rewrite Cabs_mul, Cabs_R, Rabs_pos_eq by lra. lra. }
  replace (mkcx (h (re zh)) (h (im zh)) -c RtoC (/ 2) *c z) with ((mkcx (h (re zh)) (h (im zh)) -c w) +c (w -c RtoC (/ 2) *c z)) by ring.
  eapply Rle_trans; [apply Cabs_tri|]. nra.
Qed.
(* multiplication by -i is exact *)
Lemma near_mi q S z zh : near q S z zh -> near q S (Copp Ci *c z) (mkcx (im zh) (@fneg R G (re zh))).
Proof.
  intros (H1 & H2 & H3). rewrite (r_neg HG).
  assert (EC : Cabs Ci = 1) by (unfold Cabs, Cnorm2, Ci; cbn; replace (0 * 0 + 1 * 1) with 1 by ring; apply sqrt_1).
  assert (E : forall y, Cabs (Copp Ci *c y) = Cabs y) by (intros; rewrite Cabs_mul, Cabs_opp, EC; ring).
  split; [exact H1|]. split; [rewrite E; exact H2|].
  replace (mkcx (im zh) (- re zh)) with (Copp Ci *c zh) by (unfold Ci; apply C_eq; cbn; ring).
  replace (Copp Ci *c zh -c Copp Ci *c z) with (Copp Ci *c (zh -c z)) by ring. rewrite E. exact H3.
Qed.
Lemma fneg_conj zh : mkcx (re zh) (@fneg R G (im zh)) = cconj (F := G) zh.
Proof. reflexivity. Qed.

(* ---------- one bin ---------- *)
Variable d : R.
Hypothesis Hd : 0 <= d.
Hypothesis Hhalf : half (F := G) = / 2.
(* the error factor of the post-processing *)
Definition PP : R := (1 + d) * (1 + gam) * (1 + u) ^ 3.
Lemma PP_ge1 : 1 <= PP.
Proof.
  unfold PP. pose proof (gam_pos HG). pose proof (u_pos HG). assert (1 <= (1 + u) ^ 3) by (apply pow_ge1; lra).
  assert (1 <= (1 + d) * (1 + gam)) by nra. nra.
Qed.
Lemma halves_mul : halves (fun x => @fmul R G x (half (F := G))).
Proof. intros x. cbv beta. rewrite Hhalf. exact (r_mul HG x (/ 2)). Qed.
Lemma halves_ihalf v : halves (ihalf (F := G) v).
Proof. destruct v; [exact halves_mul|exact halves_mul|exact halves_mul]. Qed.
Lemma simd_cmul_eq a b : simd_cmul (F := G) a b = cmul_plain (F := G) a b.
Proof. reflexivity. Qed.
Lemma near_swap_mul mul q1 q2 S1 S2 a b ah bh : mul_ok u mul -> near q1 S1 a ah -> near q2 S2 b bh ->
  near (q1 * q2 * (1 + gam)) (S1 * S2) (b *c a) (mul ah bh).
Proof. intros. rewrite (Cmul_comm b a). eapply near_mul; eassumption. Qed.
Section Bin.
Variables (q Sa Sb : R) (a b w ah bh wh : C).
Hypotheses (Ha : near q Sa a ah) (Hb : near q Sb b bh) (Hw : near (1 + d) 1 w wh).
Lemma Nsum : near (q * (1 + u)) (Sa + Sb) (a +c Cconj b) (cadd (F := G) ah (cconj (F := G) bh)).
Proof. exact (near_add HG Ha (near_conj HG Hb)). Qed.
Lemma Ndiff : near (q * (1 + u)) (Sa + Sb) (a -c Cconj b) (csub (F := G) ah (cconj (F := G) bh)).
Proof. exact (near_sub HG Ha (near_conj HG Hb)). Qed.
Lemma Nt mul : mul_ok u mul -> near (q * (1 + u) * ((1 + d) * (1 + gam))) (Sa + Sb) (w *c (a -c Cconj b)) (mul wh (csub (F := G) ah (cconj (F := G) bh))).
Proof.
  intros Hm. pose proof (near_mul HG Hm Hw Ndiff) as P. rewrite Rmult_1_l in P. replace (q * (1 + u) * ((1 + d) * (1 + gam))) with ((1 + d) * (q * (1 + u)) * (1 + gam)) by ring. exact P.
Qed.
Lemma Nt' mul : mul_ok u mul -> near (q * (1 + u) * ((1 + d) * (1 + gam))) (Sa + Sb) (w *c (a -c Cconj b)) (mul (csub (F := G) ah (cconj (F := G) bh)) wh).
Proof.
  intros Hm. pose proof (near_mul HG Hm Ndiff Hw) as P. rewrite Rmult_1_r in P. rewrite Cmul_comm.
  replace (q * (1 + u) * ((1 + d) * (1 + gam))) with (q * (1 + u) * (1 + d) * (1 + gam)) by ring. exact P.
Qed.
Lemma Nsum' : near (q * (1 + u) * ((1 + d) * (1 + gam))) (Sa + Sb) (a +c Cconj b) (cadd (F := G) ah (cconj (F := G) bh)).
Proof.
  eapply near_mono; [exact Nsum| |apply Rle_refl]. pose proof (gam_pos HG). pose proof (u_pos HG). pose proof (proj1 Ha).
  assert (1 <= (1 + d) * (1 + gam)) by nra. assert (1 <= q * (1 + u)) by nra. nra.
Qed.
(* any two roundings of the parts of a sum *)
Lemma near_add_gen q' Sx Sy x y xh yh r : near q' Sx x xh -> near q' Sy y yh ->
  Rabs (re r - re (xh +c yh)) <= u * Rabs (re (xh +c yh)) -> Rabs (im r - im (xh +c yh)) <= u * Rabs (im (xh +c yh)) ->
  near (q' * (1 + u)) (Sx + Sy) (x +c y) r.
Proof.
  intros Hx Hy R1 R2. pose proof (near_pos Hx). pose proof (near_pos Hy). pose proof (near_abs Hx). pose proof (near_abs Hy). pose proof (u_pos HG).
  destruct Hx as (Hq & A1 & A2), Hy as (_ & B1 & B2).
  assert (E : Cabs (r -c (xh +c yh)) <= u * Cabs (xh +c yh)).
  { set (s := xh +c yh) in *. pose proof (Cabs_nonneg s).
    apply (@Cabs_comp _ (u * Rabs (re s)) (u * Rabs (im s))); [exact R1|exact R2|nra|].
    replace (u * Cabs s * (u * Cabs s)) with (u * u * (Cabs s * Cabs s)) by ring. rewrite Cabs_sq. unfold Cnorm2.
    assert (E : forall z, Rabs z * Rabs z = z * z) by (intros; rewrite <- Rabs_mult; apply Rabs_pos_eq; nra).
    pose proof (E (re s)). pose proof (E (im s)). nra. }
  assert (M : Cabs (xh +c yh) <= q' * (Sx + Sy)) by (eapply Rle_trans; [apply Cabs_tri|]; lra).
  split; [nra|]. split; [eapply Rle_trans; [apply Cabs_tri|]; lra|].
  replace (r -c (x +c y)) with ((r -c (xh +c yh)) +c ((xh -c x) +c (yh -c y))) by ring.
  eapply Rle_trans; [apply Cabs_tri|]. pose proof (Cabs_tri (xh -c x) (yh -c y)). nra.
Qed.
Local Notation Q1 := (q * (1 + u) * ((1 + d) * (1 + gam))).
Lemma Ntemp t th r : near Q1 (Sa + Sb) t th ->
  r = @fadd R G (im (cadd (F := G) ah (cconj (F := G) bh))) (@fneg R G (re th)) \/ r = @fsub R G (im (cadd (F := G) ah (cconj (F := G) bh))) (re th) ->
  near (Q1 * (1 + u)) (2 * (Sa + Sb)) (a +c Cconj b +c Copp Ci *c t)
    (mkcx (@fadd R G (re (cadd (F := G) ah (cconj (F := G) bh))) (im th)) r).
Proof.
  intros Ht Hr. eapply near_S; [eapply (@near_add_gen _ _ _ _ _ _ _ _ Nsum' (near_mi Ht))|ring]; cbn [re im Cadd].
  - apply (r_add HG).
  - destruct Hr as [-> | ->]; [apply (r_add HG)|]. rewrite (r_neg HG). apply (r_sub HG).
Qed.
Lemma Ntemp' t th r : near Q1 (Sa + Sb) t th ->
  r = @fsub R G (im (cadd (F := G) ah (cconj (F := G) bh))) (@fneg R G (re th)) \/ r = @fadd R G (im (cadd (F := G) ah (cconj (F := G) bh))) (re th) ->
  near (Q1 * (1 + u)) (2 * (Sa + Sb)) (a +c Cconj b +c Ci *c t)
    (mkcx (@fsub R G (re (cadd (F := G) ah (cconj (F := G) bh))) (im th)) r).
Proof.
  intros Ht Hr. pose proof (near_mi Ht) as (M1 & M2 & M3).
  assert (N : near Q1 (Sa + Sb) (Ci *c t) (mkcx (- im th) (re th))).
  { replace (Ci *c t) with (Copp (Copp Ci *c t)) by ring. split; [exact M1|]. split; [rewrite Cabs_opp; exact M2|].
    replace (mkcx (- im th) (re th) -c Copp (Copp Ci *c t)) with (Copp (mkcx (im th) (@fneg R G (re th)) -c Copp Ci *c t)).
    - rewrite Cabs_opp. exact M3.
    - rewrite (r_neg HG). unfold Ci. apply C_eq; cbn; ring. }
  eapply near_S; [eapply (@near_add_gen _ _ _ _ _ _ _ _ Nsum' N)|ring]; cbn [re im Cadd].
  - apply (r_sub HG).
  - destruct Hr as [-> | ->]; [|apply (r_add HG)]. rewrite (r_neg HG).
    match goal with |- Rabs (fsub ?x ?y - ?z) <= _ => pose proof (r_sub HG x y) as P; replace z with (x - y) by ring; exact P end.
Qed.
Lemma post_near v : near (q * PP) (Sa + Sb) (RtoC (/ 2) *c (a +c Cconj b +c Copp Ci *c (w *c (a -c Cconj b)))) (post (F := G) c v ah bh wh).
Proof.
  replace (q * PP) with (Q1 * (1 + u) * (1 + u)) by (unfold PP; ring). replace (Sa + Sb) with (2 * (Sa + Sb) / 2) by field.
  destruct v; cbn [post].
  - exact (near_half halves_mul (Ntemp (Nt (@cmul_err G u HG c)) (or_introl eq_refl))).
  - exact (near_half halves_mul (Ntemp (Nt' (@cmul_plain_err G u HG)) (or_intror eq_refl))).
  - exact (near_half halves_mul (Ntemp (Nt' (@cmul_plain_err G u HG)) (or_intror eq_refl))).
Qed.
Lemma ipost_near v : near (q * PP) (Sa + Sb) (RtoC (/ 2) *c (a +c Cconj b +c Ci *c (w *c (a -c Cconj b)))) (ipost (F := G) c v ah bh (cconj (F := G) wh)).
Proof.
  replace (q * PP) with (Q1 * (1 + u) * (1 + u)) by (unfold PP; ring). replace (Sa + Sb) with (2 * (Sa + Sb) / 2) by field.
  assert (Ew : wh = mkcx (re (cconj (F := G) wh)) (@fneg R G (im (cconj (F := G) wh)))).
  { unfold cconj. cbn [re im]. rewrite !(r_neg HG), Ropp_involutive. destruct wh. reflexivity. }
  pose proof (Nt (@cmul_err G u HG c)) as N1. pose proof (Nt' (@cmul_plain_err G u HG)) as N2. rewrite Ew in N1, N2.
  destruct v; cbn [ipost].
  - exact (near_half halves_mul (Ntemp' N1 (or_introl eq_refl))).
  - exact (near_half halves_mul (Ntemp' N2 (or_intror eq_refl))).
  - exact (near_half halves_mul (Ntemp' N2 (or_intror eq_refl))).
Qed.
End Bin.

(* ---------- the table ---------- *)
Lemma rtw_near w wh e : Cabs w = 1 -> 0 <= e -> Cabs (wh -c w) <= e ->
  forall n q z zh i, near q 1 z zh -> (i < n)%nat ->
  near (q * ((1 + e) * (1 + gam)) ^ i) 1 (z *c Cpow w i) (at_ (rtw_loop (F := G) c n wh zh) i).
Proof.
  intros Hw He Hwh. assert (Nw : near (1 + e) 1 w wh) by (split; [lra|]; split; lra).
  induction n as [|n IH]; intros q z zh i Hz Hi; [lia|]. cbn [rtw_loop]. unfold at_. destruct i as [|i]; cbn [nth pow Cpow].
  - rewrite Rmult_1_r. replace (z *c C1) with z by ring. exact Hz.
  - pose proof (near_mul HG (@cmul_err G u HG c) Hz Nw) as P. rewrite Rmult_1_r in P. specialize (IH _ _ _ i P ltac:(lia)). unfold at_ in IH.
    replace (z *c (Cpow w i *c w)) with (z *c w *c Cpow w i) by ring.
    replace (q * ((1 + e) * (1 + gam) * ((1 + e) * (1 + gam)) ^ i)) with (q * (1 + e) * (1 + gam) * ((1 + e) * (1 + gam)) ^ i) by ring. exact IH.
Qed.
Definition rtw_angle (m : nat) : R := @fdiv R G (@fneg R G (@fpi R G)) (@fofnat R G m).
Lemma rtable_near m e k : 0 <= e -> Cabs (expi (F := G) (rtw_angle m) -c W (2 * m) 1) <= e -> (k < m)%nat ->
  Cabs (at_ (build_twiddle_table (F := G) c m) k -c W (2 * m) k) <= ((1 + e) * (1 + gam)) ^ k - 1.
Proof.
  intros He Hs Hk. unfold build_twiddle_table. fold (rtw_angle m). unfold expi in Hs. destruct (fsin_cos (rtw_angle m)) as [sn cs].
  assert (N : near 1 1 C1 (mkcx (@fone R G) (@fzero R G))).
  { rewrite (r_one HG), (r_zero HG). apply near_refl. change (Cabs (RtoC 1) <= 1). rewrite Cabs_R, Rabs_R1. lra. }
  pose proof (@rtw_near (W (2 * m) 1) (mkcx cs sn) e (Cabs_W _ 1) He Hs m 1 C1 _ k N Hk) as (_ & _ & P).
  rewrite Cpow_W in P by lia. rewrite Nat.mul_1_r in P. replace (C1 *c W (2 * m) k) with (W (2 * m) k) in P by ring. lra.
Qed.
Definition rtw_ok (m : nat) : Prop := forall k, (k < m)%nat -> Cabs (at_ (build_twiddle_table (F := G) c m) k -c W (2 * m) k) <= d.

(* ---------- forward ---------- *)
Lemma rclosed_near v m q S (Y Yh : list C) : (0 < m)%nat -> rtw_ok m -> length Y = m -> near_list q (fun _ => S) Y Yh ->
  near_list (q * PP) (fun _ => 2 * S) (rclosed (F := RF) (post (F := RF) c v) m (build_twiddle_table (F := RF) c m) Y)
    (rclosed (F := G) (post (F := G) c v) m (build_twiddle_table (F := G) c m) Yh).
Proof.
  intros Hm Ht HY [Hl H]. rewrite HY in *. split; [unfold rclosed; rewrite !tab_length; reflexivity|].
  unfold rclosed at 1. rewrite tab_length. intros k Hk. unfold rclosed. rewrite !at_tab by exact Hk.
  pose proof (u_pos HG) as Hu. pose proof (H 0%nat Hm) as H0. pose proof (near_pos H0) as HS. pose proof (proj1 H0) as Hq.
  assert (Q : q * (1 + u) <= q * PP).
  { apply Rmult_le_compat_l; [lra|]. unfold PP. pose proof (gam_pos HG). assert (1 <= (1 + d) * (1 + gam)) by nra.
    assert (1 + u <= (1 + u) ^ 3) by (replace (1 + u) with ((1 + u) ^ 1) at 1 by ring; apply Rle_pow; [lra|lia]). nra. }
  rewrite !nthc_at with (G := G) by lia. change (nthc (F := RF)) with at_. 
  destruct (Nat.eqb_spec k m) as [->|Hkm]; [|destruct (Nat.eqb_spec k 0) as [->|Hk0]].
  - pose proof (rnear_C (rnear_sub (near_re H0) (near_im H0))) as P. rewrite (r_zero HG).
    eapply near_mono; [exact P|exact Q|lra].
  - pose proof (rnear_C (rnear_add (near_re H0) (near_im H0))) as P. rewrite (r_zero HG).
    eapply near_mono; [exact P|exact Q|lra].
  - rewrite (@nthc_at G Yh k), (@nthc_at G Yh (m - k)), (@nthc_at G (build_twiddle_table c m) k) by (rewrite ?rtable_length; lia).
    rewrite post_R. pose proof (@rtable_R c m k ltac:(lia)) as ER. unfold nthc in ER. change (nth k (build_twiddle_table (F := RF) c m) czero) with (at_ (build_twiddle_table (F := RF) c m) k) in ER.
    rewrite ER.
    assert (Hw : near (1 + d) 1 (W (2 * m) k) (at_ (build_twiddle_table (F := G) c m) k)) by (split; [lra|]; split; [rewrite Cabs_W; lra|replace ((1 + d - 1) * 1) with d by ring; apply Ht; lia]).
    eapply near_S; [exact (post_near (H k ltac:(lia)) (H (m - k)%nat ltac:(lia)) Hw v)|ring].
Qed.

(* ---------- inverse ---------- *)
Lemma iclosed_near v m q S (Y Yh : list C) : (0 < m)%nat -> rtw_ok m -> length Y = (m + 1)%nat -> near_list q S Y Yh ->
  near_list (q * PP) (fun k => S k + S (m - k)%nat) (iclosed (F := RF) c v m (build_twiddle_table (F := RF) c m) Y)
    (iclosed (F := G) c v m (build_twiddle_table (F := G) c m) Yh).
Proof.
  intros Hm Ht HY [Hl H]. rewrite HY in *. split; [unfold iclosed; rewrite !tab_length; reflexivity|].
  unfold iclosed at 1. rewrite tab_length. intros k Hk. unfold iclosed. rewrite !at_tab by exact Hk.
  pose proof (u_pos HG) as Hu. pose proof (H 0%nat ltac:(lia)) as H0. pose proof (H m ltac:(lia)) as H1. pose proof (proj1 H0) as Hq.
  assert (Q : q * (1 + u) * (1 + u) <= q * PP).
  { rewrite Rmult_assoc. apply Rmult_le_compat_l; [lra|]. unfold PP. pose proof (gam_pos HG). assert (1 <= (1 + d) * (1 + gam)) by nra.
    assert ((1 + u) * (1 + u) <= (1 + u) ^ 3) by (replace ((1 + u) * (1 + u)) with ((1 + u) ^ 2) by ring; apply Rle_pow; [lra|lia]).
    assert (1 <= (1 + u) ^ 3) by (apply pow_ge1; lra). nra. }
  change (nthc (F := RF)) with at_.
  destruct (Nat.eqb_spec k 0) as [->|Hk0].
  - rewrite (@nthc_at G Yh 0), (@nthc_at G Yh m) by lia. rewrite Nat.sub_0_r, !ihalf_R.
    pose proof (rnear_half (halves_ihalf v) (rnear_add (near_re H0) (near_re H1))) as P1.
    pose proof (rnear_half (halves_ihalf v) (rnear_sub (near_re H0) (near_re H1))) as P2.
    eapply near_mono; [|exact Q|apply Rle_refl]. destruct P1 as (A1 & A2 & A3), P2 as (_ & B2 & B3).
    split; [exact A1|]. cbn [fadd fsub RF RFloat_of] in *. split.
    + eapply Rle_trans; [apply Cabs_parts|]. cbn [re im]. lra.
    + eapply Rle_trans; [apply Cabs_parts|]. cbn [re im Csub]. lra.
  - rewrite (@nthc_at G Yh k), (@nthc_at G Yh (m - k)), (@nthc_at G (build_twiddle_table c m) k) by (rewrite ?rtable_length; lia).
    rewrite ipost_R. pose proof (@rtable_R c m k ltac:(lia)) as ER. unfold nthc in ER. change (nth k (build_twiddle_table (F := RF) c m) czero) with (at_ (build_twiddle_table (F := RF) c m) k) in ER.
    rewrite ER.
    assert (Hw : near (1 + d) 1 (Cconj (W (2 * m) k)) (cconj (F := G) (at_ (build_twiddle_table (F := G) c m) k))).
    { apply (near_conj HG). split; [lra|]; split; [rewrite Cabs_W; lra|replace ((1 + d - 1) * 1) with d by ring; apply Ht; lia]. }
    pose proof (ipost_near (H k ltac:(lia)) (H (m - k)%nat ltac:(lia)) Hw v) as P.
    replace (cconj (F := G) (cconj (F := G) (at_ (build_twiddle_table (F := G) c m) k))) with (at_ (build_twiddle_table (F := G) c m) k) in P; [exact P|].
    generalize (at_ (build_twiddle_table (F := G) c m) k). intros z. unfold cconj. cbn [re im]. rewrite !(r_neg HG), Ropp_involutive. destruct z. reflexivity.
Qed.
End RErr.

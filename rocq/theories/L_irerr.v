(* The real transforms in arithmetic with overflow and underflow: the running product of their
   table, the post-processing of one bin, and the two closed forms of L_rfft.v. *)
From Coq Require Import Reals Lra Lia List.
From Verif Require Export L_ierr L_rerr.
Set Implicit Arguments.
Open Scope R_scope.

Section RI.
Context {T : Type}.
Variables (G : Float T) (fin : T -> Prop) (v : T -> R) (u0 eta Mx : R).
Hypothesis HG : L_ierr.bounded G fin v u0 eta Mx.
Variable c : cfg.
Variables (FL u : R).
Hypothesis (HFL : 0 < FL) (Hu : u0 <= u) (Hu16 : u <= / 16) (Heta : 2 * eta <= (u - u0) * FL).
Variable d : R.
Hypothesis (Hd : 0 <= d) (HF1 : FL <= 1).
Hypothesis (Hhf : fin (M_rfft.half (F := G))) (Hhv : v (M_rfft.half (F := G)) = / 2).
Local Notation gam := (gam u).
Local Notation cv := (cv v).
Local Notation cfin := (cfin fin).
Local Notation fnear := (fnear fin v FL).
Local Notation inear := (inear fin v Mx FL).
Local Notation mul_i := (mul_i fin v u0 eta Mx).
Local Notation op_ok := (op_ok fin v u0 eta Mx).
Local Notation wnear := (wnear fin v d).
Local Notation PP := (PP u d).
Local Notation "'iadd'" := (inear_add HG HFL Hu Hu16 Heta) (only parsing).
Local Notation "'isub'" := (inear_sub HG HFL Hu Hu16 Heta) (only parsing).
Local Notation "'imul'" := (inear_mul HG HFL Hu Heta) (only parsing).

Lemma ug : 0 <= u. Proof. exact (u_ge0 HG Hu). Qed.
Lemma gg : 0 <= gam. Proof. exact (gamI_pos HG Hu). Qed.
Lemma mul_i_swap mul : mul_i mul -> mul_i (fun a b => mul b a).
Proof.
  intros H a b Fa Fb HM. destruct (@H b a Fb Fa) as [F E]; [rewrite (Rmult_comm (Cabs (cv b))); exact HM|]. split; [exact F|].
  rewrite (Cmul_comm (cv a) (cv b)), (Rmult_comm (Cabs (cv a))). exact E.
Qed.
Lemma plain_i : mul_i (cmul_plain (F := G)).
Proof. intros a b Fa Fb HM. exact (cmul_plain_i HG Fa Fb HM). Qed.
(* any two roundings of the parts of a sum *)
Lemma inear_add_gen q Sx Sy x y xh yh r : inear q Sx x xh -> inear q Sy y yh ->
  (q * Sx <= Mx -> q * Sy <= Mx -> op_ok (v (re xh) + v (re yh)) (re r) /\ op_ok (v (im xh) + v (im yh)) (im r)) ->
  inear (q * (1 + u)) (Sx + Sy) (x +c y) r.
Proof.
  intros (Hq & Fa & A1 & A2) (_ & Fb & B1 & B2) Hr. pose proof ug. pose proof (u0_pos HG). pose proof (eta_pos HG).
  split; [nra|]. split; [lra|]. split; [eapply Rle_trans; [apply Cabs_tri|]; lra|]. intros HM.
  destruct (@add_bound _ _ _ _ _ _ _ HG FL u HFL Hu q Sx Sy Hq Fa Fb HM) as (M1 & M2 & M3). destruct (A2 M1) as [A3 A4]. destruct (B2 M2) as [B3 B4].
  destruct (Hr M1 M2) as [R1 R2].
  assert (D : Cabs ((cv xh +c cv yh) -c (x +c y)) <= (q - 1) * (Sx + Sy)).
  { replace ((cv xh +c cv yh) -c (x +c y)) with ((cv xh -c x) +c (cv yh -c y)) by ring. eapply Rle_trans; [apply Cabs_tri|]. lra. }
  assert (D2 : Cabs (cv xh +c cv yh) <= q * (Sx + Sy)).
  { replace (cv xh +c cv yh) with (((cv xh +c cv yh) -c (x +c y)) +c (x +c y)) by ring. eapply Rle_trans; [apply Cabs_tri|]. pose proof (Cabs_tri x y). lra. }
  destruct R1 as [F1 E1]; [pose proof (L_ierr.Rabs_re (cv xh +c cv yh)) as P; cbn [re im Cadd L_ierr.cv] in P; lra|].
  destruct R2 as [F2 E2]; [pose proof (L_ierr.Rabs_im (cv xh +c cv yh)) as P; cbn [re im Cadd L_ierr.cv] in P; lra|].
  split; [split; assumption|].
  assert (E : Cabs (cv r -c (cv xh +c cv yh)) <= u0 * Cabs (cv xh +c cv yh) + 2 * eta) by (apply comp_err; [exact E1|exact E2|lra|lra]).
  replace (cv r -c (x +c y)) with ((cv r -c (cv xh +c cv yh)) +c ((cv xh +c cv yh) -c (x +c y))) by ring.
  eapply Rle_trans; [apply Cabs_tri|].
  assert (U : u0 * Cabs (cv xh +c cv yh) <= u0 * (q * (Sx + Sy))) by (apply Rmult_le_compat_l; lra).
  pose proof (@u_slack u0 eta FL u Hu Heta (q * (Sx + Sy)) ltac:(nra)). lra.
Qed.
(* multiplication by -i and i is exact *)
Lemma CabsCi : Cabs Ci = 1.
Proof. unfold Cabs, Cnorm2, Ci; cbn; replace (0 * 0 + 1 * 1) with 1 by ring; apply sqrt_1. Qed.
Lemma inear_mi q S z zh : inear q S z zh -> inear q S (Copp Ci *c z) (mkcx (im zh) (@fneg T G (re zh))).
Proof.
  intros (H1 & H2 & H3 & H4).
  assert (E : forall y, Cabs (Copp Ci *c y) = Cabs y) by (intros; rewrite Cabs_mul, Cabs_opp, CabsCi; ring).
  split; [exact H1|]. split; [exact H2|]. split; [rewrite E; exact H3|]. intros HM. destruct (H4 HM) as [[F1 F2] E1]. destruct (i_neg HG _ F1) as [F3 E3].
  split; [split; assumption|]. replace (cv (mkcx (im zh) (@fneg T G (re zh)))) with (Copp Ci *c cv zh) by (unfold L_ierr.cv, Ci; cbn [re im]; rewrite E3; apply C_eq; cbn; ring).
  replace (Copp Ci *c cv zh -c Copp Ci *c z) with (Copp Ci *c (cv zh -c z)) by ring. rewrite E. exact E1.
Qed.
Lemma inear_pi q S z zh : inear q S z zh -> inear q S (Ci *c z) (mkcx (@fneg T G (im zh)) (re zh)).
Proof.
  intros (H1 & H2 & H3 & H4).
  assert (E : forall y, Cabs (Ci *c y) = Cabs y) by (intros; rewrite Cabs_mul, CabsCi; ring).
  split; [exact H1|]. split; [exact H2|]. split; [rewrite E; exact H3|]. intros HM. destruct (H4 HM) as [[F1 F2] E1]. destruct (i_neg HG _ F2) as [F3 E3].
  split; [split; assumption|]. replace (cv (mkcx (@fneg T G (im zh)) (re zh))) with (Ci *c cv zh) by (unfold L_ierr.cv, Ci; cbn [re im]; rewrite E3; apply C_eq; cbn; ring).
  replace (Ci *c cv zh -c Ci *c z) with (Ci *c (cv zh -c z)) by ring. rewrite E. exact E1.
Qed.
(* scaling by one half *)
Definition ihalves (h : T -> T) : Prop := forall x, fin x -> op_ok (v x / 2) (h x).
Lemma ihalves_mul : ihalves (fun x => @fmul T G x (M_rfft.half (F := G))).
Proof. intros x F. cbv beta. pose proof (i_mul HG _ _ F Hhf) as P. rewrite Hhv in P. exact P. Qed.
Lemma ihalves_ihalf w : ihalves (ihalf (F := G) w).
Proof. destruct w; exact ihalves_mul. Qed.
Lemma fnear_half h q S z zh : ihalves h -> fnear q S z zh -> FL <= S / 2 -> q * S <= Mx ->
  fnear (q * (1 + u)) (S / 2) (RtoC (/ 2) *c z) (mkcx (h (re zh)) (h (im zh))).
Proof.
  intros Hh Hz HS HM. pose proof (fnear_abs Hz) as A. destruct Hz as (H1 & H2 & H3 & [F1 F2] & H4). pose proof ug as U. pose proof (u0_pos HG). pose proof (eta_pos HG).
  split; [nra|]. split; [exact HS|]. split; [rewrite Cabs_mul, Cabs_R, Rabs_pos_eq by lra; lra|].
  set (w := RtoC (/ 2) *c cv zh).
  assert (Rw : re w = v (re zh) / 2) by (unfold w, L_ierr.cv; cbn [re im Cmul RtoC]; field).
  assert (Iw : im w = v (im zh) / 2) by (unfold w, L_ierr.cv; cbn [re im Cmul RtoC]; field).
  assert (Cw : Cabs w = Cabs (cv zh) / 2) by (unfold w; rewrite Cabs_mul, Cabs_R, Rabs_pos_eq by lra; field).
  pose proof (Cabs_nonneg (cv zh)).
  destruct (Hh _ F1) as [G1 E1]; [rewrite <- Rw; pose proof (L_ierr.Rabs_re w); lra|].
  destruct (Hh _ F2) as [G2 E2]; [rewrite <- Iw; pose proof (L_ierr.Rabs_im w); lra|]. rewrite <- Rw in E1. rewrite <- Iw in E2.
  split; [split; assumption|].
  assert (E : Cabs (cv (mkcx (h (re zh)) (h (im zh))) -c w) <= u0 * Cabs w + 2 * eta) by (apply comp_err; [exact E1|exact E2|lra|lra]).
  assert (E3 : Cabs (w -c RtoC (/ 2) *c z) <= (q - 1) * S / 2).
  { unfold w. replace (RtoC (/ 2) *c cv zh -c RtoC (/ 2) *c z) with (RtoC (/ 2) *c (cv zh -c z)) by ring. rewrite Cabs_mul, Cabs_R, Rabs_pos_eq by lra. lra. }
  replace (cv (mkcx (h (re zh)) (h (im zh))) -c RtoC (/ 2) *c z) with ((cv (mkcx (h (re zh)) (h (im zh))) -c w) +c (w -c RtoC (/ 2) *c z)) by ring.
  eapply Rle_trans; [apply Cabs_tri|].
  assert (V : u0 * Cabs w <= u0 * (q * (S / 2))) by (apply Rmult_le_compat_l; lra).
  pose proof (@u_slack u0 eta FL u Hu Heta (q * (S / 2)) ltac:(nra)). lra.
Qed.

(* ---------- one bin ---------- *)
Lemma PPI_ge1 : 1 <= PP.
Proof.
  unfold L_rerr.PP. pose proof gg. pose proof ug. assert (1 <= (1 + u) ^ 3) by (apply pow_ge1; lra). assert (1 <= (1 + d) * (1 + gam)) by nra. nra.
Qed.
Section Bin.
Variables (q Sa Sb : R) (a b w : C) (ah bh wh : cx T).
Hypotheses (Ha : inear q Sa a ah) (Hb : inear q Sb b bh) (Hw : wnear w wh).
Local Notation Q1 := (q * (1 + u) * ((1 + d) * (1 + gam))).
Lemma Isum : inear Q1 (Sa + Sb) (a +c Cconj b) (cadd (F := G) ah (cconj (F := G) bh)).
Proof.
  eapply (inear_mono HFL); [exact (iadd Ha (inear_conj HG Hb))| |apply Rle_refl]. pose proof gg. pose proof ug. pose proof (proj1 Ha).
  assert (1 <= (1 + d) * (1 + gam)) by nra. assert (1 <= q * (1 + u)) by nra. nra.
Qed.
Lemma Idiff : inear (q * (1 + u)) (Sa + Sb) (a -c Cconj b) (csub (F := G) ah (cconj (F := G) bh)).
Proof. exact (isub Ha (inear_conj HG Hb)). Qed.
Lemma It' mul : mul_i mul -> inear Q1 (Sa + Sb) (w *c (a -c Cconj b)) (mul (csub (F := G) ah (cconj (F := G) bh)) wh).
Proof.
  intros Hm. pose proof (imul Hm Idiff (wnear_f Hd HF1 Hw) (Rle_refl 1)) as P. rewrite Rmult_1_r in P. rewrite Cmul_comm.
  replace Q1 with (q * (1 + u) * (1 + d) * (1 + gam)) by ring. exact P.
Qed.
Lemma It mul : mul_i mul -> inear Q1 (Sa + Sb) (w *c (a -c Cconj b)) (mul wh (csub (F := G) ah (cconj (F := G) bh))).
Proof. intros Hm. exact (It' (mul_i_swap Hm)). Qed.
Lemma Itemp t th r : inear Q1 (Sa + Sb) t th ->
  r = @fadd T G (im (cadd (F := G) ah (cconj (F := G) bh))) (@fneg T G (re th)) \/ r = @fsub T G (im (cadd (F := G) ah (cconj (F := G) bh))) (re th) ->
  inear (Q1 * (1 + u)) (2 * (Sa + Sb)) (a +c Cconj b +c Copp Ci *c t)
    (mkcx (@fadd T G (re (cadd (F := G) ah (cconj (F := G) bh))) (im th)) r).
Proof.
  intros Ht Hr. pose proof Isum as HS.
  replace (2 * (Sa + Sb)) with ((Sa + Sb) + (Sa + Sb)) by ring. eapply (@inear_add_gen _ _ _ _ _ _ _ _ HS (inear_mi Ht)). intros M1 M2.
  destruct HS as (_ & _ & _ & HS). destruct (HS M1) as [[F1 F2] _]. destruct Ht as (_ & _ & _ & Ht). destruct (Ht M2) as [[F3 F4] _].
  destruct (i_neg HG _ F3) as [F5 E5]. cbn [re im].
  split; [apply (i_add HG); assumption|]. destruct Hr as [-> | ->]; [apply (i_add HG); assumption|].
  rewrite E5. exact (i_sub HG _ _ F2 F3).
Qed.
Lemma Itemp' t th r : inear Q1 (Sa + Sb) t th ->
  r = @fsub T G (im (cadd (F := G) ah (cconj (F := G) bh))) (@fneg T G (re th)) \/ r = @fadd T G (im (cadd (F := G) ah (cconj (F := G) bh))) (re th) ->
  inear (Q1 * (1 + u)) (2 * (Sa + Sb)) (a +c Cconj b +c Ci *c t)
    (mkcx (@fsub T G (re (cadd (F := G) ah (cconj (F := G) bh))) (im th)) r).
Proof.
  intros Ht Hr. pose proof Isum as HS.
  replace (2 * (Sa + Sb)) with ((Sa + Sb) + (Sa + Sb)) by ring. eapply (@inear_add_gen _ _ _ _ _ _ _ _ HS (inear_pi Ht)). intros M1 M2.
  destruct HS as (_ & _ & _ & HS). destruct (HS M1) as [[F1 F2] _]. destruct Ht as (_ & _ & _ & Ht). destruct (Ht M2) as [[F3 F4] _].
  destruct (i_neg HG _ F3) as [F5 E5]. destruct (i_neg HG _ F4) as [F6 E6]. cbn [re im]. rewrite E6.
  split; [exact (i_sub HG _ _ F1 F4)|]. destruct Hr as [-> | ->]; [|apply (i_add HG); assumption].
  pose proof (i_sub HG _ _ F2 F5) as P. rewrite E5 in P. unfold Rminus in P. rewrite Ropp_involutive in P. exact P.
Qed.
Lemma PPq : q * PP = Q1 * (1 + u) * (1 + u). Proof. unfold L_rerr.PP. ring. Qed.
Hypothesis HM : q * PP * (2 * (Sa + Sb)) <= Mx.
Lemma HQ1 : Q1 * (1 + u) * (2 * (Sa + Sb)) <= Mx /\ FL <= 2 * (Sa + Sb) / 2.
Proof.
  pose proof (proj1 (proj2 Ha)). pose proof (proj1 (proj2 Hb)). pose proof (proj1 Ha). split; [|lra]. eapply Rle_trans; [|exact HM]. rewrite PPq. pose proof ug. pose proof gg.
  apply Rmult_le_compat_r; [lra|]. assert (0 <= Q1 * (1 + u)) by (repeat apply Rmult_le_pos; lra). nra.
Qed.
Lemma post_I w' : fnear (q * PP) (Sa + Sb) (RtoC (/ 2) *c (a +c Cconj b +c Copp Ci *c (w *c (a -c Cconj b)))) (post (F := G) c w' ah bh wh).
Proof.
  destruct HQ1 as [M1 M2]. rewrite PPq. replace (Sa + Sb) with (2 * (Sa + Sb) / 2) by field. destruct w'; cbn [post].
  - exact (fnear_half ihalves_mul (inear_fnear (Itemp (It (cmul_i HG c)) (or_introl eq_refl)) M1) M2 M1).
  - exact (fnear_half ihalves_mul (inear_fnear (Itemp (It' plain_i) (or_intror eq_refl)) M1) M2 M1).
  - exact (fnear_half ihalves_mul (inear_fnear (Itemp (It' plain_i) (or_intror eq_refl)) M1) M2 M1).
Qed.
End Bin.
Lemma wnear_conj w wh : wnear w wh -> wnear (Cconj w) (cconj (F := G) wh).
Proof.
  intros (F & E & H). destruct (cv_conj HG F) as [F' E']. split; [exact F'|]. split; [rewrite Cabs_conj; exact E|]. rewrite E'.
  replace (Cconj (cv wh) -c Cconj w) with (Cconj (cv wh -c w)) by (creal; ring). rewrite Cabs_conj. exact H.
Qed.
Lemma ipost_I q Sa Sb a b w ah bh wh w' : inear q Sa a ah -> inear q Sb b bh -> wnear w wh -> q * PP * (2 * (Sa + Sb)) <= Mx ->
  fnear (q * PP) (Sa + Sb) (RtoC (/ 2) *c (a +c Cconj b +c Ci *c (Cconj w *c (a -c Cconj b)))) (ipost (F := G) c w' ah bh wh).
Proof.
  intros Ha Hb Hw HM. destruct (HQ1 Ha Hb HM) as [M1 M2]. pose proof (wnear_conj Hw) as Hw2. rewrite PPq. replace (Sa + Sb) with (2 * (Sa + Sb) / 2) by field. destruct w'; cbn [ipost].
  - exact (fnear_half ihalves_mul (inear_fnear (Itemp' Ha Hb (It Ha Hb Hw2 (cmul_i HG c)) (or_introl eq_refl)) M1) M2 M1).
  - exact (fnear_half ihalves_mul (inear_fnear (Itemp' Ha Hb (It' Ha Hb Hw2 plain_i) (or_intror eq_refl)) M1) M2 M1).
  - exact (fnear_half ihalves_mul (inear_fnear (Itemp' Ha Hb (It' Ha Hb Hw2 plain_i) (or_intror eq_refl)) M1) M2 M1).
Qed.

(* ---------- the first and last bins ---------- *)
Definition rI (q S x : R) (xh : T) : Prop := 1 <= q /\ FL <= S /\ Rabs x <= S /\ fin xh /\ Rabs (v xh - x) <= (q - 1) * S.
Lemma fnear_re q S z zh : fnear q S z zh -> rI q S (re z) (re zh).
Proof.
  intros (H1 & H2 & H3 & [F1 F2] & H4). split; [exact H1|]. split; [exact H2|]. split; [eapply Rle_trans; [apply L_ierr.Rabs_re|exact H3]|]. split; [exact F1|].
  eapply Rle_trans; [|exact H4]. apply (L_ierr.Rabs_re (cv zh -c z)).
Qed.
Lemma fnear_im q S z zh : fnear q S z zh -> rI q S (im z) (im zh).
Proof.
  intros (H1 & H2 & H3 & [F1 F2] & H4). split; [exact H1|]. split; [exact H2|]. split; [eapply Rle_trans; [apply L_ierr.Rabs_im|exact H3]|]. split; [exact F2|].
  eapply Rle_trans; [|exact H4]. apply (L_ierr.Rabs_im (cv zh -c z)).
Qed.
Lemma rI_gen q Sa Sb x y (p s : R) r : 1 <= q -> FL <= Sa -> FL <= Sb -> Rabs x <= Sa -> Rabs y <= Sb -> Rabs (p - x) <= (q - 1) * Sa -> Rabs (s - y) <= (q - 1) * Sb ->
  op_ok (p + s) r -> q * (Sa + Sb) <= Mx -> rI (q * (1 + u)) (Sa + Sb) (x + y) r.
Proof.
  intros Hq Fa Fb X Y P S Hr HM. pose proof ug. pose proof (u0_pos HG). pose proof (eta_pos HG).
  assert (D : Rabs (p + s - (x + y)) <= (q - 1) * (Sa + Sb)).
  { replace (p + s - (x + y)) with ((p - x) + (s - y)) by ring. eapply Rle_trans; [apply Rabs_triang|]. lra. }
  assert (X2 : Rabs (x + y) <= Sa + Sb) by (eapply Rle_trans; [apply Rabs_triang|]; lra).
  assert (D2 : Rabs (p + s) <= q * (Sa + Sb)).
  { replace (p + s) with ((p + s - (x + y)) + (x + y)) by ring. eapply Rle_trans; [apply Rabs_triang|]. lra. }
  destruct (Hr ltac:(lra)) as [F E]. split; [nra|]. split; [lra|]. split; [exact X2|]. split; [exact F|].
  replace (v r - (x + y)) with ((v r - (p + s)) + (p + s - (x + y))) by ring. eapply Rle_trans; [apply Rabs_triang|].
  assert (U : u0 * Rabs (p + s) <= u0 * (q * (Sa + Sb))) by (apply Rmult_le_compat_l; lra).
  pose proof (@u_slack u0 eta FL u Hu Heta (q * (Sa + Sb)) ltac:(nra)). lra.
Qed.
Lemma rI_add q Sa Sb x y xh yh : rI q Sa x xh -> rI q Sb y yh -> q * (Sa + Sb) <= Mx -> rI (q * (1 + u)) (Sa + Sb) (x + y) (@fadd T G xh yh).
Proof. intros (H1 & H2 & H3 & H4 & H5) (_ & K2 & K3 & K4 & K5) HM. exact (@rI_gen _ _ _ _ _ _ _ _ H1 H2 K2 H3 K3 H5 K5 (i_add HG _ _ H4 K4) HM). Qed.
Lemma rI_sub q Sa Sb x y xh yh : rI q Sa x xh -> rI q Sb y yh -> q * (Sa + Sb) <= Mx -> rI (q * (1 + u)) (Sa + Sb) (x - y) (@fsub T G xh yh).
Proof.
  intros (H1 & H2 & H3 & H4 & H5) (_ & K2 & K3 & K4 & K5) HM.
  refine (@rI_gen q Sa Sb x (- y) (v xh) (- v yh) _ H1 H2 K2 H3 _ H5 _ (i_sub HG _ _ H4 K4) HM); [rewrite Rabs_Ropp; exact K3|].
  replace (- v yh - - y) with (- (v yh - y)) by ring. rewrite Rabs_Ropp. exact K5.
Qed.
Lemma rI_half h q S x xh : ihalves h -> rI q S x xh -> FL <= S / 2 -> q * S <= Mx -> rI (q * (1 + u)) (S / 2) (x / 2) (h xh).
Proof.
  intros Hh (H1 & H2 & H3 & H4 & H5) HS HM. pose proof ug. pose proof (u0_pos HG). pose proof (eta_pos HG).
  assert (E : forall y, Rabs (y / 2) = Rabs y / 2) by (intros y; unfold Rdiv; rewrite Rabs_mult, (Rabs_pos_eq (/ 2)) by lra; reflexivity).
  assert (D : Rabs (v xh) <= q * S). { replace (v xh) with ((v xh - x) + x) by ring. eapply Rle_trans; [apply Rabs_triang|]. lra. }
  pose proof (Rabs_pos (v xh)).
  destruct (Hh _ H4) as [F E1]; [rewrite E; lra|]. split; [nra|]. split; [exact HS|]. split; [rewrite E; lra|]. split; [exact F|].
  replace (v (h xh) - x / 2) with ((v (h xh) - v xh / 2) + (v xh - x) / 2) by field. eapply Rle_trans; [apply Rabs_triang|]. rewrite E in *.
  assert (U : u0 * (Rabs (v xh) / 2) <= u0 * (q * (S / 2))) by (apply Rmult_le_compat_l; lra).
  pose proof (@u_slack u0 eta FL u Hu Heta (q * (S / 2)) ltac:(nra)). lra.
Qed.
Lemma rI_C q S x xh : rI q S x xh -> fnear q S (RtoC x) (mkcx xh (@fzero T G)).
Proof.
  intros (H1 & H2 & H3 & H4 & H5). destruct (i_zero HG) as [F0 E0]. split; [exact H1|]. split; [exact H2|]. split; [rewrite Cabs_R; exact H3|]. split; [split; assumption|].
  unfold L_ierr.cv. cbn [re im]. rewrite E0. replace (mkcx (v xh) 0 -c RtoC x) with (RtoC (v xh - x)) by (creal; ring). rewrite Cabs_R. exact H5.
Qed.

(* ---------- the table ---------- *)
Lemma rtw_I w wh e : fnear (1 + e) 1 w wh -> forall n q z zh i, inear q 1 z zh -> (i < n)%nat ->
  inear (q * ((1 + e) * (1 + gam)) ^ i) 1 (z *c Cpow w i) (nthc (F := G) (rtw_loop (F := G) c n wh zh) i).
Proof.
  intros Nw. induction n as [|n IH]; intros q z zh i Hz Hi; [lia|]. cbn [rtw_loop]. unfold nthc. destruct i as [|i]; cbn [nth pow Cpow].
  - rewrite Rmult_1_r. replace (z *c C1) with z by ring. exact Hz.
  - pose proof (imul (cmul_i HG c) Hz Nw (Rle_refl 1)) as P. rewrite Rmult_1_r in P. specialize (IH _ _ _ i P ltac:(lia)). unfold nthc in IH.
    replace (z *c (Cpow w i *c w)) with (z *c w *c Cpow w i) by ring.
    replace (q * ((1 + e) * (1 + gam) * ((1 + e) * (1 + gam)) ^ i)) with (q * (1 + e) * (1 + gam) * ((1 + e) * (1 + gam)) ^ i) by ring. exact IH.
Qed.
Definition rtw_angleI (m : nat) : T := @fdiv T G (@fneg T G (@fpi T G)) (@fofnat T G m).
Lemma rtable_I m e k : fnear (1 + e) 1 (W (2 * m) 1) (expi (F := G) (rtw_angleI m)) -> (k < m)%nat ->
  ((1 + e) * (1 + gam)) ^ k <= Mx -> ((1 + e) * (1 + gam)) ^ k - 1 <= d -> wnear (W (2 * m) k) (nthc (F := G) (build_twiddle_table (F := G) c m) k).
Proof.
  intros Hs Hk HM Hle. unfold build_twiddle_table. fold (rtw_angleI m). unfold expi in Hs. destruct (fsin_cos (rtw_angleI m)) as [sn cs].
  assert (N : inear 1 1 C1 (mkcx (@fone T G) (@fzero T G))).
  { destruct (i_zero HG) as [F0 E0]. destruct (i_one HG) as [F1 E1]. apply fnear_inear. repeat split; try lra; try assumption.
    - change (Cabs (RtoC 1) <= 1). rewrite Cabs_R, Rabs_R1. lra.
    - unfold L_ierr.cv. cbn [re im]. rewrite E0, E1. replace (mkcx 1 0 -c C1) with C0 by (creal; ring). rewrite Cabs_0. lra. }
  pose proof (@rtw_I _ _ _ Hs m 1 C1 _ k N Hk) as (_ & _ & _ & P).
  rewrite Cpow_W in P by lia. rewrite Nat.mul_1_r in P. replace (C1 *c W (2 * m) k) with (W (2 * m) k) in P by ring. destruct (P ltac:(lra)) as [F E].
  split; [exact F|]. split; [apply Cabs_W|]. lra.
Qed.
Definition rtwI_ok (m : nat) : Prop := forall k, (k < m)%nat -> wnear (W (2 * m) k) (nthc (F := G) (build_twiddle_table (F := G) c m) k).
Definition flist (q : R) (S : nat -> R) (x : list C) (xh : list (cx T)) : Prop :=
  length xh = length x /\ forall i, (i < length x)%nat -> fnear q (S i) (at_ x i) (nthc (F := G) xh i).

(* ---------- forward ---------- *)
Lemma rtab_at m k : (k < m)%nat -> at_ (build_twiddle_table (F := RF) c m) k = W (2 * m) k.
Proof. intros H. pose proof (@rtable_R c m k H) as E. unfold nthc in E. exact E. Qed.
Lemma rclosed_I w m q S (Y : list C) Yh : (0 < m)%nat -> rtwI_ok m -> length Y = m -> flist q (fun _ => S) Y Yh -> q * PP * (4 * S) <= Mx ->
  flist (q * PP) (fun _ => 2 * S) (rclosed (F := RF) (post (F := RF) c w) m (build_twiddle_table (F := RF) c m) Y)
    (rclosed (F := G) (post (F := G) c w) m (build_twiddle_table (F := G) c m) Yh).
Proof.
  intros Hm Ht HY [Hl H] HM. rewrite HY in *. split; [unfold rclosed; rewrite !tab_length; reflexivity|].
  unfold rclosed at 1. rewrite tab_length. intros k Hk. unfold rclosed. rewrite at_tab, nthc_tab by exact Hk.
  pose proof ug as U. pose proof (H 0%nat Hm) as H0. pose proof (proj1 H0) as Hq. pose proof (proj1 (proj2 H0)) as HS. pose proof PPI_ge1 as HP.
  assert (QQ1 : q <= q * PP) by nra.
  assert (M0 : q * (S + S) <= Mx). { eapply Rle_trans; [|exact HM]. apply Rmult_le_compat; lra. }
  assert (Q : q * (1 + u) <= q * PP).
  { apply Rmult_le_compat_l; [lra|]. unfold L_rerr.PP. pose proof gg. assert (1 <= (1 + d) * (1 + gam)) by nra.
    assert (1 + u <= (1 + u) ^ 3) by (replace (1 + u) with ((1 + u) ^ 1) at 1 by ring; apply Rle_pow; [lra|lia]). nra. }
  change (nthc (F := RF)) with at_.
  destruct (Nat.eqb_spec k m) as [->|Hkm]; [|destruct (Nat.eqb_spec k 0) as [->|Hk0]].
  - eapply (fnear_mono HFL); [exact (rI_C (rI_sub (fnear_re H0) (fnear_im H0) M0))|exact Q|lra].
  - eapply (fnear_mono HFL); [exact (rI_C (rI_add (fnear_re H0) (fnear_im H0) M0))|exact Q|lra].
  - rewrite post_R, rtab_at by lia.
    replace (2 * S) with (S + S) by ring. apply post_I; [apply fnear_inear; apply H; lia|apply fnear_inear; apply H; lia|apply Ht; lia|].
    replace (2 * (S + S)) with (4 * S) by ring. exact HM.
Qed.

(* ---------- inverse ---------- *)
Lemma iclosed_I w m q S (Y : list C) Yh : (0 < m)%nat -> rtwI_ok m -> length Y = (m + 1)%nat -> flist q S Y Yh ->
  (forall k, (k < m)%nat -> q * PP * (2 * (S k + S (m - k)%nat)) <= Mx) ->
  flist (q * PP) (fun k => S k + S (m - k)%nat) (iclosed (F := RF) c w m (build_twiddle_table (F := RF) c m) Y)
    (iclosed (F := G) c w m (build_twiddle_table (F := G) c m) Yh).
Proof.
  intros Hm Ht HY [Hl H] HM. rewrite HY in *. split; [unfold iclosed; rewrite !tab_length; reflexivity|].
  unfold iclosed at 1. rewrite tab_length. intros k Hk. unfold iclosed. rewrite at_tab, nthc_tab by exact Hk.
  pose proof ug as U. pose proof (H 0%nat ltac:(lia)) as H0. pose proof (H m ltac:(lia)) as H1. pose proof (proj1 H0) as Hq. pose proof PPI_ge1 as HP.
  assert (Q : q * (1 + u) * (1 + u) <= q * PP).
  { rewrite Rmult_assoc. apply Rmult_le_compat_l; [lra|]. unfold L_rerr.PP. pose proof gg. assert (1 <= (1 + d) * (1 + gam)) by nra.
    assert ((1 + u) * (1 + u) <= (1 + u) ^ 3) by (replace ((1 + u) * (1 + u)) with ((1 + u) ^ 2) by ring; apply Rle_pow; [lra|lia]).
    assert (1 <= (1 + u) ^ 3) by (apply pow_ge1; lra). nra. }
  change (nthc (F := RF)) with at_. specialize (HM k Hk).
  destruct (Nat.eqb_spec k 0) as [->|Hk0].
  - rewrite Nat.sub_0_r in *. rewrite !ihalf_R.
    pose proof (proj1 (proj2 H0)) as F0. pose proof (proj1 (proj2 H1)) as F1.
    assert (B1 : q * (1 + u) <= q * PP) by nra.
    assert (B2 : 0 <= q * (1 + u)) by nra.
    assert (M1 : q * (S 0%nat + S m) <= Mx) by (eapply Rle_trans; [|exact HM]; apply Rmult_le_compat; nra).
    assert (M2 : q * (1 + u) * (S 0%nat + S m) <= Mx) by (eapply Rle_trans; [|exact HM]; apply Rmult_le_compat; lra).
    pose proof (rI_half (ihalves_ihalf w) (rI_add (fnear_re H0) (fnear_re H1) M1) ltac:(lra) M2) as P1.
    pose proof (rI_half (ihalves_ihalf w) (rI_sub (fnear_re H0) (fnear_re H1) M1) ltac:(lra) M2) as P2.
    eapply (fnear_mono HFL); [|exact Q|apply Rle_refl]. destruct P1 as (A1 & A2 & A3 & A4 & A5), P2 as (_ & _ & B3 & B4 & B5).
    split; [exact A1|]. cbn [fadd fsub RF RFloat_of] in *. split; [lra|]. split; [eapply Rle_trans; [apply Cabs_parts|]; cbn [re im]; lra|]. split; [split; assumption|].
    eapply Rle_trans; [apply Cabs_parts|]. unfold L_ierr.cv. cbn [re im Csub]. lra.
  - rewrite ipost_R, rtab_at by lia.
    apply ipost_I; [apply fnear_inear; apply H; lia|apply fnear_inear; apply H; lia|apply Ht; lia|exact HM].
Qed.
End RI.

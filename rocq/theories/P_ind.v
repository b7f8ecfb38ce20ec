(* Property C102: the two-dimensional transform in IEEE binary32/binary64 arithmetic. *)
From Coq Require Import Reals Lra Lia ZArith List Bool.
From Flocq Require Import Core BinarySingleNaN.
From Verif Require Import L_err L_flx L_pi L_ierr M_fft L_fft L_obj L_nd M_nd P_fft P_err P_nd P_nderr P_ierr P_istft L_ieee.
Import ListNotations.
Set Implicit Arguments.
Open Scope R_scope.

(* the specification is DFT2 of P_nd.v; finite_signal, values, accurate_trig, accurate_tables, floor_size of P_ierr.v; norm1 and within of P_err.v *)
(* ---------- proofs ---------- *)
Section Lem.
Variables (f : fmt) (o : libm f) (c : cfg).
Local Notation G := (ieee o).
Local Notation u := (bpow radix2 (- precf f)).
Local Notation fl := (floor_size f).
Definition unit_err (n : nat) : R := 15 * INR n * INR (Nat.log2 n) * u.
Definition size_ok (n : nat) : Prop := (32 <= n)%nat /\ is_pow2 n = true /\ 15 * INR n * INR (Nat.log2 n) <= bpow radix2 (precf f).
Lemma unit_range n : size_ok n -> 0 <= unit_err n <= 1.
Proof.
  intros (H1 & _ & H2). destruct (@nums f n 15 H1 ltac:(lra) H2) as (A & B & _ & _ & D). pose proof (v0_pos f) as V. unfold unit_err. unfold v0 in *. split; [|lra].
  apply Rmult_le_pos; [|lra]. apply Rmult_le_pos; lra.
Qed.
Lemma fl_pos : 0 < fl. Proof. apply bpow_gt_0. Qed.
Lemma fresh_ieee x : accurate_trig o -> c_precomp c = false \/ accurate_tables o -> finite_signal x -> size_ok (length x) -> norm1 (values x) <= bpow radix2 (emaxf f - 2) ->
  length (fft_fresh (F := G) c x) = length x /\ finite_signal (fft_fresh (F := G) c x) /\
  within (unit_err (length x) * (norm1 (values x) + INR (length x) * fl)) (values (fft_fresh (F := G) c x)) (DFT (values x)).
Proof.
  intros HT Hc Hx (S1 & S2 & S3) HN. destruct (@C89_ieee_fft f o c x HT Hc Hx S1 S2 S3 HN) as (p & y & E & Fy & Y).
  destruct (@fft_fresh_ok _ G c x) as [p' E']; [lia|right; exact S2|]. rewrite E in E'.
  assert (Ey : y = fft_fresh (F := G) c x) by exact (f_equal (fun r => match r with Done (_, z, _) => z | _ => [] end) E'). rewrite <- Ey.
  split; [destruct Y as [Ly _]; rewrite values_length, DFT_length, values_length in Ly; exact Ly|]. split; assumption.
Qed.
(* one line: the exact entries X j, the computed ones in data, off by at most e j *)
Lemma line_ieee n (X : nat -> C) (e : nat -> R) start stride (data : list (cx (num f))) : accurate_trig o -> c_precomp c = false \/ accurate_tables o -> finite_signal data -> size_ok n ->
  (forall j, (j < n)%nat -> (start + j * stride < length data)%nat) -> (forall j, (j < n)%nat -> Cabs (at_ (values data) (start + j * stride) -c X j) <= e j) ->
  rsum n (fun j => Cabs (X j)) + rsum n e <= bpow radix2 (emaxf f - 2) ->
  let y := fft_fresh (F := G) c (line (F := G) start stride n data) in
  length y = n /\ finite_signal y /\ forall i, (i < n)%nat ->
    Cabs (at_ (values y) i -c csum n (fun j => X j *c W n (j * i))) <= unit_err n * (rsum n (fun j => Cabs (X j)) + rsum n e + INR n * fl) + rsum n e.
Proof.
  intros HT Hc Hd Hn Hb He HN y. set (l := line (F := G) start stride n data) in *. assert (Ll : length l = n) by apply tab_length.
  assert (El : forall j, (j < n)%nat -> at_ (values l) j = at_ (values data) (start + j * stride)).
  { intros j Hj. rewrite !(values_at o) by (try rewrite Ll; auto). unfold l, line, nthc. rewrite nth_tab by exact Hj. reflexivity. }
  assert (Fl : finite_signal l). { intros z Hz. unfold l, line, tab in Hz. apply in_map_iff in Hz. destruct Hz as (j & <- & Hj). apply in_seq in Hj. apply Hd, nth_In, Hb. lia. }
  assert (N : norm1 (values l) <= rsum n (fun j => Cabs (X j)) + rsum n e).
  { unfold norm1. rewrite values_length, Ll, <- rsum_plus. apply rsum_le'. intros j Hj. rewrite El by exact Hj.
    replace (at_ (values data) (start + j * stride)) with (X j +c (at_ (values data) (start + j * stride) -c X j)) by ring. eapply Rle_trans; [apply Cabs_tri|]. specialize (He j Hj). lra. }
  destruct (fresh_ieee HT Hc Fl) as (A1 & A2 & A3); rewrite ?Ll; [exact Hn|lra|]. fold y in A1, A2, A3. rewrite Ll in *. split; [exact A1|]. split; [exact A2|]. intros i Hi.
  destruct A3 as [_ A3]. specialize (A3 i). rewrite DFT_length, values_length, Ll in A3. specialize (A3 Hi). rewrite DFT_at in A3 by (rewrite values_length, Ll; exact Hi). rewrite values_length, Ll in A3.
  replace (at_ (values y) i -c csum n (fun j => X j *c W n (j * i))) with ((at_ (values y) i -c dft n (at_ (values l)) i) +c (dft n (at_ (values l)) i -c dft n X i)) by (unfold dft; ring).
  eapply Rle_trans; [apply Cabs_tri|]. apply Rplus_le_compat.
  - eapply Rle_trans; [exact A3|]. apply Rmult_le_compat_l; [apply (unit_range Hn)|]. lra.
  - eapply Rle_trans; [apply dft_close|]. apply rsum_le'. intros j Hj. rewrite El by exact Hj. apply He. exact Hj.
Qed.
Lemma values_nth (x : list (cx (num f))) i : (i < length x)%nat -> at_ (values x) i = cv (val (f := f)) (nth i x (czero (F := G))).
Proof. intros H. apply (values_at o). exact H. Qed.
(* one pass over K lines *)
Lemma lines_ieee K (start : nat -> nat) stride n (data data' : list (cx (num f))) (X : nat -> nat -> C) (e : nat -> nat -> R) : accurate_trig o -> c_precomp c = false \/ accurate_tables o ->
  size_ok n -> finite_signal data -> lines_done (F := G) (fft_fresh (F := G) c) K start stride n data data' ->
  (forall j i, (j < K)%nat -> (i < n)%nat -> (start j + i * stride < length data)%nat) ->
  (forall i, (i < length data)%nat -> exists j m, (j < K)%nat /\ (m < n)%nat /\ i = (start j + m * stride)%nat) ->
  (forall j i, (j < K)%nat -> (i < n)%nat -> Cabs (at_ (values data) (start j + i * stride) -c X j i) <= e j i) ->
  (forall j, (j < K)%nat -> rsum n (fun i => Cabs (X j i)) + rsum n (e j) <= bpow radix2 (emaxf f - 2)) ->
  finite_signal data' /\ forall j i, (j < K)%nat -> (i < n)%nat ->
    Cabs (at_ (values data') (start j + i * stride) -c csum n (fun m => X j m *c W n (m * i))) <= unit_err n * (rsum n (fun i => Cabs (X j i)) + rsum n (e j) + INR n * fl) + rsum n (e j).
Proof.
  intros HT Hc Hn Hd (L & B & _) Hb Hcov He HN.
  assert (P : forall j, (j < K)%nat -> let y := fft_fresh (F := G) c (line (F := G) (start j) stride n data) in length y = n /\ finite_signal y /\ forall i, (i < n)%nat ->
    Cabs (at_ (values y) i -c csum n (fun m => X j m *c W n (m * i))) <= unit_err n * (rsum n (fun m => Cabs (X j m)) + rsum n (e j) + INR n * fl) + rsum n (e j)).
  { intros j Hj. apply line_ieee; auto. }
  split.
  - intros z Hz. destruct (In_nth _ _ (czero (F := G)) Hz) as (i & Hi & <-). rewrite L in Hi. destruct (Hcov i Hi) as (j & m & Hj & Hm & ->). rewrite B by assumption.
    destruct (P j Hj) as (A1 & A2 & _). apply A2, nth_In. lia.
  - intros j i Hj Hi. rewrite values_nth by (rewrite L; apply Hb; assumption). rewrite B by assumption. destruct (P j Hj) as (A1 & _ & A3). cbv zeta in *.
    rewrite <- values_nth by lia. apply A3. exact Hi.
Qed.
Lemma rsum_term n (a : nat -> R) j : (forall i, (i < n)%nat -> 0 <= a i) -> (j < n)%nat -> a j <= rsum n a.
Proof.
  induction n as [|n IH]; intros H Hj; [lia|]. cbn [rsum]. destruct (Nat.eq_dec j n) as [->|].
  - assert (0 <= rsum n a) by (apply rsum_pos; intros; apply H; lia). lra.
  - assert (a j <= rsum n a) by (apply IH; [intros; apply H|]; lia). specialize (H n ltac:(lia)). lra.
Qed.
Lemma size_mono a b : (a <= b)%nat -> 15 * INR a * INR (Nat.log2 a) <= 15 * INR b * INR (Nat.log2 b).
Proof.
  intros H. assert (INR a <= INR b) by (apply le_INR; exact H). assert (INR (Nat.log2 a) <= INR (Nat.log2 b)) by (apply le_INR, Nat.log2_le_mono; exact H).
  pose proof (pos_INR a). pose proof (pos_INR (Nat.log2 a)). apply Rmult_le_compat; lra.
Qed.
Lemma csum_abs n (a V : nat -> C) : (forall m, Cabs (V m) = 1) -> Cabs (csum n (fun m => a m *c V m)) <= rsum n (fun m => Cabs (a m)).
Proof. intros H. induction n as [|n IH]; cbn [csum rsum]; [rewrite Cabs_0; lra|]. eapply Rle_trans; [apply Cabs_tri|]. rewrite Cabs_mul, H. lra. Qed.
Lemma size_pow n : size_ok n -> (0 < n)%nat /\ INR n <= bpow radix2 (precf f).
Proof. intros (H1 & _ & H2). destruct (@nums f n 15 H1 ltac:(lra) H2) as (A & B & D & _). split; [lia|exact D]. Qed.
End Lem.

(* ---------- theorems ---------- *)
Theorem C102_ieee_fft2d : forall (f : fmt) (o : libm f) (c : cfg) rows cols (x scratch : list (cx (num f))),
  accurate_trig o -> c_precomp c = false \/ accurate_tables o -> finite_signal x -> length x = (rows * cols)%nat -> length scratch = rows ->
  (32 <= cols)%nat -> (cols <= rows)%nat -> is_pow2 rows = true -> is_pow2 cols = true ->
  15 * INR rows * INR (Nat.log2 rows) <= bpow radix2 (precf f) -> norm1 (values x) <= bpow radix2 (emaxf f - 4) ->
  exists p y s, fft2d_inplace (F := ieee o) c (new_planner (T := num f)) x rows cols scratch = Done (p, y, s, ROk) /\ finite_signal y /\
    within (23 * (INR rows * INR (Nat.log2 rows) + INR cols * INR (Nat.log2 cols)) * bpow radix2 (- precf f) * (norm1 (values x) + INR (rows * cols) * floor_size f))
      (values y) (DFT2 rows cols (values x)).
Proof.
  intros f o c rows cols x scratch HT Hc Fx Hx Hsc Hc32 Hcr Hpr Hpc Hb HN.
  assert (Or : size_ok f rows) by (split; [lia|]; split; assumption).
  assert (Oc : size_ok f cols).
  { split; [exact Hc32|]. split; [exact Hpc|]. eapply Rle_trans; [|exact Hb]. assert (INR cols <= INR rows) by (apply le_INR; exact Hcr).
    assert (INR (Nat.log2 cols) <= INR (Nat.log2 rows)) by (apply le_INR, Nat.log2_le_mono; exact Hcr). pose proof (pos_INR cols). pose proof (pos_INR (Nat.log2 cols)). apply Rmult_le_compat; lra. }
  destruct (size_pow Or) as [Hr Hrb]. destruct (size_pow Oc) as [Hcp Hcb]. pose proof (unit_range Or) as UR. pose proof (unit_range Oc) as UC. pose proof (fl_pos f) as FP.
  unfold fft2d_inplace. rewrite Hx, Nat.eqb_refl. cbn [negb]. destruct (Nat.eqb_spec rows 0); [lia|]. destruct (Nat.eqb_spec cols 0); [lia|]. cbn [orb]. rewrite Hsc, Nat.eqb_refl. cbn [negb].
  assert (RA : right_after c cols rows) by (left; unfold padded; rewrite Hpr, Hpc; exact Hcr).
  destruct (@rows_phase _ (ieee o) c new_planner x rows cols) as (p1 & d1 & -> & (L1 & B1 & _) & K1); [apply fit_new|exact Hcp|tauto|lia|]. cbn [bind].
  destruct (@cols_phase _ (ieee o) c p1 d1 scratch rows cols) as (p2 & d2 & s2 & -> & (L2 & B2 & _) & _); [apply K1; [exact RA|apply fit_new]|exact Hr|exact Hcp|tauto|lia|exact Hsc|].
  exists p2, d2, s2. split; [reflexivity|].
  set (X := fun j k => at_ (values x) (j * cols + k * 1)). set (Sj := fun j => rsum cols (fun k => Cabs (X j k))). set (S := norm1 (values x)) in *.
  assert (HS : rsum rows Sj = S).
  { unfold S, norm1. rewrite values_length, Hx, <- rsum_grid. apply rsum_ext. intros j _. apply rsum_ext. intros k _. unfold X. rewrite Nat.mul_1_r. reflexivity. }
  assert (S0 : forall j, 0 <= Sj j) by (intros j; apply rsum_pos; intros; apply Cabs_nonneg).
  assert (SP : 0 <= S) by apply norm1_pos.
  assert (SjS : forall j, (j < rows)%nat -> Sj j <= S).
  { rewrite <- HS. clear - S0. induction rows as [|n IH]; intros j Hj; [lia|]. cbn [rsum]. destruct (Nat.eq_dec j n) as [->|]; [pose proof (@rsum_pos n Sj (fun i _ => S0 i)); lra|]. specialize (IH j ltac:(lia)). specialize (S0 n). lra. }
  assert (P4 : bpow radix2 (emaxf f - 2) = 4 * bpow radix2 (emaxf f - 4)) by (replace (emaxf f - 2)%Z with (2 + (emaxf f - 4))%Z by lia; rewrite bpow_plus; reflexivity).
  assert (P1 : 1 <= bpow radix2 (emaxf f - 4)) by (change 1 with (bpow radix2 0); apply bpow_le; clear; destruct f; cbn; lia).
  (* after the rows *)
  set (e := fun j => unit_err f cols * (Sj j + INR cols * floor_size f)).
  assert (R1 : forall j, (j < rows)%nat -> finite_signal (fft_fresh (F := ieee o) c (line (F := ieee o) (j * cols) 1 cols x)) /\ length (fft_fresh (F := ieee o) c (line (F := ieee o) (j * cols) 1 cols x)) = cols /\
    forall i, (i < cols)%nat -> Cabs (at_ (values (fft_fresh (F := ieee o) c (line (F := ieee o) (j * cols) 1 cols x))) i -c csum cols (fun k => X j k *c W cols (k * i))) <= e j).
  { intros j Hj. destruct (@line_ieee f o c cols (X j) (fun _ => 0) (j * cols) 1 x HT Hc Fx Oc) as (A1 & A2 & A3).
    - intros k Hk. rewrite Hx. nia.
    - intros k Hk. unfold X. match goal with |- Cabs (?z -c ?z) <= 0 => replace (z -c z) with C0 by ring end. rewrite Cabs_0. lra.
    - rewrite rsum_const', Rmult_0_r, Rplus_0_r. fold (Sj j). specialize (SjS j Hj). lra.
    - split; [exact A2|]. split; [exact A1|]. intros i Hi. eapply Rle_trans; [apply A3; exact Hi|]. rewrite rsum_const', Rmult_0_r, !Rplus_0_r. fold (Sj j). unfold e. lra. }
  assert (D1 : forall j k, (j < rows)%nat -> (k < cols)%nat -> (j * cols + k * 1 < length d1)%nat) by (intros j k Hj Hk; rewrite L1, Hx; nia).
  assert (F1 : finite_signal d1).
  { intros z Hz. destruct (In_nth _ _ (czero (F := ieee o)) Hz) as (i & Hi & <-).
    assert (Hm : (i mod cols < cols)%nat) by (apply Nat.mod_upper_bound; lia). assert (Hd : (i / cols < rows)%nat) by (apply Nat.div_lt_upper_bound; lia).
    replace i with (i / cols * cols + i mod cols * 1)%nat by (pose proof (Nat.div_mod_eq i cols); lia). rewrite B1 by assumption. destruct (R1 _ Hd) as (A1 & A2 & _). apply A1, nth_In. lia. }
  assert (E1 : forall j k, (j < rows)%nat -> (k < cols)%nat -> Cabs (at_ (values d1) (k + j * cols) -c csum cols (fun i => X j i *c W cols (i * k))) <= e j).
  { intros j k Hj Hk. replace (k + j * cols)%nat with (j * cols + k * 1)%nat by lia. rewrite (values_nth o) by (apply D1; assumption). rewrite B1 by assumption.
    destruct (R1 j Hj) as (_ & A2 & A3). rewrite <- (values_nth o) by lia. apply A3. exact Hk. }
  assert (HE : rsum rows e = unit_err f cols * (S + INR (rows * cols) * floor_size f)).
  { unfold e. rewrite rsum_scal, rsum_plus, rsum_const', HS, mult_INR. ring. }
  assert (RC : 0 <= INR (rows * cols) * floor_size f <= 1).
  { split; [apply Rmult_le_pos; [apply pos_INR|lra]|]. rewrite mult_INR. apply Rle_trans with (bpow radix2 (precf f) * bpow radix2 (precf f) * floor_size f).
    - apply Rmult_le_compat_r; [lra|]. apply Rmult_le_compat; auto using pos_INR.
    - unfold floor_size. rewrite <- !bpow_plus. change 1 with (bpow radix2 0). apply bpow_le. clear. destruct f; cbn; lia. }
  set (Q := S + INR (rows * cols) * floor_size f) in *. assert (Q0 : 0 <= Q) by (unfold Q; lra).
  assert (R2 : forall k, (k < cols)%nat -> let y := fft_fresh (F := ieee o) c (line (F := ieee o) k cols rows d1) in finite_signal y /\ length y = rows /\
    forall i, (i < rows)%nat -> Cabs (at_ (values y) i -c csum rows (fun j => csum cols (fun m => X j m *c W cols (m * k)) *c W rows (j * i))) <= (unit_err f rows * (1 + unit_err f cols) + unit_err f cols) * Q).
  { intros k Hk y. assert (HX : rsum rows (fun j => Cabs (csum cols (fun m => X j m *c W cols (m * k)))) <= S).
    { rewrite <- HS. apply rsum_le'. intros j Hj. apply csum_abs. intros m. apply Cabs_W. }
    pose proof (@rsum_pos rows (fun j => Cabs (csum cols (fun m => X j m *c W cols (m * k)))) (fun _ _ => Cabs_nonneg _)) as HX0.
    assert (HE1 : rsum rows e <= Q) by (rewrite HE; assert (unit_err f cols * Q <= 1 * Q) by (apply Rmult_le_compat_r; lra); lra).
    destruct (@line_ieee f o c rows (fun j => csum cols (fun m => X j m *c W cols (m * k))) e k cols d1 HT Hc F1 Or) as (A1 & A2 & A3).
    - intros j Hj. rewrite L1, Hx. nia.
    - intros j Hj. apply E1; assumption.
    - rewrite P4. unfold Q in HE1. lra.
    - split; [exact A2|]. split; [exact A1|]. intros i Hi. eapply Rle_trans; [apply A3; exact Hi|]. rewrite HE.
      assert (INR rows * floor_size f <= INR (rows * cols) * floor_size f) by (apply Rmult_le_compat_r; [lra|]; apply le_INR; nia).
      assert (unit_err f rows * (rsum rows (fun j => Cabs (csum cols (fun m => X j m *c W cols (m * k)))) + unit_err f cols * Q + INR rows * floor_size f) <= unit_err f rows * (Q + unit_err f cols * Q))
        by (apply Rmult_le_compat_l; [lra|]; unfold Q in *; lra). lra. }
  assert (F2 : finite_signal d2).
  { intros z Hz. destruct (In_nth _ _ (czero (F := ieee o)) Hz) as (i & Hi & <-). rewrite L2, L1, Hx in Hi.
    assert (Hm : (i mod cols < cols)%nat) by (apply Nat.mod_upper_bound; lia). assert (Hd : (i / cols < rows)%nat) by (apply Nat.div_lt_upper_bound; lia).
    replace i with (i mod cols + i / cols * cols)%nat by (pose proof (Nat.div_mod_eq i cols); lia). rewrite B2 by assumption. destruct (R2 _ Hm) as (A1 & A2 & _). apply A1, nth_In. lia. }
  split; [exact F2|]. split; [unfold DFT2; rewrite tab_length, values_length; lia|]. unfold DFT2. rewrite tab_length. intros i Hi. rewrite at_tab by exact Hi.
  assert (Hm : (i mod cols < cols)%nat) by (apply Nat.mod_upper_bound; lia). assert (Hd : (i / cols < rows)%nat) by (apply Nat.div_lt_upper_bound; lia).
  replace i with (i mod cols + i / cols * cols)%nat at 1 by (pose proof (Nat.div_mod_eq i cols); lia).
  rewrite (values_nth o) by (pose proof (Nat.div_mod_eq i cols); lia). rewrite B2 by assumption. destruct (R2 _ Hm) as (_ & A2 & A3). rewrite <- (values_nth o) by lia. specialize (A3 _ Hd).
  assert (E3 : csum rows (fun j => csum cols (fun k => X j k *c W cols (k * (i mod cols))) *c W rows (j * (i / cols))) = dft2 rows cols (values x) (i / cols) (i mod cols)).
  { unfold dft2. apply csum_ext. intros r _. rewrite <- csum_scal_r. apply csum_ext. intros k _. unfold X. rewrite Nat.mul_1_r. ring. }
  rewrite E3 in A3. eapply Rle_trans; [exact A3|]. fold Q. apply Rmult_le_compat_r; [exact Q0|].
  assert (unit_err f rows * unit_err f cols <= (unit_err f rows + unit_err f cols) / 2) by nra.
  replace (23 * (INR rows * INR (Nat.log2 rows) + INR cols * INR (Nat.log2 cols)) * bpow radix2 (- precf f)) with (23 / 15 * (unit_err f rows + unit_err f cols)) by (unfold unit_err; field). lra.
Qed.
Print Assumptions C102_ieee_fft2d.
Theorem C102_ieee_fft3d : forall (f : fmt) (o : libm f) (c : cfg) depth rows cols (x tube row col : list (cx (num f))),
  accurate_trig o -> c_precomp c = false \/ accurate_tables o -> finite_signal x -> length x = (depth * rows * cols)%nat -> length tube = depth -> length row = rows -> length col = cols ->
  (32 <= depth)%nat -> (depth <= rows)%nat -> (rows <= cols)%nat -> is_pow2 depth = true -> is_pow2 rows = true -> is_pow2 cols = true ->
  15 * INR cols * INR (Nat.log2 cols) <= bpow radix2 (precf f) -> norm1 (values x) <= bpow radix2 (emaxf f - 5) ->
  exists p y s, fft3d_inplace (F := ieee o) c (new_planner (T := num f)) x depth rows cols tube row col = Done (p, y, s, ROk) /\ finite_signal y /\
    within (35 * (INR depth * INR (Nat.log2 depth) + INR rows * INR (Nat.log2 rows) + INR cols * INR (Nat.log2 cols)) * bpow radix2 (- precf f) *
        (norm1 (values x) + INR (depth * rows * cols) * floor_size f)) (values y) (DFT3 depth rows cols (values x)).
Proof.
  intros f o c depth rows cols x tube row col HT Hc Fx Hx Ht Hrow Hcol Hd32 Hdr Hrc Hpd Hpr Hpc Hb HN.
  assert (Oc : size_ok f cols) by (split; [lia|]; split; assumption).
  assert (Or : size_ok f rows) by (split; [lia|]; split; [assumption|]; eapply Rle_trans; [apply size_mono; exact Hrc|exact Hb]).
  assert (Od : size_ok f depth) by (split; [lia|]; split; [assumption|]; eapply Rle_trans; [apply size_mono; transitivity rows; [exact Hdr|exact Hrc]|exact Hb]).
  destruct (size_pow Od) as [Hd Hdb]. destruct (size_pow Or) as [Hr Hrb]. destruct (size_pow Oc) as [Hcp Hcb].
  pose proof (unit_range Od) as UD. pose proof (unit_range Or) as UR. pose proof (unit_range Oc) as UC. pose proof (fl_pos f) as FP.
  unfold fft3d_inplace. rewrite Hx, Nat.eqb_refl. cbn [negb].
  destruct (Nat.eqb_spec depth 0); [lia|]. destruct (Nat.eqb_spec rows 0); [lia|]. destruct (Nat.eqb_spec cols 0); [lia|]. cbn [orb].
  rewrite Ht, Hrow, Hcol, !Nat.eqb_refl. cbn [andb negb].
  assert (RA1 : right_after c depth rows) by (left; unfold padded; rewrite Hpr, Hpd; exact Hdr).
  assert (RA2 : right_after c rows cols) by (left; unfold padded; rewrite Hpr, Hpc; exact Hrc).
  assert (RA3 : right_after c depth cols) by (left; unfold padded; rewrite Hpd, Hpc; lia).
  destruct (@depth_phase _ (ieee o) c new_planner x tube depth rows cols) as (p1 & d1 & s1 & -> & LD1 & K1 & _); [apply fit_new|lia|lia|lia|tauto|exact Hx|exact Ht|]. cbn [bind].
  destruct (@plane_phase _ (ieee o) c p1 d1 row depth rows cols) as (p2 & d2 & s2 & -> & LD2 & K2 & _); [apply K1; [exact RA1|apply fit_new]|lia|lia|lia|tauto|destruct LD1; lia|exact Hrow|]. cbn [bind].
  destruct (@rows3_phase _ (ieee o) c p2 d2 depth rows cols) as (p3 & d3 & -> & LD3 & _); [apply K2; [exact RA2|]; apply K1; [exact RA3|apply fit_new]|lia|tauto|destruct LD1, LD2; lia|]. cbn [bind].
  assert (L1 : length d1 = (depth * rows * cols)%nat) by (destruct LD1; lia). assert (L2 : length d2 = (depth * rows * cols)%nat) by (destruct LD2; lia). assert (L3 : length d3 = (depth * rows * cols)%nat) by (destruct LD3; lia).
  exists p3, d3, (s1, s2, col). split; [reflexivity|].
  set (A := unit_err f depth) in *. set (B := unit_err f rows) in *. set (D := unit_err f cols) in *. set (S := norm1 (values x)) in *.
  assert (SP : 0 <= S) by apply norm1_pos.
  set (X0 := fun j d => at_ (values x) (j + d * (rows * cols))). set (S1 := fun j => rsum depth (fun d => Cabs (X0 j d))). set (S2 := fun k => rsum rows (fun r => S1 (r * cols + k)%nat)).
  assert (HS : rsum cols S2 = S).
  { unfold S2, S1, X0, S. rewrite (@rsum_ext cols _ (fun k => rsum depth (fun d' => rsum rows (fun r' => Cabs (at_ (values x) (r' * cols + k + d' * (rows * cols))))))) by (intros; apply rsum_swap).
    rewrite rsum_swap. unfold norm1. rewrite values_length, Hx, <- (rsum_grid (depth * rows) cols), <- (rsum_grid depth rows). apply rsum_ext. intros d' Hd'. rewrite rsum_swap.
    apply rsum_ext. intros r' Hr'. apply rsum_ext. intros k Hk. f_equal. f_equal. ring. }
  assert (S1p : forall j, 0 <= S1 j) by (intros j; apply rsum_pos; intros; apply Cabs_nonneg).
  assert (S2p : forall k, 0 <= S2 k) by (intros k; apply rsum_pos; intros; apply S1p).
  assert (S2S : forall k, (k < cols)%nat -> S2 k <= S) by (intros k Hk; rewrite <- HS; apply (@rsum_term cols S2 k); [intros; apply S2p|exact Hk]).
  assert (S1S : forall r k, (r < rows)%nat -> (k < cols)%nat -> S1 (r * cols + k)%nat <= S).
  { intros r k Hr' Hk. eapply Rle_trans; [|apply (S2S k Hk)]. apply (@rsum_term rows (fun r => S1 (r * cols + k)%nat) r); [intros; apply S1p|exact Hr']. }
  assert (P8 : bpow radix2 (emaxf f - 2) = 8 * bpow radix2 (emaxf f - 5)) by (replace (emaxf f - 2)%Z with (3 + (emaxf f - 5))%Z by lia; rewrite bpow_plus; reflexivity).
  assert (P1 : 1 <= bpow radix2 (emaxf f - 5)) by (change 1 with (bpow radix2 0); apply bpow_le; clear; destruct f; cbn; lia).
  set (fl3 := INR (depth * rows * cols) * floor_size f). set (fl2 := INR (depth * rows) * floor_size f). set (fl1 := INR depth * floor_size f).
  assert (N1 : 0 <= fl1) by (apply Rmult_le_pos; [apply pos_INR|lra]).
  assert (N2 : fl1 <= fl2) by (apply Rmult_le_compat_r; [lra|]; apply le_INR; nia).
  assert (N3 : fl2 <= fl3) by (apply Rmult_le_compat_r; [lra|]; apply le_INR; nia).
  assert (NR : INR rows * floor_size f <= fl2) by (apply Rmult_le_compat_r; [lra|]; apply le_INR; nia).
  assert (NC : INR cols * floor_size f <= fl3) by (apply Rmult_le_compat_r; [lra|]; apply le_INR; assert (1 <= depth * rows)%nat by nia; nia).
  assert (NB : fl3 <= 1).
  { unfold fl3. rewrite !mult_INR. apply Rle_trans with (bpow radix2 (precf f) * bpow radix2 (precf f) * bpow radix2 (precf f) * floor_size f).
    - apply Rmult_le_compat_r; [lra|]. apply Rmult_le_compat; auto using pos_INR; [apply Rmult_le_pos; apply pos_INR|]. apply Rmult_le_compat; auto using pos_INR.
    - unfold floor_size. rewrite <- !bpow_plus. change 1 with (bpow radix2 0). apply bpow_le. clear. destruct f; cbn; lia. }
  (* the tubes *)
  set (e1 := fun j => A * (S1 j + fl1)).
  destruct (@lines_ieee f o c (rows * cols) (fun j => j) (rows * cols) depth x d1 X0 (fun _ _ => 0) HT Hc Od Fx LD1) as [F1 Q1].
  { intros j i Hj Hi. rewrite Hx. nia. }
  { intros i Hi. rewrite Hx in Hi. exists (i mod (rows * cols))%nat, (i / (rows * cols))%nat. pose proof (Nat.div_mod_eq i (rows * cols)). assert (0 < rows * cols)%nat by nia.
    split; [apply Nat.mod_upper_bound; lia|]. split; [apply Nat.div_lt_upper_bound; lia|lia]. }
  { intros j i Hj Hi. unfold X0. match goal with |- Cabs (?z -c ?z) <= 0 => replace (z -c z) with C0 by ring end. rewrite Cabs_0. lra. }
  { intros j Hj. rewrite rsum_const', Rmult_0_r, Rplus_0_r. fold (S1 j). pose proof (Nat.div_mod_eq j cols) as E. rewrite E, (Nat.mul_comm cols).
    assert (S1 (j / cols * cols + j mod cols)%nat <= S) by (apply S1S; [apply Nat.div_lt_upper_bound; lia|apply Nat.mod_upper_bound; lia]). lra. }
  assert (Q1' : forall j i, (j < rows * cols)%nat -> (i < depth)%nat -> Cabs (at_ (values d1) (j + i * (rows * cols)) -c csum depth (fun m => X0 j m *c W depth (m * i))) <= e1 j).
  { intros j i Hj Hi. eapply Rle_trans; [apply Q1; assumption|]. rewrite rsum_const', Rmult_0_r, !Rplus_0_r. fold (S1 j). unfold e1, fl1. fold A. lra. }
  clear Q1. set (X1 := fun i j => csum depth (fun m => X0 j m *c W depth (m * i))) in *.
  assert (X1b : forall i j, Cabs (X1 i j) <= S1 j) by (intros i j; apply csum_abs; intros; apply Cabs_W).
  (* the columns of each plane *)
  set (c2 := B * (1 + A) + A). set (e2 := fun k => c2 * (S2 k + fl2)).
  assert (He1 : forall k, rsum rows (fun r => e1 (r * cols + k)%nat) = A * (S2 k + fl2)).
  { intros k. unfold e1. rewrite rsum_scal, rsum_plus, rsum_const'. unfold S2, fl2, fl1. rewrite mult_INR. ring. }
  assert (B0 : forall g, 0 <= g -> 0 <= A * g <= g) by (intros g Hg; split; [apply Rmult_le_pos; lra|]; assert (A * g <= 1 * g) by (apply Rmult_le_compat_r; lra); lra).
  destruct (@lines_ieee f o c (depth * cols) (plane_start rows cols) cols rows d1 d2 (fun j r => X1 (j / cols)%nat (r * cols + j mod cols)%nat) (fun j r => e1 (r * cols + j mod cols)%nat) HT Hc Or F1 LD2) as [F2 Q2].
  { intros j i Hj Hi. rewrite L1. unfold plane_start. assert (j mod cols < cols)%nat by (apply Nat.mod_upper_bound; lia). assert (j / cols < depth)%nat by (apply Nat.div_lt_upper_bound; lia).
    assert (i * cols + j mod cols < rows * cols)%nat by nia. assert (j / cols * (rows * cols) + rows * cols <= depth * (rows * cols))%nat by nia. lia. }
  { intros i Hi. rewrite L1 in Hi. set (q := (i / cols)%nat). assert (Hm : (i mod cols < cols)%nat) by (apply Nat.mod_upper_bound; lia). assert (Hq : (q < depth * rows)%nat) by (apply Nat.div_lt_upper_bound; lia).
    assert (Hqm : (q mod rows < rows)%nat) by (apply Nat.mod_upper_bound; lia). assert (Hqd : (q / rows < depth)%nat) by (apply Nat.div_lt_upper_bound; lia).
    exists (q / rows * cols + i mod cols)%nat, (q mod rows)%nat. split; [nia|]. split; [exact Hqm|]. unfold plane_start. destruct (divmod_pair (q / rows) Hm) as [-> ->].
    pose proof (Nat.div_mod_eq q rows). pose proof (Nat.div_mod_eq i cols) as E. fold q in E. nia. }
  { intros j r Hj Hr'. assert (j mod cols < cols)%nat by (apply Nat.mod_upper_bound; lia). assert (j / cols < depth)%nat by (apply Nat.div_lt_upper_bound; lia).
    replace (plane_start rows cols j + r * cols)%nat with (r * cols + j mod cols + j / cols * (rows * cols))%nat by (unfold plane_start; ring). apply Q1'; [nia|assumption]. }
  { intros j Hj. assert (Hm : (j mod cols < cols)%nat) by (apply Nat.mod_upper_bound; lia). rewrite He1.
    assert (rsum rows (fun r => Cabs (X1 (j / cols)%nat (r * cols + j mod cols)%nat)) <= S2 (j mod cols)%nat) by (apply rsum_le'; intros; apply X1b).
    specialize (S2S _ Hm). specialize (S2p (j mod cols)%nat). destruct (B0 (S2 (j mod cols)%nat + fl2)); lra. }
  set (X2 := fun i r0 k => csum rows (fun r => X1 i (r * cols + k)%nat *c W rows (r * r0))) in *.
  assert (X2b : forall i r0 k, Cabs (X2 i r0 k) <= S2 k).
  { intros i r0 k. eapply Rle_trans; [apply csum_abs; intros; apply Cabs_W|]. apply rsum_le'. intros; apply X1b. }
  assert (Q2' : forall i r0 k, (i < depth)%nat -> (r0 < rows)%nat -> (k < cols)%nat -> Cabs (at_ (values d2) ((i * rows + r0) * cols + k * 1) -c X2 i r0 k) <= e2 k).
  { intros i r0 k Hi Hr0 Hk. specialize (Q2 (i * cols + k)%nat r0 ltac:(nia) Hr0). cbv beta in Q2. unfold plane_start in Q2. destruct (divmod_pair i Hk) as [E1 E2]. rewrite E1, E2, He1 in Q2.
    replace (i * rows * cols + k + r0 * cols)%nat with ((i * rows + r0) * cols + k * 1)%nat in Q2 by ring. fold (X2 i r0 k) in Q2. eapply Rle_trans; [exact Q2|]. unfold e2, c2. fold B.
    assert (rsum rows (fun r => Cabs (X1 i (r * cols + k)%nat)) <= S2 k) by (apply rsum_le'; intros; apply X1b).
    assert (B * (rsum rows (fun r => Cabs (X1 i (r * cols + k)%nat)) + A * (S2 k + fl2) + INR rows * floor_size f) <= B * (S2 k + A * (S2 k + fl2) + fl2)) by (apply Rmult_le_compat_l; lra). lra. }
  clear Q2 Q1'.
  (* the rows *)
  assert (C20 : 0 <= c2 <= 3) by (unfold c2; nra).
  assert (He2 : rsum cols e2 = c2 * (S + fl3)).
  { unfold e2. rewrite rsum_scal, rsum_plus, rsum_const', HS. unfold fl3, fl2. rewrite !mult_INR. ring. }
  destruct (@lines_ieee f o c (depth * rows) (fun j => j * cols)%nat 1 cols d2 d3 (fun j k => X2 (j / rows)%nat (j mod rows)%nat k) (fun _ => e2) HT Hc Oc F2 LD3) as [F3 Q3].
  { intros j i Hj Hi. rewrite L2. nia. }
  { intros i Hi. rewrite L2 in Hi. exists (i / cols)%nat, (i mod cols)%nat. pose proof (Nat.div_mod_eq i cols). split; [apply Nat.div_lt_upper_bound; lia|]. split; [apply Nat.mod_upper_bound; lia|lia]. }
  { intros j k Hj Hk. pose proof (Nat.div_mod_eq j rows) as E. rewrite E at 1. rewrite (Nat.mul_comm rows). apply Q2'; [apply Nat.div_lt_upper_bound; lia|apply Nat.mod_upper_bound; lia|exact Hk]. }
  { intros j Hj. rewrite He2. assert (rsum cols (fun k => Cabs (X2 (j / rows)%nat (j mod rows)%nat k)) <= S) by (rewrite <- HS; apply rsum_le'; intros; apply X2b).
    assert (c2 * (S + fl3) <= 3 * (S + fl3)) by (apply Rmult_le_compat_r; lra). lra. }
  split; [exact F3|]. split; [unfold DFT3; rewrite tab_length, values_length; lia|]. unfold DFT3. rewrite tab_length. intros i Hi. rewrite at_tab by exact Hi.
  set (q := (i / cols)%nat). assert (Hm : (i mod cols < cols)%nat) by (apply Nat.mod_upper_bound; lia). assert (Hq : (q < depth * rows)%nat) by (apply Nat.div_lt_upper_bound; lia).
  specialize (Q3 q (i mod cols)%nat Hq Hm). cbv beta in Q3. replace (q * cols + i mod cols * 1)%nat with i in Q3 by (pose proof (Nat.div_mod_eq i cols); unfold q; lia). rewrite He2 in Q3.
  assert (E1 : csum cols (fun k => X2 (q / rows)%nat (q mod rows)%nat k *c W cols (k * (i mod cols))) = dft3 depth rows cols (values x) (q / rows) (q mod rows) (i mod cols)).
  { unfold dft3. rewrite (@csum_ext cols _ (fun k => csum depth (fun d' => csum rows (fun r' => at_ (values x) ((d' * rows + r') * cols + k) *c (W depth (d' * (q / rows)) *c (W rows (r' * (q mod rows)) *c W cols (k * (i mod cols)))))))).
    - rewrite csum_swap. apply csum_ext. intros d' Hd'. apply csum_swap.
    - intros k Hk. unfold X2. rewrite <- csum_scal_r, csum_swap. apply csum_ext. intros r' Hr'. unfold X1. rewrite <- !csum_scal_r. apply csum_ext. intros d' Hd'.
      unfold X0. replace (r' * cols + k + d' * (rows * cols))%nat with ((d' * rows + r') * cols + k)%nat by ring. ring. }
  rewrite E1 in Q3. eapply Rle_trans; [exact Q3|]. fold fl3. fold D.
  assert (rsum cols (fun k => Cabs (X2 (q / rows)%nat (q mod rows)%nat k)) <= S) by (rewrite <- HS; apply rsum_le'; intros; apply X2b).
  set (Q := S + fl3) in *. assert (Q0 : 0 <= Q) by (unfold Q; lra).
  apply Rle_trans with ((D * (1 + c2) + c2) * Q).
  - assert (D * (rsum cols (fun k => Cabs (X2 (q / rows)%nat (q mod rows)%nat k)) + c2 * Q + INR cols * floor_size f) <= D * (Q + c2 * Q)) by (apply Rmult_le_compat_l; [lra|]; unfold Q in *; lra). lra.
  - apply Rmult_le_compat_r; [exact Q0|]. replace (35 * (INR depth * INR (Nat.log2 depth) + INR rows * INR (Nat.log2 rows) + INR cols * INR (Nat.log2 cols)) * bpow radix2 (- precf f)) with (35 / 15 * (A + B + D)) by (unfold A, B, D, unit_err; field).
    unfold c2. assert (A * B <= (A + B) / 2) by nra. assert (A * D <= (A + D) / 2) by nra. assert (D * B <= (D + B) / 2) by nra.
    assert (A * B * D <= A) by (assert (B * D <= 1) by nra; nra). assert (A * B * D <= B) by (assert (A * D <= 1) by nra; nra). assert (A * B * D <= D) by (assert (A * B <= 1) by nra; nra). lra.
Qed.
Print Assumptions C102_ieee_fft3d.
(* entries of modulus at most 1, an 8-bit picture scaled to [0, 1] for one: no overflow condition is left *)
Theorem C102_unit_range : forall (f : fmt) (o : libm f) (c : cfg) rows cols (x scratch : list (cx (num f))),
  accurate_trig o -> c_precomp c = false \/ accurate_tables o -> finite_signal x -> length x = (rows * cols)%nat -> length scratch = rows ->
  (32 <= cols)%nat -> (cols <= rows)%nat -> is_pow2 rows = true -> is_pow2 cols = true -> 15 * INR rows * INR (Nat.log2 rows) <= bpow radix2 (precf f) ->
  (forall z, In z (values x) -> Cabs z <= 1) ->
  exists p y s, fft2d_inplace (F := ieee o) c (new_planner (T := num f)) x rows cols scratch = Done (p, y, s, ROk) /\ finite_signal y /\
    within (24 * (INR rows * INR (Nat.log2 rows) + INR cols * INR (Nat.log2 cols)) * bpow radix2 (- precf f) * INR (rows * cols)) (values y) (DFT2 rows cols (values x)).
Proof.
  intros f o c rows cols x scratch HT Hc Fx Hx Hsc H1 H2 H3 H4 H5 HU.
  assert (Or : size_ok f rows) by (split; [lia|]; split; assumption). destruct (size_pow Or) as [Hr Hrb].
  assert (Hcb : INR cols <= bpow radix2 (precf f)) by (eapply Rle_trans; [apply le_INR; exact H2|exact Hrb]).
  assert (HN : norm1 (values x) <= INR (rows * cols)).
  { unfold norm1. rewrite values_length, Hx. rewrite <- (Rmult_1_r (INR (rows * cols))), <- rsum_const'. apply rsum_le'. intros i Hi. apply HU. apply nth_In. rewrite values_length. lia. }
  destruct (@C102_ieee_fft2d f o c rows cols x scratch HT Hc Fx Hx Hsc H1 H2 H3 H4 H5) as (p & y & s & E & Fy & Y).
  - eapply Rle_trans; [exact HN|]. rewrite mult_INR. apply Rle_trans with (bpow radix2 (precf f) * bpow radix2 (precf f)); [apply Rmult_le_compat; auto using pos_INR|].
    rewrite <- bpow_plus. apply bpow_le. clear. destruct f; cbn; lia.
  - exists p, y, s. split; [exact E|]. split; [exact Fy|]. eapply within_le; [exact Y|].
    assert (F1 : floor_size f <= / 23). { unfold floor_size. apply Rle_trans with (bpow radix2 (-5)); [apply bpow_le; clear; destruct f; cbn; lia|cbn; lra]. }
    set (Z := INR rows * INR (Nat.log2 rows) + INR cols * INR (Nat.log2 cols)). set (u := bpow radix2 (- precf f)). set (n := INR (rows * cols)) in *.
    assert (0 <= n) by apply pos_INR. assert (0 < u) by apply bpow_gt_0. assert (0 <= Z) by (unfold Z; apply Rplus_le_le_0_compat; apply Rmult_le_pos; apply pos_INR).
    apply Rle_trans with (23 * Z * u * (n + n * / 23)); [|right; field].
    apply Rmult_le_compat_l; [apply Rmult_le_pos; lra|]. assert (n * floor_size f <= n * / 23) by (apply Rmult_le_compat_l; lra). lra.
Qed.
Print Assumptions C102_unit_range.
(* a white 64 x 32 picture in f32 *)
Example C102_example : exists p y s, fft2d_inplace (F := ieee (exact_libm B32)) (cfg_std F32) (new_planner (T := num B32))
    (repeat (mkcx (norm B32 1 0) (fzero (Float := ieee (exact_libm B32)))) 2048) 64 32 (repeat (czero (F := ieee (exact_libm B32))) 64) = Done (p, y, s, ROk) /\ finite_signal y /\
  within (8 / 5) (values y) (DFT2 64 32 (values (repeat (mkcx (norm B32 1 0) (fzero (Float := ieee (exact_libm B32)))) 2048))).
Proof.
  destruct (one_ok (exact_libm B32)) as [F1 V1]. cbn [fone ieee] in F1, V1.
  set (z1 := mkcx (norm B32 1 0) (fzero (Float := ieee (exact_libm B32)))).
  assert (FS : finite_signal (repeat z1 2048)) by (intros z Hz; apply repeat_spec in Hz; subst z; split; [exact F1|reflexivity]).
  assert (Lx : length (repeat z1 2048) = 2048%nat) by apply repeat_length. assert (Ls : length (repeat (czero (F := ieee (exact_libm B32))) 64) = 64%nat) by apply repeat_length.
  assert (HU : forall z, In z (values (repeat z1 2048)) -> Cabs z <= 1).
  { intros z Hz. unfold values in Hz. apply in_map_iff in Hz. destruct Hz as (a & <- & Ha). apply repeat_spec in Ha. subst a. unfold val in V1. cbn [re im z1].
    apply Cabs_le; [lra|]. unfold Cnorm2. cbn [re im]. rewrite V1. replace (B2R (fzero (Float := ieee (exact_libm B32)))) with 0 by reflexivity. lra. }
  set (x := repeat z1 2048) in *. set (s0 := repeat (czero (F := ieee (exact_libm B32))) 64) in *. clearbody x s0.
  assert (E1 : INR 64 = 64) by (rewrite INR_IZR_INZ; reflexivity). assert (E2 : INR 32 = 32) by (rewrite INR_IZR_INZ; reflexivity).
  assert (E3 : INR (Nat.log2 64) = 6) by (change (Nat.log2 64) with 6%nat; rewrite INR_IZR_INZ; reflexivity). assert (E4 : INR (Nat.log2 32) = 5) by (change (Nat.log2 32) with 5%nat; rewrite INR_IZR_INZ; reflexivity).
  destruct (@C102_unit_range B32 (exact_libm B32) (cfg_std F32) 64 32 x s0 (C89_library B32) (or_intror (C89_tables B32)) FS) as (p & y & s & E & Fy & Y).
  - rewrite Lx. reflexivity.
  - exact Ls.
  - lia.
  - lia.
  - reflexivity.
  - reflexivity.
  - rewrite E1, E3. change (bpow radix2 (precf B32)) with 16777216. lra.
  - exact HU.
  - exists p, y, s. split; [exact E|]. split; [exact Fy|]. eapply within_le; [exact Y|]. rewrite mult_INR, E1, E2, E3, E4. change (bpow radix2 (- precf B32)) with (/ 16777216). lra.
Qed.
(* a block of 32 x 32 x 32 ones in f32 *)
Example C102_example3 : exists p y s, fft3d_inplace (F := ieee (exact_libm B32)) (cfg_std F32) (new_planner (T := num B32))
    (repeat (mkcx (norm B32 1 0) (fzero (Float := ieee (exact_libm B32)))) (32 * 32 * 32)) 32 32 32
    (repeat (czero (F := ieee (exact_libm B32))) 32) (repeat (czero (F := ieee (exact_libm B32))) 32) (repeat (czero (F := ieee (exact_libm B32))) 32) = Done (p, y, s, ROk) /\ finite_signal y /\
  within 33 (values y) (DFT3 32 32 32 (values (repeat (mkcx (norm B32 1 0) (fzero (Float := ieee (exact_libm B32)))) (32 * 32 * 32)))).
Proof.
  destruct (one_ok (exact_libm B32)) as [F1 V1]. cbn [fone ieee] in F1, V1.
  set (z1 := mkcx (norm B32 1 0) (fzero (Float := ieee (exact_libm B32)))).
  set (n := (32 * 32 * 32)%nat). assert (En : n = (32 * 32 * 32)%nat) by reflexivity. clearbody n.
  assert (FS : finite_signal (repeat z1 n)) by (intros z Hz; apply repeat_spec in Hz; subst z; split; [exact F1|reflexivity]).
  assert (Lx : length (repeat z1 n) = n) by apply repeat_length. assert (Ls : length (repeat (czero (F := ieee (exact_libm B32))) 32) = 32%nat) by apply repeat_length.
  assert (HU : forall z, In z (values (repeat z1 n)) -> Cabs z <= 1).
  { intros z Hz. unfold values in Hz. apply in_map_iff in Hz. destruct Hz as (a & <- & Ha). apply repeat_spec in Ha. subst a. unfold val in V1. cbn [re im z1].
    apply Cabs_le; [lra|]. unfold Cnorm2. cbn [re im]. rewrite V1. replace (B2R (fzero (Float := ieee (exact_libm B32)))) with 0 by reflexivity. lra. }
  set (x := repeat z1 n) in *. set (s0 := repeat (czero (F := ieee (exact_libm B32))) 32) in *. clearbody x s0.
  assert (E2 : INR 32 = 32) by (rewrite INR_IZR_INZ; reflexivity). assert (E4 : INR (Nat.log2 32) = 5) by (change (Nat.log2 32) with 5%nat; rewrite INR_IZR_INZ; reflexivity).
  assert (EN : INR n = 32768) by (rewrite En, !mult_INR, E2; lra).
  assert (HN : norm1 (values x) <= 32768).
  { unfold norm1. rewrite values_length, Lx. rewrite <- EN. rewrite <- (Rmult_1_r (INR n)), <- rsum_const'. apply rsum_le'. intros i Hi. apply HU. apply nth_In. rewrite values_length. lia. }
  destruct (@C102_ieee_fft3d B32 (exact_libm B32) (cfg_std F32) 32 32 32 x s0 s0 s0 (C89_library B32) (or_intror (C89_tables B32)) FS) as (p & y & s & E & Fy & Y);
    try reflexivity; try assumption; try lia.
  - rewrite E2, E4. change (bpow radix2 (precf B32)) with 16777216. lra.
  - eapply Rle_trans; [exact HN|]. change 32768 with (bpow radix2 15). apply bpow_le. cbn. lia.
  - exists p, y, s. split; [exact E|]. split; [exact Fy|]. eapply within_le; [exact Y|]. pose proof (norm1_pos (values x)). rewrite <- En, EN, E2, E4. change (bpow radix2 (- precf B32)) with (/ 16777216).
    pose proof (tiny_1 B32) as T. pose proof (tiny_pos B32). change (floor_size B32) with (tiny B32). lra.
Qed.

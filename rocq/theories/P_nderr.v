(* Property C87: rounding errors of the two- and three-dimensional transforms. *)
From Coq Require Import Reals Lra Lia ZArith ZifyBool ZifyNat.
From Flocq Require Import Core.
From Verif Require Import L_err L_flx L_nd P_fft P_err P_serr P_nd.
Set Implicit Arguments.
Open Scope R_scope.

(* the specification is DFT2 and DFT3 of P_nd.v, within and norm1 of P_err.v, accurate of P_serr.v *)
(* ---------- proofs ---------- *)
Section Lem.
Variables (G : Float R) (f : list C -> list C).
Lemma near_at q S x (xh : nat -> C) n : length x = n -> (forall i, (i < n)%nat -> near q (S i) (at_ x i) (xh i)) ->
  forall l, length l = n -> (forall i, (i < n)%nat -> at_ l i = xh i) -> near_list q S x l.
Proof. intros Hx H l Hl E. split; [congruence|]. intros i Hi. rewrite E by congruence. apply H. congruence. Qed.
(* one line: the exact entries X j, the computed ones in data *)
Lemma line_near q a r S n (X : nat -> C) start stride (data : list C) i : accurate n f DFT q a -> (i < n)%nat ->
  (forall j, (j < n)%nat -> (start + j * stride < length data)%nat) ->
  (forall j, (j < n)%nat -> near r (S j) (X j) (at_ data (start + j * stride))) ->
  near (r * q) (a * rsum n S) (csum n (fun j => X j *c W n (j * i))) (at_ (f (line (F := G) start stride n data)) i).
Proof.
  intros A Hi Hb H. assert (Ll : length (line (F := G) start stride n data) = n) by apply tab_length.
  destruct (A r S (tab n X) (line (F := G) start stride n data)) as [_ P].
  - apply tab_length.
  - exact Ll.
  - intros j Hj. rewrite at_tab by exact Hj. unfold at_, line. rewrite nth_tab by exact Hj.
    rewrite (nth_indep _ (czero (F := G)) C0) by (apply Hb; exact Hj). apply H. exact Hj.
  - specialize (P i Hi). unfold DFT in P. rewrite tab_length, at_tab in P by exact Hi.
    replace (csum n (fun j => X j *c W n (j * i))) with (dft n (at_ (tab n X)) i); [exact P|].
    unfold dft. apply csum_ext. intros j Hj. rewrite at_tab by exact Hj. reflexivity.
Qed.
Lemma nthc_C (l : list C) i : (i < length l)%nat -> nth i l (czero (F := G)) = at_ l i.
Proof. intros H. apply nth_indep. exact H. Qed.
Lemma acc_len n q a (z : list C) : accurate n f DFT q a -> length z = n -> length (f z) = n.
Proof.
  intros A Hz. destruct (A 1 (fun i => Cabs (at_ z i)) z z Hz Hz) as [L1 _]; [|exact L1]. intros i Hi. split; [lra|]. split; [apply Rle_refl|].
  replace (at_ z i -c at_ z i) with C0 by (unfold Csub, C0; f_equal; ring). rewrite Cabs_0. lra.
Qed.
End Lem.
Lemma rsum_grid rows cols g : rsum rows (fun r => rsum cols (fun k => g (r * cols + k)%nat)) = rsum (rows * cols) g.
Proof.
  induction rows as [|r IH]; [reflexivity|]. cbn [rsum]. rewrite IH. replace (S r * cols)%nat with (r * cols + cols)%nat by lia. rewrite rsum_split'. reflexivity.
Qed.
Lemma rsum_swap a b (f : nat -> nat -> R) : rsum a (fun i => rsum b (f i)) = rsum b (fun j => rsum a (fun i => f i j)).
Proof.
  induction a as [|a IH]; cbn [rsum]; [rewrite rsum_const'; ring|]. rewrite IH, <- rsum_add. reflexivity.
Qed.
Lemma near0 (z : C) : near 1 (Cabs z) z z.
Proof. apply near_refl. apply Rle_refl. Qed.

(* ---------- theorems ---------- *)
(* Fresh object, any shape covered by C42_fft2d, any arithmetic in which the line transforms are accurate *)
Theorem C87_fft2d_error : forall (G : Float R) (c : cfg) rows cols (x scratch : list C) q1 a1 q2 a2, (0 < rows)%nat -> (0 < cols)%nat -> right_after c cols rows ->
  c_std c = true \/ (is_pow2 rows = true /\ is_pow2 cols = true) -> length x = (rows * cols)%nat -> length scratch = rows ->
  accurate cols (fft_fresh (F := G) c) DFT q1 a1 -> accurate rows (fft_fresh (F := G) c) DFT q2 a2 ->
  exists p y s, fft2d_inplace (F := G) c new_planner x rows cols scratch = Done (p, y, s, ROk) /\
    within ((q1 * q2 - 1) * (a1 * a2 * norm1 x)) y (DFT2 rows cols x).
Proof.
  intros G c rows cols x scratch q1 a1 q2 a2 Hr Hc Hra Hs Hx Hsc A1 A2. unfold fft2d_inplace. rewrite Hx, Nat.eqb_refl. cbn [negb].
  destruct (Nat.eqb_spec rows 0); [lia|]. destruct (Nat.eqb_spec cols 0); [lia|]. cbn [orb]. rewrite Hsc, Nat.eqb_refl. cbn [negb].
  destruct (@rows_phase R G c new_planner x rows cols) as (p1 & d1 & -> & (L1 & B1 & _) & K1); [apply fit_new|exact Hc|tauto|lia|]. cbn [bind].
  destruct (@cols_phase R G c p1 d1 scratch rows cols) as (p2 & d2 & s2 & -> & (L2 & B2 & _) & _); [apply K1; [assumption|apply fit_new]|exact Hr|exact Hc|tauto|lia|exact Hsc|].
  exists p2, d2, s2. split; [reflexivity|]. split; [unfold DFT2; rewrite tab_length; lia|]. unfold DFT2. rewrite tab_length. intros i Hi. rewrite at_tab by exact Hi.
  assert (Hm : (i mod cols < cols)%nat) by (apply Nat.mod_upper_bound; lia). assert (Hd : (i / cols < rows)%nat) by (apply Nat.div_lt_upper_bound; lia).
  replace i with (i mod cols + i / cols * cols)%nat at 1 by (pose proof (Nat.div_mod_eq i cols); lia).
  rewrite <- (nthc_C G) by (pose proof (Nat.div_mod_eq i cols); lia). rewrite B2 by assumption. rewrite nthc_C by (rewrite (acc_len _ A2); [exact Hd|apply tab_length]).
  pose proof (@line_near G (fft_fresh (F := G) c) q2 a2 (1 * q1) (fun r => a1 * rsum cols (fun k => Cabs (at_ x (r * cols + k * 1)))) rows
    (fun r => csum cols (fun k => at_ x (r * cols + k * 1) *c W cols (k * (i mod cols)))) (i mod cols) cols d1 (i / cols) A2 Hd) as P.
  specialize (P ltac:(intros j Hj; rewrite L1, Hx; nia)).
  assert (H1 : forall j, (j < rows)%nat -> near (1 * q1) (a1 * rsum cols (fun k => Cabs (at_ x (j * cols + k * 1)))) (csum cols (fun k => at_ x (j * cols + k * 1) *c W cols (k * (i mod cols)))) (at_ d1 (i mod cols + j * cols))).
  { intros j Hj. replace (i mod cols + j * cols)%nat with (j * cols + i mod cols * 1)%nat by lia.
    rewrite <- (nthc_C G) by (rewrite L1, Hx; nia). rewrite B1 by assumption. rewrite nthc_C by (rewrite (acc_len _ A1); [exact Hm|apply tab_length]).
    apply line_near; [exact A1|exact Hm|intros k Hk; rewrite Hx; nia|]. intros k Hk. apply near0. }
  specialize (P H1). destruct P as (_ & _ & P).
  assert (E1 : csum rows (fun j => csum cols (fun k => at_ x (j * cols + k * 1) *c W cols (k * (i mod cols))) *c W rows (j * (i / cols))) = dft2 rows cols x (i / cols) (i mod cols)).
  { unfold dft2. apply csum_ext. intros r Hr'. rewrite <- csum_scal_r. apply csum_ext. intros k Hk. rewrite Nat.mul_1_r. ring. }
  assert (E2 : a2 * rsum rows (fun r => a1 * rsum cols (fun k => Cabs (at_ x (r * cols + k * 1)))) = a1 * a2 * norm1 x).
  { rewrite rsum_scal. unfold norm1. rewrite Hx. rewrite <- (rsum_grid rows cols (fun j => Cabs (at_ x j))).
    replace (rsum rows (fun r => rsum cols (fun k => Cabs (at_ x (r * cols + k * 1))))) with (rsum rows (fun r => rsum cols (fun k => Cabs (at_ x (r * cols + k))))); [ring|].
    apply rsum_ext. intros r _. apply rsum_ext. intros k _. rewrite Nat.mul_1_r. reflexivity. }
  rewrite E1, E2, Rmult_1_l in P. exact P.
Qed.
Print Assumptions C87_fft2d_error.
Theorem C87_fft3d_error : forall (G : Float R) (c : cfg) depth rows cols (x tube row col : list C) q1 a1 q2 a2 q3 a3, (0 < depth)%nat -> (0 < rows)%nat -> (0 < cols)%nat ->
  right_after c depth rows -> right_after c depth cols -> right_after c rows cols ->
  c_std c = true \/ (is_pow2 depth = true /\ is_pow2 rows = true /\ is_pow2 cols = true) ->
  length x = (depth * rows * cols)%nat -> length tube = depth -> length row = rows -> length col = cols ->
  accurate depth (fft_fresh (F := G) c) DFT q1 a1 -> accurate rows (fft_fresh (F := G) c) DFT q2 a2 -> accurate cols (fft_fresh (F := G) c) DFT q3 a3 ->
  exists p y s, fft3d_inplace (F := G) c new_planner x depth rows cols tube row col = Done (p, y, s, ROk) /\
    within ((q1 * q2 * q3 - 1) * (a1 * a2 * a3 * norm1 x)) y (DFT3 depth rows cols x).
Proof.
  intros G c depth rows cols x tube row col q1 a1 q2 a2 q3 a3 Hd Hr Hc R1 R2 R3 Hs Hx Ht Hrow Hcol A1 A2 A3. unfold fft3d_inplace. rewrite Hx, Nat.eqb_refl. cbn [negb].
  destruct (Nat.eqb_spec depth 0); [lia|]. destruct (Nat.eqb_spec rows 0); [lia|]. destruct (Nat.eqb_spec cols 0); [lia|]. cbn [orb].
  rewrite Ht, Hrow, Hcol, !Nat.eqb_refl. cbn [andb negb].
  destruct (@depth_phase R G c new_planner x tube depth rows cols) as (p1 & d1 & s1 & -> & (L1 & B1 & _) & K1 & _); auto using fit_new; [tauto|]. cbn [bind].
  destruct (@plane_phase R G c p1 d1 row depth rows cols) as (p2 & d2 & s2 & -> & (L2 & B2 & _) & K2 & _); auto using fit_new; [tauto|lia|]. cbn [bind].
  destruct (@rows3_phase R G c p2 d2 depth rows cols) as (p3 & d3 & -> & (L3 & B3 & _) & _); auto using fit_new; [tauto|lia|]. cbn [bind].
  exists p3, d3, (s1, s2, col). split; [reflexivity|]. split; [unfold DFT3; rewrite tab_length; lia|]. unfold DFT3. rewrite tab_length. intros i Hi. rewrite at_tab by exact Hi.
  set (q := (i / cols)%nat). assert (Hm : (i mod cols < cols)%nat) by (apply Nat.mod_upper_bound; lia). assert (Hq : (q < depth * rows)%nat) by (apply Nat.div_lt_upper_bound; lia).
  assert (Hqm : (q mod rows < rows)%nat) by (apply Nat.mod_upper_bound; lia). assert (Hqd : (q / rows < depth)%nat) by (apply Nat.div_lt_upper_bound; lia).
  pose proof (Nat.div_mod_eq q rows) as Eq. pose proof (Nat.div_mod_eq i cols) as Ei. fold q in Ei.
  set (D := (q / rows)%nat) in *. set (r0 := (q mod rows)%nat) in *. set (k0 := (i mod cols)%nat) in *.
  set (ix := fun d' r' k => (r' * cols + k + d' * (rows * cols))%nat).
  assert (Hix : forall d' r' k, (d' < depth)%nat -> (r' < rows)%nat -> (k < cols)%nat -> (ix d' r' k < depth * rows * cols)%nat).
  { intros d' r' k H1 H2 H3. unfold ix. assert (r' * cols + k < rows * cols)%nat by nia. assert (d' * (rows * cols) + rows * cols <= depth * (rows * cols))%nat by nia. lia. }
  set (X1 := fun r' k => csum depth (fun d' => at_ x (ix d' r' k) *c W depth (d' * D))).
  set (S1 := fun r' k => a1 * rsum depth (fun d' => Cabs (at_ x (ix d' r' k)))).
  assert (N1 : forall r' k, (r' < rows)%nat -> (k < cols)%nat -> near (1 * q1) (S1 r' k) (X1 r' k) (at_ d1 (ix D r' k))).
  { intros r' k Hr' Hk. rewrite <- (nthc_C G) by (rewrite L1, Hx; apply Hix; assumption). unfold ix. rewrite B1 by (try assumption; nia).
    rewrite nthc_C by (rewrite (acc_len _ A1); [exact Hqd|apply tab_length]).
    apply (@line_near G _ q1 a1 1 (fun d' => Cabs (at_ x (ix d' r' k))) depth (fun d' => at_ x (ix d' r' k)) (r' * cols + k) (rows * cols) x D A1 Hqd).
    - intros d' Hd'. rewrite Hx. apply Hix; assumption.
    - intros d' Hd'. apply near0. }
  set (X2 := fun k => csum rows (fun r' => X1 r' k *c W rows (r' * r0))). set (S2 := fun k => a2 * rsum rows (fun r' => S1 r' k)).
  assert (N2 : forall k, (k < cols)%nat -> near (1 * q1 * q2) (S2 k) (X2 k) (at_ d2 (q * cols + k * 1))).
  { intros k Hk. assert (Est : (q * cols + k * 1 = plane_start rows cols (D * cols + k) + r0 * cols)%nat).
    { unfold plane_start. destruct (divmod_pair D Hk) as [-> ->]. rewrite Eq at 1. ring. }
    rewrite Est. rewrite <- (nthc_C G) by (rewrite <- Est, L2, L1, Hx; nia). rewrite B2 by (try assumption; nia).
    rewrite nthc_C by (rewrite (acc_len _ A2); [exact Hqm|apply tab_length]).
    assert (Est2 : forall r', (plane_start rows cols (D * cols + k) + r' * cols = ix D r' k)%nat).
    { intros r'. unfold plane_start, ix. destruct (divmod_pair D Hk) as [-> ->]. ring. }
    apply (@line_near G _ q2 a2 (1 * q1) (fun r' => S1 r' k) rows (fun r' => X1 r' k) (plane_start rows cols (D * cols + k)) cols d1 r0 A2 Hqm).
    - intros r' Hr'. rewrite Est2, L1, Hx. apply Hix; assumption.
    - intros r' Hr'. rewrite Est2. apply N1; assumption. }
  replace i with (q * cols + k0 * 1)%nat at 1 by lia. rewrite <- (nthc_C G) by (rewrite L3, L2, L1, Hx; lia). rewrite B3 by assumption.
  rewrite nthc_C by (rewrite (acc_len _ A3); [exact Hm|apply tab_length]).
  pose proof (@line_near G _ q3 a3 (1 * q1 * q2) S2 cols X2 (q * cols) 1 d2 k0 A3 Hm ltac:(intros k Hk; rewrite L2, L1, Hx; nia) N2) as (_ & _ & P).
  assert (E1 : csum cols (fun k => X2 k *c W cols (k * k0)) = dft3 depth rows cols x D r0 k0).
  { unfold dft3. rewrite (@csum_ext cols _ (fun k => csum depth (fun d' => csum rows (fun r' => at_ x ((d' * rows + r') * cols + k) *c (W depth (d' * D) *c (W rows (r' * r0) *c W cols (k * k0))))))).
    - rewrite csum_swap. apply csum_ext. intros d' Hd'. apply csum_swap.
    - intros k Hk. unfold X2. rewrite <- csum_scal_r, csum_swap. apply csum_ext. intros r' Hr'. unfold X1. rewrite <- !csum_scal_r. apply csum_ext. intros d' Hd'.
      unfold ix. replace (r' * cols + k + d' * (rows * cols))%nat with ((d' * rows + r') * cols + k)%nat by ring. ring. }
  assert (E2 : a3 * rsum cols S2 = a1 * a2 * a3 * norm1 x).
  { unfold S2, S1. rewrite rsum_scal. rewrite (@rsum_ext cols _ (fun k => a1 * rsum rows (fun r' => rsum depth (fun d' => Cabs (at_ x (ix d' r' k)))))) by (intros; apply rsum_scal).
    rewrite rsum_scal. enough (EE : rsum cols (fun k => rsum rows (fun r' => rsum depth (fun d' => Cabs (at_ x (ix d' r' k))))) = norm1 x) by (rewrite EE; ring).
    rewrite (@rsum_ext cols _ (fun k => rsum depth (fun d' => rsum rows (fun r' => Cabs (at_ x (ix d' r' k)))))) by (intros; apply rsum_swap).
    rewrite rsum_swap. unfold norm1. rewrite Hx, <- (rsum_grid (depth * rows) cols), <- (rsum_grid depth rows). apply rsum_ext. intros d' Hd'. rewrite rsum_swap.
    apply rsum_ext. intros r' Hr'. apply rsum_ext. intros k Hk. unfold ix. f_equal. f_equal. ring. }
  rewrite E1, E2, Rmult_1_l in P. exact P.
Qed.
Print Assumptions C87_fft3d_error.

(* binary floating point, power-of-two shapes from 32 up, square or larger columns first (right_after) *)
Lemma acc_flx (prec : Z) (c : cfg) n : (24 <= prec)%Z -> c_precomp c = false \/ prec = 24%Z \/ prec = 53%Z -> (32 <= n)%nat -> is_pow2 n = true ->
  11 * INR n * INR (Nat.log2 n) <= bpow radix2 prec ->
  exists q, 1 <= q <= 1 + 10.8 * INR n * INR (Nat.log2 n) * uu prec /\ accurate n (fft_fresh (F := flx prec) c) DFT q 1.
Proof.
  intros Hprec Hc Hn Hp Hb. pose proof (uu_pos prec) as Hv. assert (Hd : 0 <= dd prec n) by (pose proof (nR Hn); unfold dd; nra).
  exists (bfly (uu prec) (dd prec n) ^ Nat.log2 n). split; [split|].
  - apply pow_R1_Rle. apply (@QQ_ge1 (flx prec) _ (flx_rounded Hprec) _ Hd).
  - apply flx_bfly; try assumption. unfold uu. rewrite bpow_opp. pose proof (bpow_gt_0 radix2 prec).
    apply Rmult_le_reg_r with (bpow radix2 prec); [assumption|]. rewrite Rmult_assoc, Rinv_l by lra. lra.
  - apply acc_fft; [apply flx_rounded; exact Hprec|exact Hd|exact Hp|intros H; lia|apply flx_tw; assumption].
Qed.
Theorem C87_float_fft2d_error : forall (prec : Z) (c : cfg) rows cols (x scratch : list C), (24 <= prec)%Z -> c_precomp c = false \/ prec = 24%Z \/ prec = 53%Z ->
  (32 <= rows)%nat -> (32 <= cols)%nat -> is_pow2 rows = true -> is_pow2 cols = true -> right_after c cols rows ->
  200 * (INR rows * INR (Nat.log2 rows) + INR cols * INR (Nat.log2 cols)) <= bpow radix2 prec -> length x = (rows * cols)%nat -> length scratch = rows ->
  exists p y s, fft2d_inplace (F := flx prec) c new_planner x rows cols scratch = Done (p, y, s, ROk) /\
    within (11 * (INR rows * INR (Nat.log2 rows) + INR cols * INR (Nat.log2 cols)) * bpow radix2 (- prec) * norm1 x) y (DFT2 rows cols x).
Proof.
  intros prec c rows cols x scratch Hprec Hc Hr Hk Pr Pk Hra Hb Hx Hs. pose proof (nR Hr). pose proof (nR Hk). pose proof (log5 Hr). pose proof (log5 Hk). pose proof (uu_pos prec) as Hv.
  assert (HB : 200 * (INR rows * INR (Nat.log2 rows) + INR cols * INR (Nat.log2 cols)) * uu prec <= 1).
  { unfold uu. rewrite bpow_opp. pose proof (bpow_gt_0 radix2 prec).
    apply Rmult_le_reg_r with (bpow radix2 prec); [assumption|]. rewrite Rmult_assoc, Rinv_l by lra. lra. }
  destruct (@acc_flx prec c cols Hprec Hc Hk Pk ltac:(nra)) as (q1 & U1 & A1). destruct (@acc_flx prec c rows Hprec Hc Hr Pr ltac:(nra)) as (q2 & U2 & A2).
  destruct (@C87_fft2d_error (flx prec) c rows cols x scratch q1 1 q2 1) as (p & y & s & E & N); try assumption; try lia.
  { right. split; assumption. }
  exists p, y, s. split; [exact E|]. destruct N as [N1 N2]. split; [exact N1|]. intros k Hk'. eapply Rle_trans; [apply N2; exact Hk'|]. rewrite !Rmult_1_l.
  apply Rmult_le_compat_r; [unfold norm1; apply rsum_pos; intros; apply Cabs_nonneg|]. fold (uu prec).
  set (v := uu prec) in *. 
  replace (10.8 * INR cols * INR (Nat.log2 cols) * v) with (10.8 * (INR cols * INR (Nat.log2 cols) * v)) in U1 by ring.
  replace (10.8 * INR rows * INR (Nat.log2 rows) * v) with (10.8 * (INR rows * INR (Nat.log2 rows) * v)) in U2 by ring.
  replace (200 * (INR rows * INR (Nat.log2 rows) + INR cols * INR (Nat.log2 cols)) * v) with (200 * (INR rows * INR (Nat.log2 rows) * v + INR cols * INR (Nat.log2 cols) * v)) in HB by ring.
  replace (11 * (INR rows * INR (Nat.log2 rows) + INR cols * INR (Nat.log2 cols)) * v) with (11 * (INR rows * INR (Nat.log2 rows) * v + INR cols * INR (Nat.log2 cols) * v)) by ring.
  assert (Hs0 : 0 <= INR cols * INR (Nat.log2 cols) * v) by (apply Rmult_le_pos; [nra|lra]). assert (Ht0 : 0 <= INR rows * INR (Nat.log2 rows) * v) by (apply Rmult_le_pos; [nra|lra]).
  set (s' := INR cols * INR (Nat.log2 cols) * v) in *. set (t := INR rows * INR (Nat.log2 rows) * v) in *.
  apply Rle_trans with ((1 + 10.8 * s') * (1 + 10.8 * t) - 1); [apply Rplus_le_compat_r; apply Rmult_le_compat; lra|].
  assert (s' + t <= / 200) by lra. assert (s' * t <= / 800 * (s' + t)); [|lra].
  assert (4 * (s' * t) <= (s' + t) * (s' + t)) by (pose proof (Rle_0_sqr (s' - t)); unfold Rsqr in *; lra).
  assert ((s' + t) * (s' + t) <= / 200 * (s' + t)) by (apply Rmult_le_compat_r; lra). lra.
Qed.
Print Assumptions C87_float_fft2d_error.
(* f32, 256 x 256 *)
Example C87_f32_256 : forall (x scratch : list C), length x = (256 * 256)%nat -> length scratch = 256%nat ->
  exists p y s, fft2d_inplace (F := flx 24) (cfg_std F32) new_planner x 256 256 scratch = Done (p, y, s, ROk) /\ within (3 / 1000 * norm1 x) y (DFT2 256 256 x).
Proof.
  intros x scratch Hx Hs.
  assert (E1 : INR 256 = 256). { rewrite INR_IZR_INZ. reflexivity. }
  assert (E2 : INR (Nat.log2 256) = 8). { replace (Nat.log2 256) with 8%nat by reflexivity. rewrite INR_IZR_INZ. reflexivity. }
  assert (EB : bpow radix2 24 = 16777216) by reflexivity.
  destruct (@C87_float_fft2d_error 24 (cfg_std F32) 256 256 x scratch ltac:(lia) (or_intror (or_introl eq_refl))) as (p & y & s & E & N); try assumption; try lia; try reflexivity.
  - apply right_after_refl.
  - rewrite E1, E2, EB. lra.
  - exists p, y, s. split; [exact E|]. destruct N as [N1 N2]. split; [exact N1|]. intros k Hk. eapply Rle_trans; [apply N2; exact Hk|].
    apply Rmult_le_compat_r; [unfold norm1; apply rsum_pos; intros; apply Cabs_nonneg|]. rewrite E1, E2, bpow_opp, EB. lra.
Qed.

(* Properties C42-C43: multi-dimensional transforms. *)
From Coq Require Import ZArith ZifyBool ZifyNat Lra Reals.
From Verif Require Import L_nd.
Ltac Zify.zify_post_hook ::= Z.div_mod_to_equations.
Set Implicit Arguments.
Open Scope nat_scope.

(* ------------------------------------------------------------------ C42 *)
(* the separable transforms, element (r, k) at r * cols + k and (d, r, k) at
   (d * rows + r) * cols + k *)
Definition dft2 (rows cols : nat) (x : list C) (r k : nat) : C :=
  csum rows (fun r' => csum cols (fun k' => at_ x (r' * cols + k') *c (W rows (r' * r) *c W cols (k' * k)))).
Definition dft3 (depth rows cols : nat) (x : list C) (d r k : nat) : C :=
  csum depth (fun d' => csum rows (fun r' => csum cols (fun k' =>
    at_ x ((d' * rows + r') * cols + k') *c (W depth (d' * d) *c (W rows (r' * r) *c W cols (k' * k)))))).
Definition DFT2 rows cols x : list C := tab (rows * cols) (fun i => dft2 rows cols x (i / cols) (i mod cols)).
Definition DFT3 depth rows cols x : list C :=
  tab (depth * rows * cols) (fun i => dft3 depth rows cols x (i / cols / rows) (i / cols mod rows) (i mod cols)).

Lemma dft_line c start stride n (x : list C) i : i < n -> nth i (fft_fresh c (line start stride n x)) czero = csum n (fun j => at_ x (start + j * stride) *c W n (j * i)).
Proof.
  intros Hi. assert (Ll : length (line start stride n x) = n) by apply tab_length. rewrite fft_fresh_R by lia.
  unfold DFT. rewrite Ll. rewrite nth_tab by exact Hi. unfold dft. apply csum_ext. intros j Hj. f_equal. unfold at_, line. rewrite nth_tab by exact Hj. reflexivity.
Qed.
Lemma at_c (x : list C) i : at_ x i = nth i x czero.
Proof. reflexivity. Qed.
Lemma fft2d_R c (p : planner R) rows cols (x scratch : list C) : fit c rows p -> fit c cols p -> right_after c cols rows -> 0 < rows -> 0 < cols ->
  c_std c = true \/ (is_pow2 rows = true /\ is_pow2 cols = true) -> length x = rows * cols -> length scratch = rows ->
  exists p' s, fft2d_inplace c p x rows cols scratch = Done (p', DFT2 rows cols x, s, ROk).
Proof.
  intros Hfr Hfc Hra Hr Hc Hs Hx Hsc. unfold fft2d_inplace. rewrite Hx, Nat.eqb_refl. cbn [negb].
  destruct (Nat.eqb_spec rows 0); [lia|]. destruct (Nat.eqb_spec cols 0); [lia|]. cbn [orb]. rewrite Hsc, Nat.eqb_refl. cbn [negb].
  destruct (@rows_phase R RF c p x rows cols) as (p1 & d1 & -> & (L1 & A1 & _) & K1); [assumption|exact Hc|tauto|lia|]. cbn [bind].
  destruct (@cols_phase R RF c p1 d1 scratch rows cols) as (p2 & d2 & s2 & -> & (L2 & A2 & _) & _); [apply K1; assumption|exact Hr|exact Hc|tauto|lia|exact Hsc|].
  exists p2, s2. do 4 f_equal. apply list_at_ext; unfold DFT2; rewrite ?tab_length; [lia|]. intros i Hi. rewrite L2, L1, Hx in Hi. rewrite at_tab by exact Hi.
  assert (Hm : i mod cols < cols) by (apply Nat.mod_upper_bound; lia). assert (Hd : i / cols < rows) by (apply Nat.div_lt_upper_bound; lia).
  replace i with (i mod cols + i / cols * cols) at 1 by (pose proof (Nat.div_mod_eq i cols); lia).
  rewrite at_c, A2, dft_line by assumption. unfold dft2. apply csum_ext. intros r Hr'.
  replace (i mod cols + r * cols) with (r * cols + i mod cols * 1) by lia. rewrite at_c, A1, dft_line by assumption.
  rewrite <- csum_scal_r. apply csum_ext. intros k Hk. replace (r * cols + k * 1) with (r * cols + k) by lia. ring.
Qed.
(* a fresh object, any shape whose column transforms are not disturbed by the row
   transforms before them (right_after: see C42_fft2d_refuted for the others) *)
Theorem C42_fft2d : forall (c : cfg) rows cols (x scratch : list C), 0 < rows -> 0 < cols -> right_after c cols rows ->
  c_std c = true \/ (is_pow2 rows = true /\ is_pow2 cols = true) -> length x = rows * cols -> length scratch = rows ->
  exists p s, fft2d_inplace c new_planner x rows cols scratch = Done (p, DFT2 rows cols x, s, ROk).
Proof. intros c rows cols x scratch Hr Hc Hra Hs Hx Hsc. apply fft2d_R; auto using fit_new. Qed.
Print Assumptions C42_fft2d.
(* in particular square grids, and power-of-two grids with at most 16 rows *)
Theorem C42_fft2d_square : forall (c : cfg) n (x scratch : list C), 0 < n -> c_std c = true -> length x = n * n -> length scratch = n ->
  exists p s, fft2d_inplace c new_planner x n n scratch = Done (p, DFT2 n n x, s, ROk).
Proof. intros. apply C42_fft2d; auto. apply right_after_refl. Qed.
Print Assumptions C42_fft2d_square.
Theorem C42_fft3d : forall (c : cfg) depth rows cols (x tube row col : list C), 0 < depth -> 0 < rows -> 0 < cols ->
  right_after c depth rows -> right_after c depth cols -> right_after c rows cols ->
  c_std c = true \/ (is_pow2 depth = true /\ is_pow2 rows = true /\ is_pow2 cols = true) ->
  length x = depth * rows * cols -> length tube = depth -> length row = rows -> length col = cols ->
  exists p s, fft3d_inplace c new_planner x depth rows cols tube row col = Done (p, DFT3 depth rows cols x, s, ROk).
Proof.
  intros c depth rows cols x tube row col Hd Hr Hc R1 R2 R3 Hs Hx Ht Hrow Hcol. unfold fft3d_inplace. rewrite Hx, Nat.eqb_refl. cbn [negb].
  destruct (Nat.eqb_spec depth 0); [lia|]. destruct (Nat.eqb_spec rows 0); [lia|]. destruct (Nat.eqb_spec cols 0); [lia|]. cbn [orb].
  rewrite Ht, Hrow, Hcol, !Nat.eqb_refl. cbn [andb negb].
  destruct (@depth_phase R RF c new_planner x tube depth rows cols) as (p1 & d1 & s1 & -> & (L1 & A1 & _) & K1 & _); auto using fit_new; [tauto|]. cbn [bind].
  destruct (@plane_phase R RF c p1 d1 row depth rows cols) as (p2 & d2 & s2 & -> & (L2 & A2 & _) & K2 & _); auto using fit_new; [tauto|lia|]. cbn [bind].
  destruct (@rows3_phase R RF c p2 d2 depth rows cols) as (p3 & d3 & -> & (L3 & A3 & _) & _); auto using fit_new; [tauto|lia|]. cbn [bind].
  exists p3, (s1, s2, col). do 3 f_equal. f_equal. apply list_at_ext; unfold DFT3; rewrite ?tab_length; [lia|]. intros i Hi. rewrite L3, L2, L1, Hx in Hi. rewrite at_tab by exact Hi.
  set (q := i / cols). assert (Hm : i mod cols < cols) by (apply Nat.mod_upper_bound; lia). assert (Hq : q < depth * rows) by (apply Nat.div_lt_upper_bound; lia).
  assert (Hqm : q mod rows < rows) by (apply Nat.mod_upper_bound; lia). assert (Hqd : q / rows < depth) by (apply Nat.div_lt_upper_bound; lia).
  replace i with (q * cols + i mod cols * 1) at 1 by (pose proof (Nat.div_mod_eq i cols); unfold q; lia).
  rewrite at_c, A3, dft_line by assumption.
  rewrite (@csum_ext cols _ (fun k => csum depth (fun d' => csum rows (fun r' => at_ x ((d' * rows + r') * cols + k) *c (W depth (d' * (q / rows)) *c (W rows (r' * (q mod rows)) *c W cols (k * (i mod cols)))))))).
  - rewrite csum_swap. apply csum_ext. intros d' Hd'. apply csum_swap.
  - intros k Hk. assert (Est : q * cols + k * 1 = plane_start rows cols (q / rows * cols + k) + q mod rows * cols).
    { unfold plane_start. destruct (divmod_pair (q / rows) Hk) as [-> ->]. pose proof (Nat.div_mod_eq q rows) as Eq. rewrite Eq at 1. ring. }
    rewrite Est, at_c, A2, dft_line by (try assumption; nia). rewrite <- csum_scal_r, csum_swap. apply csum_ext. intros r' Hr'.
    assert (Est2 : plane_start rows cols (q / rows * cols + k) + r' * cols = (r' * cols + k) + q / rows * (rows * cols)).
    { unfold plane_start. destruct (divmod_pair (q / rows) Hk) as [-> ->]. ring. }
    rewrite Est2, at_c, A1, dft_line by (try assumption; nia). rewrite <- !csum_scal_r. apply csum_ext. intros d' Hd'.
    replace (r' * cols + k + d' * (rows * cols)) with ((d' * rows + r') * cols + k) by ring. ring.
Qed.
Print Assumptions C42_fft3d.
(* errors, any arithmetic: a wrong size is reported before anything is touched; an
   empty shape is accepted *)
Theorem C42_errors : forall (T : Type) (F : Float T) (c : cfg) (p : planner T) rows cols (x scratch : list (cx T)),
  (length x <> rows * cols \/ (0 < rows /\ 0 < cols /\ length scratch <> rows) ->
     fft2d_inplace c p x rows cols scratch = Done (p, x, scratch, RErr MismatchedLengths)) /\
  (length x = rows * cols -> rows = 0 \/ cols = 0 -> fft2d_inplace c p x rows cols scratch = Done (p, x, scratch, ROk)).
Proof.
  intros T F c p rows cols x scratch. unfold fft2d_inplace. split.
  - intros H. destruct (Nat.eqb_spec (rows * cols) (length x)); [|reflexivity]. cbn [negb]. destruct H as [H|(H1 & H2 & H3)]; [lia|].
    destruct (Nat.eqb_spec rows 0); [lia|]. destruct (Nat.eqb_spec cols 0); [lia|]. cbn [orb]. destruct (Nat.eqb_spec (length scratch) rows); [lia|reflexivity].
  - intros H1 H2. rewrite H1, Nat.eqb_refl. cbn [negb]. destruct (Nat.eqb_spec rows 0), (Nat.eqb_spec cols 0); try reflexivity. lia.
Qed.
Print Assumptions C42_errors.
Theorem C42_errors_3d : forall (T : Type) (F : Float T) (c : cfg) (p : planner T) depth rows cols (x tube row col : list (cx T)),
  (length x <> depth * rows * cols \/ (0 < depth /\ 0 < rows /\ 0 < cols /\ (length tube <> depth \/ length row <> rows \/ length col <> cols)) ->
     fft3d_inplace c p x depth rows cols tube row col = Done (p, x, (tube, row, col), RErr MismatchedLengths)) /\
  (length x = depth * rows * cols -> depth = 0 \/ rows = 0 \/ cols = 0 ->
     fft3d_inplace c p x depth rows cols tube row col = Done (p, x, (tube, row, col), ROk)).
Proof.
  intros T F c p depth rows cols x tube row col. unfold fft3d_inplace. split.
  - intros H. destruct (Nat.eqb_spec (depth * rows * cols) (length x)); [|reflexivity]. cbn [negb]. destruct H as [H|(H1 & H2 & H3 & H4)]; [lia|].
    destruct (Nat.eqb_spec depth 0); [lia|]. destruct (Nat.eqb_spec rows 0); [lia|]. destruct (Nat.eqb_spec cols 0); [lia|]. cbn [orb].
    destruct (Nat.eqb_spec (length tube) depth), (Nat.eqb_spec (length row) rows), (Nat.eqb_spec (length col) cols); try reflexivity. lia.
  - intros H1 H2. rewrite H1, Nat.eqb_refl. cbn [negb]. destruct (Nat.eqb_spec depth 0), (Nat.eqb_spec rows 0), (Nat.eqb_spec cols 0); try reflexivity. lia.
Qed.
Print Assumptions C42_errors_3d.
(* without std: any dimension that is not a power of two is reported, whatever the object holds and
   whichever pass meets it; with only powers of two nothing is *)
Lemma strided_slice_nostd {T} {F : Float T} (c : cfg) (p : planner T) data scratch start stride : c_std c = false -> is_pow2 (length scratch) = false ->
  0 < length scratch -> 0 < stride -> start + (length scratch - 1) * stride < length data ->
  exists d s, strided_slice c start stride (p, data, scratch) = Done (p, d, s, RErr NonPowerOfTwoNoStd).
Proof.
  intros Hs Hp H0 Hst Hl. unfold strided_slice, slice_from. assert (start < length data) by (pose proof (Nat.le_0_l ((length scratch - 1) * stride)); lia).
  destruct (Nat.leb_spec start (length data)); [|lia]. cbn [bind]. unfold fft_strided, strided. destruct (Nat.eqb_spec stride 0); [lia|].
  destruct (Nat.eqb_spec (length scratch) 0); [lia|]. rewrite skipn_length. destruct (Nat.ltb_spec (length data - start) ((length scratch - 1) * stride + 1)); [lia|].
  rewrite (@for_set _ (length scratch) (fun i => get (skipn start data) (i * stride)) (fun i => nth (i * stride) (skipn start data) czero)).
  - cbn [bind]. rewrite (@skipn_all2 _ (length scratch) scratch), app_nil_r by lia. rewrite fft_nostd; [|exact Hs|rewrite tab_length; exact H0|rewrite tab_length; exact Hp]. cbn [bind]. eauto.
  - lia.
  - intros i Hi. apply get_nth. rewrite skipn_length. assert (i * stride <= (length scratch - 1) * stride) by (apply Nat.mul_le_mono_r; lia). lia.
Qed.
Lemma fft_slice_nostd {T} {F : Float T} (c : cfg) (p : planner T) data start len : c_std c = false -> is_pow2 len = false -> 0 < len -> start + len <= length data ->
  exists d, fft_slice c start len (p, data) = Done (p, d, RErr NonPowerOfTwoNoStd).
Proof.
  intros Hs Hp H0 Hl. unfold fft_slice. destruct (Nat.leb_spec (start + len) (length data)); [|lia].
  assert (Ll : length (firstn len (skipn start data)) = len) by (rewrite firstn_length, skipn_length; lia).
  rewrite fft_nostd; [|exact Hs|rewrite Ll; exact H0|rewrite Ll; exact Hp]. cbn [bind]. eauto.
Qed.
Lemma fft_slice_any {T} {F : Float T} (c : cfg) (p : planner T) data start len : Inv c p -> is_pow2 len = true -> start + len <= length data ->
  exists p' d, fft_slice c start len (p, data) = Done (p', d, ROk) /\ Inv c p' /\ length d = length data.
Proof.
  intros HI Hp Hl. unfold fft_slice. destruct (Nat.leb_spec (start + len) (length data)); [|lia].
  assert (Ll : length (firstn len (skipn start data)) = len) by (rewrite firstn_length, skipn_length; lia).
  assert (0 < len) by (apply is_pow2_iff in Hp; destruct Hp as [L ->]; apply pow2_pos).
  destruct (@fft_ok T F c p (firstn len (skipn start data)) HI) as (p' & y & E & HI' & Hy & _); [lia|rewrite Ll; auto|].
  rewrite E. cbn [bind]. do 2 eexists. split; [reflexivity|]. split; [exact HI'|]. rewrite !app_length, firstn_length, skipn_length. lia.
Qed.
Theorem C42_nostd_2d : forall (T : Type) (F : Float T) (c : cfg) (p : planner T) rows cols (x scratch : list (cx T)),
  c_std c = false -> reachable c p -> 0 < rows -> 0 < cols -> length x = rows * cols -> length scratch = rows ->
  exists p' x' s', fft2d_inplace c p x rows cols scratch =
    Done (p', x', s', if is_pow2 rows && is_pow2 cols then ROk else RErr NonPowerOfTwoNoStd).
Proof.
  intros T F c p rows cols x scratch Hs Hp Hr Hc Hl Hsc. apply reachable_Inv in Hp. unfold fft2d_inplace. rewrite Hl, Nat.eqb_refl. cbn [negb].
  destruct (Nat.eqb_spec rows 0); [lia|]. destruct (Nat.eqb_spec cols 0); [lia|]. cbn [orb]. rewrite Hsc, Nat.eqb_refl. cbn [negb].
  destruct (is_pow2 cols) eqn:Ec.
  - destruct (@for_try_inv (planner T * list (cx T)) (fun _ '(q, d) => Inv c q /\ length d = length x) rows (fun r => fft_slice c (r * cols) cols) 0 (p, x)) as ([q d] & E & Hq & Hd).
    { auto. } { intros i [q d] Hi (Hq & Hd). destruct (@fft_slice_any T F c q d (i * cols) cols) as (q' & d' & E & H1 & H2); auto; [rewrite Hd, Hl; nia|]. exists (q', d'). split; [exact E|]. split; [exact H1|lia]. }
    rewrite E. cbn [bind]. rewrite andb_true_r. destruct (is_pow2 rows) eqn:Er.
    + destruct (@for_try_inv (planner T * list (cx T) * list (cx T)) (fun _ '(q, d, s) => Inv c q /\ length d = length x /\ length s = rows) cols (fun k => strided_slice c k cols) 0 (q, d, scratch)) as ([[q' d'] s'] & E' & _).
      { auto. } { intros k [[q2 d2] s2] Hk (H1 & H2 & H3). destruct (@strided_slice_any T F c q2 d2 s2 k cols rows) as (q' & d' & s' & y & q3 & E' & G1 & _ & [G2 _] & G3); auto; [rewrite H2, Hl; nia|]. exists (q', d', s'). split; [exact E'|]. split; [exact G1|]. split; [lia|exact G3]. }
      rewrite E'. eauto.
    + destruct cols as [|cols']; [lia|]. cbn [for_try]. destruct (@strided_slice_nostd T F c q d scratch 0 (S cols')) as (d' & s' & E'); auto; [rewrite Hsc; exact Er|lia|rewrite Hsc, Hd, Hl; nia|]. rewrite E'. cbn [bind]. eauto.
  - rewrite andb_false_r. destruct rows as [|rows']; [lia|]. cbn [for_try]. destruct (@fft_slice_nostd T F c p x (0 * cols) cols) as [d E]; auto; [rewrite Hl; nia|]. rewrite E. cbn [bind]. eauto.
Qed.
Print Assumptions C42_nostd_2d.
Theorem C42_nostd_3d : forall (T : Type) (F : Float T) (c : cfg) (p : planner T) depth rows cols (x tube row col : list (cx T)),
  c_std c = false -> reachable c p -> 0 < depth -> 0 < rows -> 0 < cols -> length x = depth * rows * cols ->
  length tube = depth -> length row = rows -> length col = cols ->
  exists p' x' s', fft3d_inplace c p x depth rows cols tube row col =
    Done (p', x', s', if is_pow2 depth && is_pow2 rows && is_pow2 cols then ROk else RErr NonPowerOfTwoNoStd).
Proof.
  intros T F c p depth rows cols x tube row col Hs Hp Hdp Hr Hc Hl Ht Hro Hco. apply reachable_Inv in Hp. unfold fft3d_inplace. rewrite Hl, Nat.eqb_refl. cbn [negb].
  destruct (Nat.eqb_spec depth 0); [lia|]. destruct (Nat.eqb_spec rows 0); [lia|]. destruct (Nat.eqb_spec cols 0); [lia|]. cbn [orb].
  rewrite Ht, Hro, Hco, !Nat.eqb_refl. cbn [andb negb]. destruct (is_pow2 depth) eqn:Ed.
  2:{ destruct rows as [|rows']; [lia|]. destruct cols as [|cols']; [lia|]. set (st := S rows' * S cols') in *. cbn [for_try].
      destruct (@strided_slice_nostd T F c p x tube (0 * S cols' + 0) st) as (d' & s' & E'); auto; [rewrite Ht; exact Ed|lia|unfold st; lia|rewrite Ht, Hl; unfold st; nia|].
      rewrite E'. cbn [bind]. cbn [andb]. eauto. }
  destruct (@for_try_nest (planner T * list (cx T) * list (cx T)) (fun _ '(q, d, s) => Inv c q /\ length d = length x /\ length s = depth) rows cols
    (fun r k => strided_slice c (r * cols + k) (rows * cols)) (p, x, tube)) as ([[p1 x1] s1] & E1 & I1 & L1 & M1).
  { auto. } { intros a b [[q2 d2] s2] Ha Hb (H1 & H2 & H3). assert (Hab : a * cols + b < rows * cols) by nia.
    destruct (@strided_slice_any T F c q2 d2 s2 (a * cols + b) (rows * cols) depth) as (q' & d' & s' & y & q3 & E' & G1 & _ & [G2 _] & G3); auto; [nia|rewrite H2, Hl; nia|].
    exists (q', d', s'). split; [exact E'|]. split; [exact G1|]. split; [lia|exact G3]. }
  rewrite E1. cbn [bind]. destruct (is_pow2 rows) eqn:Er.
  2:{ destruct depth as [|dp]; [lia|]. destruct cols as [|cols']; [lia|]. cbn [for_try].
      destruct (@strided_slice_nostd T F c p1 x1 row (0 * rows * S cols' + 0) (S cols')) as (d' & s' & E'); try (rewrite Hro); auto; try lia; try (rewrite L1, Hl; nia).
      rewrite E'. cbn [bind]. cbn [andb]. eauto. }
  destruct (@for_try_nest (planner T * list (cx T) * list (cx T)) (fun _ '(q, d, s) => Inv c q /\ length d = length x /\ length s = rows) depth cols
    (fun d k => strided_slice c (d * rows * cols + k) cols) (p1, x1, row)) as ([[p2 x2] s2] & E2 & I2 & L2 & M2).
  { auto. } { intros a b [[q2 d2] s2] Ha Hb (H1 & H2 & H3). assert (Hab : a * rows * cols + b + (rows - 1) * cols < depth * rows * cols).
    { assert (S a * (rows * cols) <= depth * (rows * cols)) by (apply Nat.mul_le_mono_r; lia). rewrite Nat.mul_sub_distr_r, <- !Nat.mul_assoc. assert (cols <= rows * cols) by nia. lia. }
    destruct (@strided_slice_any T F c q2 d2 s2 (a * rows * cols + b) cols rows) as (q' & d' & s' & y & q3 & E' & G1 & _ & [G2 _] & G3); auto; [rewrite H2, Hl; exact Hab|].
    exists (q', d', s'). split; [exact E'|]. split; [exact G1|]. split; [lia|exact G3]. }
  rewrite E2. cbn [bind andb]. destruct (is_pow2 cols) eqn:Ec.
  2:{ destruct depth as [|dp]; [lia|]. destruct rows as [|rows']; [lia|]. cbn [for_try].
      destruct (@fft_slice_nostd T F c p2 x2 (0 * S rows' * cols + 0 * cols) cols) as (d' & E'); auto; [rewrite L2, Hl; nia|]. rewrite E'. cbn [bind]. eauto. }
  destruct (@for_try_nest (planner T * list (cx T)) (fun _ '(q, d) => Inv c q /\ length d = length x) depth rows
    (fun d r => fft_slice c (d * rows * cols + r * cols) cols) (p2, x2)) as ([p3 x3] & E3 & I3 & L3).
  { auto. } { intros a b [q2 d2] Ha Hb (H1 & H2). assert (Hab : a * rows * cols + b * cols + cols <= depth * rows * cols).
    { assert (S a * (rows * cols) <= depth * (rows * cols)) by (apply Nat.mul_le_mono_r; lia). assert (S b * cols <= rows * cols) by (apply Nat.mul_le_mono_r; lia). rewrite <- !Nat.mul_assoc. lia. }
    destruct (@fft_slice_any T F c q2 d2 (a * rows * cols + b * cols) cols) as (q' & d' & E' & G1 & G2); auto; [rewrite H2, Hl; exact Hab|].
    exists (q', d'). split; [exact E'|]. split; [exact G1|lia]. }
  rewrite E3. cbn [bind]. eauto.
Qed.
Print Assumptions C42_nostd_3d.
Example C42_nostd_example : is_pow2 4 && is_pow2 3 && is_pow2 2 = false /\ is_pow2 4 && is_pow2 8 = true /\ reachable (T := R) (cfg_nostd F32) new_planner.
Proof. split; [reflexivity|]. split; [reflexivity|]. exists []. reflexivity. Qed.
Example C42_example : right_after (cfg_std F32) 8 100 /\ right_after (cfg_std F32) 1000 16 /\ right_after (cfg_std F64) 5 5 /\
  at_ (DFT2 2 2 [C1; RtoC 2; RtoC 3; RtoC 4]) 0 = RtoC 10.
Proof.
  split; [left; vm_compute; repeat constructor|]. split; [right; right; split; [reflexivity|left; lia]|]. split; [apply right_after_refl|].
  unfold DFT2. rewrite at_tab by lia. unfold dft2. change (0 / 2) with 0. change (0 mod 2) with 0. cbn [csum]. rewrite !Nat.mul_0_r, !W_0.
  cbn [at_ nth Nat.mul Nat.add]. apply C_eq; cbn; lra.
Qed.

(* false for 32 rows of 64: the first column is transformed together with what the
   last row transform left in the object *)
Definition bad2d : list C := zeros (31 * 64) ++ C1 :: zeros 63.
Lemma at_zeros n i : at_ (zeros n) i = C0.
Proof. unfold zeros, at_. destruct (Nat.lt_ge_cases i n); [|apply nth_overflow; rewrite repeat_length; assumption]. rewrite nth_repeat. reflexivity. Qed.
Lemma at_bad2d i : at_ bad2d i = if i =? 1984 then C1 else C0.
Proof.
  unfold bad2d, at_. assert (Lz : length (zeros (31 * 64)) = 1984) by (unfold zeros; apply repeat_length). destruct (Nat.lt_ge_cases i 1984) as [H|H].
  - rewrite app_nth1 by lia. fold (at_ (zeros (31 * 64)) i). rewrite at_zeros. destruct (Nat.eqb_spec i 1984); [lia|reflexivity].
  - rewrite app_nth2 by lia. rewrite Lz. destruct (Nat.eqb_spec i 1984) as [->|Hn]; [reflexivity|].
    replace (i - 1984) with (S (i - 1985)) by lia. cbn [nth]. apply at_zeros.
Qed.
Lemma bad2d_length : length bad2d = 32 * 64.
Proof. unfold bad2d, zeros. rewrite app_length, repeat_length. cbn [length]. rewrite repeat_length. reflexivity. Qed.
Theorem C42_fft2d_refuted : forall c : cfg, c_kind c <> OtherT ->
  exists rows cols (x scratch : list C), is_pow2 rows = true /\ is_pow2 cols = true /\ length x = rows * cols /\ length scratch = rows /\
    exists p y s, fft2d_inplace c new_planner x rows cols scratch = Done (p, y, s, ROk) /\ y <> DFT2 rows cols x.
Proof.
  intros c Hk. exists 32, 64, bad2d, (zeros 32). split; [reflexivity|]. split; [reflexivity|]. split; [exact bad2d_length|].
  assert (Lsc : length (zeros 32) = 32) by reflexivity. split; [exact Lsc|].
  unfold fft2d_inplace. rewrite bad2d_length, Nat.eqb_refl, Lsc, Nat.eqb_refl. cbn [negb]. change ((32 =? 0) || (64 =? 0)) with false. cbv iota.
  (* rows 0 .. 30 *)
  destruct (@rows_phase R RF c new_planner bad2d 31 64) as (p1 & d1 & E1 & (L1 & A1 & B1) & K1); [apply fit_new|lia|right; reflexivity|rewrite bad2d_length; lia|].
  change 32 with (31 + 1) at 1. rewrite (for_try_app _ 1 _ _ _ E1).
  assert (F1 : fit c 64 p1) by (apply K1; [apply right_after_refl|apply fit_new]).
  (* row 31 *)
  assert (Hrow : forall i, at_ d1 (1984 + i) = at_ bad2d (1984 + i)).
  { intros i. apply B1. intros j k Hj Hk2. lia. }
  assert (El : line 1984 1 64 d1 = C1 :: zeros 63).
  { apply list_at_ext; [reflexivity|]. intros i Hi. change (length (line 1984 1 64 d1)) with 64 in Hi. unfold line. rewrite at_tab by exact Hi.
    replace (1984 + i * 1) with (1984 + i) by lia. rewrite <- at_c, Hrow, at_bad2d. destruct i as [|i]; [reflexivity|].
    replace (1984 + S i =? 1984) with false by (symmetry; apply Nat.eqb_neq; lia). unfold at_. cbn [nth]. symmetry. apply at_zeros. }
  destruct (@fft_pow2_ok R RF c (fft_fuel c 5) p1 (C1 :: zeros 63) (proj1 F1)) as (p2 & E2 & HI2 & _ & _ & _ & Hsp); [reflexivity|].
  specialize (Hsp Hk ltac:(change (length (C1 :: zeros 63)) with 64; lia)). destruct Hsp as [Hre Him].
  assert (ES : split_after c p1 (C1 :: zeros 63) = ones 64).
  { unfold split_after. destruct F1 as [HI1 [[_ [Hbad|Hbad]]|[Hsm _]]]; [lia|contradiction|]. change (padded 64) with 64 in Hsm.
    change (length (C1 :: zeros 63)) with 64. rewrite skipn_nil_iff, app_nil_r.
    - rewrite stkp_R; [apply (dft_delta (n := 64)); lia|intros; apply cmul_plain_R|reflexivity].
    - unfold zipc. rewrite zip_with_length. lia. }
  rewrite ES in Hre, Him.
  destruct (@fft_slice_line R RF c p1 d1 1984 64) as (p2' & d2 & E2' & (L2 & A2 & B2) & _); [exact F1|lia|right; reflexivity|rewrite L1, bad2d_length; lia|].
  rewrite Nat.add_0_l. rewrite (for_try_one 31 (fun r => fft_slice c (r * 64) 64) _ E2'). cbn [bind].
  assert (p2' = p2).
  { revert E2'. unfold fft_slice. destruct (Nat.leb_spec (1984 + 64) (length d1)); [|intros; discriminate].
    assert (Ef : firstn 64 (skipn 1984 d1) = C1 :: zeros 63).
    { rewrite <- El. apply list_at_ext; [rewrite firstn_length, skipn_length; unfold line; rewrite tab_length; lia|]. intros i Hi.
      rewrite firstn_length in Hi. unfold at_. rewrite nth_firstn by lia. unfold line. rewrite nth_tab by lia. rewrite nth_skipn. f_equal. lia. }
    rewrite Ef. unfold fft, FUEL. change (fft_fuel c 6) with (fft_body c (fft_fuel c 5)). rewrite E2. cbn [bind]. intros H0. injection H0 as H0 _. symmetry. exact H0. }
  subst p2'.
  (* column 0 *)
  assert (Ld2 : length d2 = 2048) by (rewrite L2, L1; exact bad2d_length).
  destruct (@strided_slice_any R RF c p2 d2 (zeros 32) 0 64 32) as (p3 & d3 & s3 & y3 & q3 & E3 & HI3 & Ey & (L3 & A3 & B3) & Ls3); [exact HI2|lia|right; reflexivity|exact Lsc|lia|rewrite Ld2; lia|].
  assert (Hd2 : forall r, r < 32 -> at_ d2 (r * 64) = if r =? 31 then C1 else C0).
  { intros r Hr. destruct (Nat.eqb_spec r 31) as [->|Hne].
    - replace (31 * 64) with (1984 + 0 * 1) by lia. rewrite at_c, A2 by lia. rewrite El. rewrite fft_fresh_R by (cbn [length]; lia). change (zeros 63) with (zeros (64 - 1)). rewrite dft_delta by lia. reflexivity.
    - rewrite at_c, B2 by (intros; lia). replace (r * 64) with (r * 64 + 0 * 1) by lia. rewrite A1, dft_line by lia. apply csum_0. intros j Hj.
      rewrite at_bad2d. destruct (Nat.eqb_spec (r * 64 + j * 1) 1984); [lia|]. ring. }
  assert (Hy : at_ y3 0 = RtoC 33).
  { set (col := line 0 64 32 d2) in *. assert (Lc : length col = 32) by apply tab_length.
    destruct (@fft_pow2_ok R RF c (fft_fuel c 5) p2 col HI2) as (q4 & E4 & _); [rewrite Lc; reflexivity|].
    unfold fft, FUEL in Ey. change (fft_fuel c 6) with (fft_body c (fft_fuel c 5)) in Ey. rewrite E4 in Ey. injection Ey as _ <-.
    assert (EO : pow2_out c (pl_sre p2) (pl_sim p2) col = firstn 32 (stkp c cmul_plain (col ++ ones 32))).
    { unfold pow2_out. rewrite Lc. change (32 <=? 16) with false. cbv iota. rewrite Hre, Him, zipc_parts. change (skipn 32 (ones 64)) with (ones 32).
      destruct (c_kind c); [reflexivity|reflexivity|congruence]. }
    assert (L64 : length (col ++ ones 32) = 64) by (rewrite app_length, Lc; reflexivity).
    rewrite EO, stkp_R; [|intros; apply cmul_plain_R|rewrite L64; reflexivity].
    unfold at_. rewrite nth_firstn by lia. unfold DFT. rewrite L64, nth_tab by lia. unfold dft. change 64 with (32 + 32) at 1. rewrite csum_app.
    rewrite (@csum_single 32 31).
    2:{ lia. }
    2:{ intros i Hi Hne. unfold at_. rewrite app_nth1 by lia. unfold col, line. rewrite nth_tab by lia. rewrite Nat.add_0_l, <- at_c, Hd2 by lia. destruct (Nat.eqb_spec i 31); [lia|ring]. }
    rewrite (@csum_ext 32 _ (fun _ => C1)).
    - rewrite csum_const. replace (INR 32) with 32%R by (rewrite INR_IZR_INZ; reflexivity). unfold at_. rewrite app_nth1 by lia. unfold col, line. rewrite nth_tab by lia.
      rewrite Nat.add_0_l. rewrite <- at_c. rewrite Hd2, Nat.mul_0_r, W_0 by lia. rewrite Nat.eqb_refl. apply C_eq; cbn; lra.
    - intros i Hi. rewrite Nat.mul_0_r, W_0. unfold at_. rewrite app_nth2 by lia. rewrite Lc. replace (32 + i - 32) with i by lia. fold (at_ (ones 32) i).
      unfold ones. rewrite at_repeat by exact Hi. ring. }
  assert (H33 : at_ d3 0 = RtoC 33) by (rewrite at_c; change 0 with (0 + 0 * 64) at 1; rewrite (A3 0) by lia; exact Hy).
  (* columns 1 .. 63 leave it alone *)
  destruct (@for_try_inv _ (fun k '(p', d, s) => Inv c p' /\ length d = 2048 /\ length s = 32 /\ at_ d 0 = RtoC 33) 63
     (fun k => strided_slice c k 64) 1 (p3, d3, s3)) as ([[p4 d4] s4] & E4 & _ & L4 & _ & H4).
  { split; [exact HI3|]. split; [lia|]. split; [exact Ls3|exact H33]. }
  { intros k [[q d] s] Hk2 (HIq & Lq & Lsq & Hq). destruct (@strided_slice_any R RF c q d s k 64 32) as (q' & d' & s' & y' & q'' & E & HI' & _ & (L' & _ & B') & Ls'); [exact HIq|lia|right; reflexivity|exact Lsq|lia|lia|].
    exists (q', d', s'). split; [exact E|]. split; [exact HI'|]. split; [lia|]. split; [exact Ls'|]. rewrite at_c, B' by (intros; lia). exact Hq. }
  exists p4, d4, s4. split.
  - assert (Es : for_try 1 0 (fun k => strided_slice c k 64) (p2, d2, zeros 32) = Done (p3, d3, s3, ROk)) by (cbn [for_try]; rewrite E3; reflexivity).
    apply (for_try_app 1 63) in Es. change (1 + 63) with 64 in Es. rewrite Es. exact E4.
  - intros Eq. rewrite Eq in H4. revert H4. unfold DFT2. rewrite at_tab by lia. unfold dft2. change (0 / 64) with 0. change (0 mod 64) with 0.
    rewrite (@csum_single 32 31); [rewrite (@csum_single 64 0)| |]; try lia.
    + rewrite at_bad2d, !Nat.mul_0_r, !W_0. change (31 * 64 + 0 =? 1984) with true. cbv iota. intros H4. apply (f_equal re) in H4. cbn in H4. lra.
    + intros i Hi Hne. rewrite at_bad2d. destruct (Nat.eqb_spec (31 * 64 + i) 1984); [lia|ring].
    + intros i Hi Hne. apply csum_0. intros j Hj. rewrite at_bad2d. destruct (Nat.eqb_spec (i * 64 + j) 1984); [lia|ring].
Qed.
Print Assumptions C42_fft2d_refuted.

(* ------------------------------------------------------------------ C43 *)
Theorem C43_flatten_2d : forall (T : Type) (F : Float T) (data : list (list (cx T))) cols, data <> [] ->
  (forall row, In row data -> length row = cols) ->
  exists flat, flatten_2d data = Ok (flat, length data, cols) /\ length flat = length data * cols /\
    forall r k, r < length data -> k < cols -> nth (r * cols + k) flat czero = nth k (nth r data []) czero.
Proof.
  intros T F data cols Hne Hall. destruct data as [|row0 rest] eqn:Ed; [congruence|]. unfold flatten_2d. rewrite <- Ed in *.
  assert (H0 : length row0 = cols) by (apply Hall; rewrite Ed; left; reflexivity). rewrite H0.
  assert (Hex : existsb (fun row => negb (length row =? cols)) data = false).
  { apply Bool.not_true_is_false. intros H. apply existsb_exists in H. destruct H as (row & Hin & Hb). rewrite (Hall _ Hin), Nat.eqb_refl in Hb. discriminate. }
  rewrite Hex. exists (concat data). split; [reflexivity|]. clear -Hall. induction data as [|row data IH]; [split; [reflexivity|cbn; lia]|].
  destruct IH as [L H]; [intros; apply Hall; right; assumption|]. assert (Lr : length row = cols) by (apply Hall; left; reflexivity).
  cbn [concat length]. split; [rewrite app_length; lia|]. intros [|r] k Hr Hk.
  - rewrite app_nth1 by lia. reflexivity.
  - rewrite app_nth2 by lia. rewrite Lr. replace (S r * cols + k - cols) with (r * cols + k) by lia. apply H; lia.
Qed.
Print Assumptions C43_flatten_2d.
Theorem C43_flatten_2d_ragged : forall (T : Type) (F : Float T) (data : list (list (cx T))),
  (flatten_2d [] = Ok (@nil (cx T), 0, 0)) /\
  (forall a b, In a data -> In b data -> length a <> length b -> flatten_2d data = Err MismatchedLengths).
Proof.
  intros T F data. split; [reflexivity|]. intros a b Ha Hb Hne. destruct data as [|row0 rest] eqn:Ed; [destruct Ha|]. unfold flatten_2d. rewrite <- Ed in *.
  replace (existsb _ data) with true; [reflexivity|]. symmetry. apply existsb_exists. destruct (Nat.eq_dec (length a) (length row0)) as [E|E].
  - exists b. split; [exact Hb|]. destruct (Nat.eqb_spec (length b) (length row0)); [congruence|reflexivity].
  - exists a. split; [exact Ha|]. destruct (Nat.eqb_spec (length a) (length row0)); [congruence|reflexivity].
Qed.
Print Assumptions C43_flatten_2d_ragged.
Theorem C43_flatten_3d : forall (T : Type) (F : Float T) (data : list (list (list (cx T)))) rows cols, data <> [] -> 0 < rows ->
  (forall plane, In plane data -> length plane = rows) -> (forall plane row, In plane data -> In row plane -> length row = cols) ->
  exists flat, flatten_3d data = Ok (flat, length data, rows, cols) /\ length flat = length data * rows * cols /\
    forall d r k, d < length data -> r < rows -> k < cols -> nth ((d * rows + r) * cols + k) flat czero = nth k (nth r (nth d data []) []) czero.
Proof.
  intros T F data rows cols Hne Hr Hp Hrow. destruct data as [|plane0 rest] eqn:Ed; [congruence|]. unfold flatten_3d. rewrite <- Ed in *.
  assert (L0 : length plane0 = rows) by (apply Hp; rewrite Ed; left; reflexivity). rewrite L0.
  destruct plane0 as [|row0 prest] eqn:Ep; [cbn in L0; lia|].
  assert (Lc : length row0 = cols) by (apply (Hrow plane0); [rewrite Ed, Ep; left; reflexivity|rewrite Ep; left; reflexivity]). rewrite Lc.
  assert (Hok : forallb (plane_ok rows cols) data = true).
  { apply forallb_forall. intros plane Hin. unfold plane_ok. rewrite (Hp _ Hin), Nat.eqb_refl. cbn [andb]. apply forallb_forall. intros row Hr2. rewrite (Hrow _ _ Hin Hr2). apply Nat.eqb_refl. }
  rewrite Hok. exists (concat (map (@concat (cx T)) data)). split; [reflexivity|]. clear -Hp Hrow Hr.
  induction data as [|plane data IH]; [split; [reflexivity|cbn; lia]|].
  destruct IH as [L H]; [intros; apply Hp; right; assumption|intros pl row H1 H2; apply (Hrow pl); [right; exact H1|exact H2]|].
  assert (Hpl : plane <> []) by (intros ->; specialize (Hp [] (or_introl eq_refl)); cbn in Hp; lia).
  destruct (@C43_flatten_2d T F plane cols Hpl) as (flat & Ef & Lf & Hf); [intros row Hin; apply (Hrow plane); [left; reflexivity|exact Hin]|].
  assert (flat = concat plane).
  { destruct plane; [congruence|]. unfold flatten_2d in Ef. destruct (existsb _ _); [discriminate|]. congruence. }
  subst flat. rewrite (Hp plane) in Lf by (left; reflexivity). rewrite (Hp plane) in Hf by (left; reflexivity).
  cbn [map concat length]. split; [rewrite app_length; lia|]. intros [|d] r k Hd Hr2 Hk.
  - rewrite app_nth1 by nia. apply Hf; assumption.
  - rewrite app_nth2 by nia. rewrite Lf. replace ((S d * rows + r) * cols + k - rows * cols) with ((d * rows + r) * cols + k) by nia. apply H; lia.
Qed.
Print Assumptions C43_flatten_3d.
Theorem C43_flatten_3d_ragged : forall (T : Type) (F : Float T) (data : list (list (list (cx T)))),
  (forall a b, In a data -> In b data -> length a <> length b -> flatten_3d data = Err MismatchedLengths) /\
  (forall a b r s, In a data -> In b data -> In r a -> In s b -> length r <> length s -> flatten_3d data = Err MismatchedLengths).
Proof.
  intros T F data.
  assert (G : forall flat n rows cols, flatten_3d data = Ok (flat, n, rows, cols) -> forall pl, In pl data -> length pl = rows /\ forall r, In r pl -> length r = cols).
  { intros flat n rows cols H pl Hin. destruct data as [|plane0 rest] eqn:Ed; [destruct Hin|]. unfold flatten_3d in H. rewrite <- Ed in *.
    destruct (forallb _ data) eqn:Ef; [|discriminate]. injection H as _ _ <- <-. rewrite forallb_forall in Ef. specialize (Ef pl Hin). unfold plane_ok in Ef.
    apply andb_true_iff in Ef. destruct Ef as [E1 E2]. apply Nat.eqb_eq in E1. split; [exact E1|]. intros r Hr. rewrite forallb_forall in E2. apply Nat.eqb_eq, E2, Hr. }
  assert (D : (exists flat n rows cols, flatten_3d data = Ok (flat, n, rows, cols)) \/ flatten_3d data = Err MismatchedLengths).
  { unfold flatten_3d. destruct data; [left; eauto|]. destruct (forallb _ _); [left; eauto 6|right; reflexivity]. }
  destruct D as [(flat & n & rows & cols & E)|E]; [|split; intros; exact E].
  split; intros; exfalso.
  - destruct (G _ _ _ _ E a) as [? _]; [assumption|]. destruct (G _ _ _ _ E b) as [? _]; [assumption|]. congruence.
  - destruct (G _ _ _ _ E a) as [_ Ga]; [assumption|]. destruct (G _ _ _ _ E b) as [_ Gb]; [assumption|]. specialize (Ga r ltac:(assumption)). specialize (Gb s ltac:(assumption)). congruence.
Qed.
Print Assumptions C43_flatten_3d_ragged.
Example C43_example : flatten_2d [[C1; C0]; [C0; C1]] = Ok ([C1; C0; C0; C1], 2, 2) /\ flatten_2d [[C1]; [C0; C1]] = Err MismatchedLengths /\
  flatten_3d [[[C1; C0]]; [[C0; C1]]] = Ok ([C1; C0; C0; C1], 2, 1, 2) /\ flatten_3d [[[C1; C0]; [C1]]] = Err MismatchedLengths.
Proof. repeat split. Qed.

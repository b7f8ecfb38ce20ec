(* Properties C39-C41: wavelets. *)
From Coq Require Import ZArith ZifyBool ZifyNat Lra Reals Qreals Qabs.
From Verif Require Import L_wave.
Ltac Zify.zify_post_hook ::= Z.div_mod_to_equations.
Set Implicit Arguments.
Open Scope nat_scope.

(* ------------------------------------------------------------------ C39 *)
Lemma l2_R : flit (Float := RF) 2 = 2%R.
Proof. cbn [flit RF RFloat_of]. unfold Q2R. cbn. lra. Qed.
Lemma even_half p : Nat.even p = true -> p = 2 * (p / 2).
Proof. intros H. apply Nat.even_spec in H. destruct H as [k Hk]. lia. Qed.
Lemma odd_half p : Nat.even p = false -> p = 2 * (p / 2) + 1.
Proof. intros H. assert (O : Nat.odd p = true) by (unfold Nat.odd; rewrite H; reflexivity). apply Nat.odd_spec in O. destruct O as [k Hk]. lia. Qed.
Theorem C39_haar_reconstructs : forall x : list R, exists avg diff out,
  haar_forward x = Done (avg, diff) /\ length avg = length x / 2 /\ length diff = length x / 2 /\
  haar_inverse avg diff = Done out /\ out = firstn (2 * (length x / 2)) x.
Proof.
  intros x. rewrite haar_forward_ok. do 3 eexists. split; [reflexivity|]. rewrite !tab_length. split; [reflexivity|]. split; [reflexivity|].
  rewrite haar_inverse_ok by (rewrite !tab_length; lia). split; [reflexivity|]. rewrite !tab_length.
  apply list_ext with (d := 0%R); rewrite ?tab_length, ?firstn_length; [lia|]. intros p Hp. rewrite nth_tab, nth_firstn by lia.
  unfold hmg. rewrite !nth_tab by lia. unfold hav, hdf. rewrite l2_R. cbn [fadd fsub fdiv fzero RF RFloat_of].
  destruct (Nat.even p) eqn:E.
  - replace (nth p x 0%R) with (nth (2 * (p / 2)) x 0%R) by (f_equal; symmetry; apply even_half, E). field.
  - replace (nth p x 0%R) with (nth (2 * (p / 2) + 1) x 0%R) by (f_equal; symmetry; apply odd_half, E). field.
Qed.
Print Assumptions C39_haar_reconstructs.
(* even length: the signal itself *)
Theorem C39_even_length : forall x : list R, Nat.even (length x) = true ->
  exists avg diff, haar_forward x = Done (avg, diff) /\ haar_inverse avg diff = Done x.
Proof.
  intros x He. destruct (C39_haar_reconstructs x) as (a & d & o & E1 & _ & _ & E2 & ->). exists a, d. split; [exact E1|]. rewrite E2. f_equal.
  apply firstn_all2. rewrite <- even_half by exact He. lia.
Qed.
Print Assumptions C39_even_length.
(* and analysis undoes synthesis *)
Theorem C39_synthesis_then_analysis : forall a d : list R, length a = length d ->
  exists out, haar_inverse a d = Done out /\ haar_forward out = Done (a, d).
Proof.
  intros a d H. rewrite haar_inverse_ok by lia. eexists. split; [reflexivity|]. rewrite haar_forward_ok, tab_length.
  replace (2 * length a / 2) with (length a) by lia. do 2 f_equal; apply list_ext with (d := 0%R); rewrite ?tab_length; auto; intros i Hi; rewrite nth_tab by lia;
  unfold hav, hdf; rewrite l2_R; cbn [fadd fsub fdiv fzero RF RFloat_of]; rewrite !nth_tab by lia; unfold hmg;
  replace (Nat.even (2 * i)) with true by (symmetry; apply Nat.even_spec; exists i; reflexivity);
  replace (Nat.even (2 * i + 1)) with false by (symmetry; apply Bool.not_true_is_false; intros E; apply even_half in E; lia);
  replace (2 * i / 2) with i by lia; replace ((2 * i + 1) / 2) with i by lia; cbn [fadd fsub RF RFloat_of fzero]; field.
Qed.
Print Assumptions C39_synthesis_then_analysis.
(* the stack versions compute the same, bit for bit, whatever the buffers held; wrong sizes panic *)
Theorem C39_stack_agrees : forall (T : Type) (F : Float T) (x avg diff : list T),
  (length avg = length x / 2 -> length diff = length x / 2 -> haar_forward_stack x avg diff = haar_forward x) /\
  (length avg <> length x / 2 \/ length diff <> length x / 2 -> haar_forward_stack x avg diff = Panic).
Proof.
  intros T F x avg diff. unfold haar_forward_stack. split.
  - intros H1 H2. rewrite H1, H2, Nat.eqb_refl. cbn [andb]. rewrite haar_split_ok, haar_forward_ok by assumption. reflexivity.
  - intros H. destruct (Nat.eqb_spec (length avg) (length x / 2)), (Nat.eqb_spec (length diff) (length x / 2)); try reflexivity. lia.
Qed.
Print Assumptions C39_stack_agrees.
Theorem C39_stack_inverse_agrees : forall (T : Type) (F : Float T) (avg diff out : list T),
  (length diff = length avg -> length out = 2 * length avg -> haar_inverse_stack avg diff out = haar_inverse avg diff) /\
  (length diff <> length avg \/ length out <> 2 * length avg -> haar_inverse_stack avg diff out = Panic) /\
  (length diff < length avg -> haar_inverse avg diff = Panic).
Proof.
  intros T F avg diff out. unfold haar_inverse_stack. split; [|split].
  - intros H1 H2. rewrite H1, H2, !Nat.eqb_refl. cbn [andb]. rewrite haar_merge_ok, haar_inverse_ok by lia. reflexivity.
  - intros H. destruct (Nat.eqb_spec (length diff) (length avg)), (Nat.eqb_spec (length out) (2 * length avg)); try reflexivity. lia.
  - apply haar_inverse_panic.
Qed.
Print Assumptions C39_stack_inverse_agrees.
(* batches: every signal of even length comes back *)
Theorem C39_batch : forall xs : list (list R), (forall x, In x xs -> Nat.even (length x) = true) ->
  exists avgs diffs, batch_fwd haar_forward xs = Done (avgs, diffs) /\ length avgs = length xs /\ batch_inv haar_inverse avgs diffs = Done xs.
Proof.
  induction xs as [|x xs IH]; intros H; cbn [batch_fwd].
  - exists [], []. repeat split.
  - destruct (@C39_even_length x) as (a & d & E1 & E2); [apply H; left; reflexivity|]. destruct IH as (aa & dd & E3 & L & E4); [intros; apply H; right; assumption|].
    rewrite E1. cbn [bind]. rewrite E3. cbn [bind]. exists (a :: aa), (d :: dd). cbn [batch_inv length]. rewrite E2. cbn [bind]. rewrite E4, L. repeat split.
Qed.
Print Assumptions C39_batch.
Example C39_example : exists avg diff, haar_forward [1; 2; 3; 4]%R = Done (avg, diff) /\ haar_inverse avg diff = Done [1; 2; 3; 4]%R.
Proof. apply C39_even_length. reflexivity. Qed.

(* ------------------------------------------------------------------ C40 *)
(* length after one level: half, rounded up *)
Definition half_up (n : nat) : nat := (n + 1) / 2.
Lemma iter_r n (f : nat -> nat) x : Nat.iter (S n) f x = Nat.iter n f (f x).
Proof. induction n as [|n IH]; [reflexivity|]. cbn [Nat.iter nat_rect] in *. unfold Nat.iter in *. cbn [nat_rect]. rewrite <- IH. reflexivity. Qed.
Lemma multi_forward_ok {T} {F : Float T} levels : forall x : list T, exists a ds, haar_forward_multi x levels = Done (a, ds) /\ length ds = levels.
Proof.
  unfold haar_forward_multi. induction levels as [|k IH]; intros x; cbn [multi_forward]; [eauto|].
  rewrite haar_forward_ok. cbn [bind]. destruct (IH (tab (length (pad_even x) / 2) (hav (pad_even x)))) as (a & ds & -> & L). cbn [bind]. eexists _, _. split; [reflexivity|]. cbn. lia.
Qed.
(* signals whose intermediate lengths (levels 1 .. levels-1) are all even come back, with
   at most one padding sample; the first level may be odd *)
Theorem C40_reconstruction : forall (x : list R) levels,
  (forall j, 0 < j < levels -> Nat.even (Nat.iter j half_up (length x)) = true) ->
  exists a ds out, haar_forward_multi x levels = Done (a, ds) /\ haar_inverse_multi a ds = Done out /\
    firstn (length x) out = x /\ (0 < levels -> length out = 2 * half_up (length x)).
Proof.
  intros x levels H.
  enough (G : exists a ds, haar_forward_multi x levels = Done (a, ds) /\ haar_inverse_multi a ds = Done (if levels =? 0 then x else pad_even x)).
  { destruct G as (a & ds & E1 & E2). exists a, ds. eexists. split; [exact E1|]. split; [exact E2|]. destruct (Nat.eqb_spec levels 0) as [->|Hl].
    - split; [apply firstn_all|lia].
    - split; [|intros _; apply pad_even_length]. pose proof (pad_even_length x) as L. apply list_ext with (d := 0%R); [rewrite firstn_length; lia|].
      intros i Hi. rewrite firstn_length in Hi. rewrite nth_firstn, pad_even_nth by lia. destruct (Nat.ltb_spec i (length x)); [reflexivity|lia]. }
  revert x H. unfold haar_forward_multi, haar_inverse_multi. induction levels as [|k IH]; intros x H; cbn [multi_forward].
  - eexists _, _. split; reflexivity.
  - rewrite haar_forward_ok. cbn [bind]. set (a := tab _ (hav _)). set (d := tab _ (hdf _)).
    assert (La : length a = half_up (length x)) by (unfold a; rewrite tab_length, pad_even_length; unfold half_up; lia).
    destruct (IH a) as (c & ds & E1 & E2).
    { intros j Hj. rewrite La, <- iter_r. apply H. lia. }
    rewrite E1. cbn [bind]. exists c, (d :: ds). split; [reflexivity|]. rewrite multi_inverse_cons, E2. cbn [bind].
    assert (Ea : (if k =? 0 then a else pad_even a) = a).
    { destruct (Nat.eqb_spec k 0); [reflexivity|]. apply pad_even_id. rewrite La. apply (H 1). lia. }
    rewrite Ea. destruct (@C39_even_length (pad_even x)) as (a' & d' & E3 & E4); [rewrite pad_even_length, Nat.even_mul; reflexivity|].
    rewrite haar_forward_ok in E3. injection E3 as <- <-. exact E4.
Qed.
Print Assumptions C40_reconstruction.
(* in every other case the inverse panics *)
Theorem C40_panics : forall (T : Type) (F : Float T) (x : list T) levels j, 0 < j < levels -> Nat.even (Nat.iter j half_up (length x)) = false ->
  exists a ds, haar_forward_multi x levels = Done (a, ds) /\ haar_inverse_multi a ds = Panic.
Proof.
  intros T F x levels j Hj Ho.
  assert (G : forall levels (x : list T), exists a ds, haar_forward_multi x levels = Done (a, ds) /\
    (haar_inverse_multi a ds = Panic \/ exists out, haar_inverse_multi a ds = Done out /\ length out = (if levels =? 0 then length x else 2 * half_up (length x))) /\
    ((exists j, 0 < j < levels /\ Nat.even (Nat.iter j half_up (length x)) = false) -> haar_inverse_multi a ds = Panic)).
  { clear. unfold haar_forward_multi, haar_inverse_multi. induction levels as [|k IH]; intros x; cbn [multi_forward].
    - exists x, []. split; [reflexivity|]. split; [right; exists x; split; reflexivity|]. intros (j & Hj & _). lia.
    - rewrite haar_forward_ok. cbn [bind]. set (a := tab _ (hav _)). set (d := tab _ (hdf _)).
      assert (La : length a = half_up (length x)) by (unfold a; rewrite tab_length, pad_even_length; unfold half_up; lia).
      assert (Ld : length d = half_up (length x)) by (unfold d; rewrite tab_length, pad_even_length; unfold half_up; lia).
      destruct (IH a) as (c & ds & E1 & E2 & E3). rewrite E1. cbn [bind]. exists c, (d :: ds). split; [reflexivity|]. rewrite multi_inverse_cons.
      destruct E2 as [E2|(out & E2 & Lo)]; rewrite E2; cbn [bind].
      { split; [left; reflexivity|reflexivity]. }
      destruct (Nat.even (half_up (length x))) eqn:Ev.
      + assert (Lo2 : length out = half_up (length x)).
        { rewrite Lo, La. destruct (Nat.eqb_spec k 0); [reflexivity|]. unfold half_up at 1. pose proof (even_half _ Ev). lia. }
        rewrite haar_inverse_ok by lia. split.
        * right. eexists. split; [reflexivity|]. rewrite tab_length, Lo2. reflexivity.
        * intros (j & Hj & Hj2). exfalso. destruct j as [|[|j]]; [lia|change (Nat.even (half_up (length x)) = false) in Hj2; congruence|].
          assert (Hp : multi_inverse haar_inverse c ds = Panic).
          { apply E3. exists (S j). split; [lia|]. rewrite La, <- iter_r. exact Hj2. }
          congruence.
      + destruct (Nat.eqb_spec k 0) as [Hk|Hk].
        * rewrite haar_inverse_ok by (rewrite Lo, La, Ld; lia). split.
          -- right. eexists. split; [reflexivity|]. rewrite tab_length, Lo, La. reflexivity.
          -- intros (j & Hj & _). lia.
        * assert (Hp : haar_inverse out d = Panic) by (apply haar_inverse_panic; rewrite Lo, La, Ld; pose proof (odd_half _ Ev); unfold half_up at 2; lia).
          rewrite Hp. split; [left; reflexivity|reflexivity]. }
  destruct (G levels x) as (a & ds & E & _ & H). exists a, ds. split; [exact E|]. apply H. eauto.
Qed.
Print Assumptions C40_panics.
(* six samples, two levels *)
Theorem C40_every_length_refuted : exists (x : list R) levels a ds, haar_forward_multi x levels = Done (a, ds) /\ haar_inverse_multi a ds = Panic.
Proof.
  destruct (@C40_panics R RF [1; 2; 3; 4; 5; 6]%R 2 1) as (a & ds & H); [lia|reflexivity|]. eauto 6.
Qed.
Print Assumptions C40_every_length_refuted.
Example C40_example : forall j, 0 < j < 3 -> Nat.even (Nat.iter j half_up (length [1; 2; 3; 4; 5; 6; 7; 8]%R)) = true.
Proof. intros j Hj. assert (j = 1 \/ j = 2) as [->| ->] by lia; reflexivity. Qed.

(* ------------------------------------------------------------------ C41 *)
(* filter banks never panic, and lengths are right, for every signal and float type *)
Lemma db2_forward_total {T} {F : Float T} (x : list T) : exists a d, db2_forward x = Done (a, d) /\ length a = length x / 2 /\ length d = length x / 2.
Proof.
  unfold db2_forward. erewrite (for_set2 fzero); [|apply repeat_length|apply repeat_length|].
  - do 2 eexists. split; [reflexivity|]. rewrite !tab_length. auto.
  - intros i a b Hi La Lb. rewrite !mirror_val_ok by lia. cbn [bind]. rewrite set_ok by lia. cbn [bind]. rewrite set_ok by lia. cbn [bind]. reflexivity.
Qed.
Theorem C41_never_panics : forall (T : Type) (F : Float T) (x : list T) fwd inv,
  In (fwd, inv) [(db2_forward, db2_inverse); (db4_forward, db4_inverse); (sym4_forward, sym4_inverse); (coif1_forward, coif1_inverse)] ->
  exists a d out, fwd x = Done (a, d) /\ length a = length x / 2 /\ length d = length x / 2 /\
    inv a d = Done out /\ length out = 2 * (length x / 2).
Proof.
  intros T F x fwd inv H.
  assert (B : forall h g gs hs, length g = length h -> length hs = length gs -> (fwd, inv) = (bank_forward h g, bank_inverse gs hs) ->
    exists a d out, fwd x = Done (a, d) /\ length a = length x / 2 /\ length d = length x / 2 /\ inv a d = Done out /\ length out = 2 * (length x / 2)).
  { intros h g gs hs H1 H2 [= -> ->]. rewrite bank_forward_ok by exact H1. set (a := tab _ (bank_out h x)). set (d := tab _ (bank_out g x)).
    assert (La : length a = length x / 2) by apply tab_length. assert (Ld : length d = length x / 2) by apply tab_length.
    destruct (@bank_inverse_total T F gs hs a d H2 ltac:(lia)) as (out & E & L). exists a, d, out. repeat split; auto; lia. }
  destruct H as [H|[H|[H|[H|[]]]]].
  - injection H as <- <-. destruct (db2_forward_total x) as (a & d & E & La & Ld). destruct (@bank_inverse_total T F db2_h db2_g a d eq_refl ltac:(lia)) as (out & E2 & L2).
    exists a, d, out. repeat split; auto; lia.
  - eapply B; [| |symmetry; exact H]; reflexivity.
  - eapply B; [| |symmetry; exact H]; reflexivity.
  - eapply B; [| |symmetry; exact H]; reflexivity.
Qed.
Print Assumptions C41_never_panics.

(* the loops are right for every filter bank whose synthesis taps undo the analysis taps:
   weight of sample x[p+d] in output sample p, for p of parity a *)
Theorem C41_filter_bank : forall (h g gs hs : list Q) L eps (x : list R) p,
  length h = L -> length g = L -> length gs = L -> length hs = L -> Nat.even L = true -> 2 <= L ->
  (0 <= eps)%R -> near_inverse eps (lits h) (lits g) (lits gs) (lits hs) ->
  Nat.even (length x) = true -> L <= p + 2 -> p + L <= length x ->
  exists a d out, bank_forward h g x = Done (a, d) /\ bank_inverse gs hs a d = Done out /\
    (Rabs (nth p out 0 - nth p x 0) <= eps * rsum (length x) (fun u => if (u <? p + L)%nat && (p <? u + L)%nat then Rabs (nth u x 0) else 0))%R.
Proof.
  intros h g gs hs L eps x p H1 H2 H3 H4 He HL Heps Hn Hx Hp1 Hp2.
  destruct (@bank_round_near h g gs hs x p L eps) as (a & d & out & E1 & E2 & _ & E3); try assumption; [lia|]. exists a, d, out. auto.
Qed.
Print Assumptions C41_filter_bank.

(* deciding near_inverse for literal taps *)
Fixpoint qsum (n : nat) (f : nat -> Q) : Q := match n with 0 => 0%Q | S m => (qsum m f + f m)%Q end.
Definition qtap_sum (h g gs hs : list Q) (a b : nat) : Q :=
  qsum (length h / 2) (fun j => nth (a + 2 * j) gs 0 * nth (b + 2 * j) (repeat 0 (length h) ++ h) 0
                              + nth (a + 2 * j) hs 0 * nth (b + 2 * j) (repeat 0 (length h) ++ g) 0)%Q.
Lemma Q2R_0 : Q2R 0 = 0%R.
Proof. unfold Q2R. cbn. ring. Qed.
Lemma lits_zeros L t : (repeat 0%R L ++ lits t) = lits (repeat 0%Q L ++ t).
Proof. unfold lits. rewrite map_app. f_equal. induction L as [|L IH]; cbn [repeat map]; [reflexivity|]. rewrite <- IH, Q2R_0. reflexivity. Qed.
Lemma qtap_sum_ok h g gs hs a b : tap_sum (lits h) (lits g) (lits gs) (lits hs) a b = Q2R (qtap_sum h g gs hs a b).
Proof.
  unfold tap_sum, qtap_sum. assert (Ll : length (lits h) = length h) by apply map_length. rewrite Ll. generalize (length h / 2) as n.
  induction n as [|n IH]; cbn [rsum qsum]; [symmetry; apply Q2R_0|]. rewrite IH, !lits_zeros, !nth_lits, Q2R_plus, Q2R_plus, !Q2R_mult. reflexivity.
Qed.
Definition near_check (eps : Q) (h g gs hs : list Q) : bool :=
  forallb (fun a => forallb (fun b => Qle_bool (Qabs (qtap_sum h g gs hs a b - (if b =? a + length h then 1 else 0))) eps) (seq 0 (2 * length h))) [0; 1].
Lemma near_check_ok eps h g gs hs : length g = length h -> (0 <= eps)%Q -> 2 <= length h -> near_check eps h g gs hs = true ->
  near_inverse (Q2R eps) (lits h) (lits g) (lits gs) (lits hs).
Proof.
  intros Hg He HL Hc a b Ha. assert (Ll : forall t, length (lits t) = length t) by (intros; apply map_length). rewrite Ll.
  destruct (Nat.lt_ge_cases b (2 * length h)) as [Hb|Hb].
  - unfold near_check in Hc. rewrite forallb_forall in Hc. specialize (Hc a ltac:(cbn; lia)). rewrite forallb_forall in Hc. specialize (Hc b ltac:(apply in_seq; lia)).
    apply Qle_bool_iff in Hc. rewrite qtap_sum_ok. set (q := qtap_sum h g gs hs a b) in *. set (z := if b =? a + length h then 1%Q else 0%Q) in *.
    replace (if b =? a + length h then 1%R else 0%R) with (Q2R z) by (unfold z; destruct (_ =? _); unfold Q2R; cbn; lra). rewrite <- Q2R_minus.
    apply Qabs_Qle_condition in Hc. destruct Hc as [H1 H2]. apply Qle_Rle in H1, H2. rewrite Q2R_opp in H1. apply Rabs_le. lra.
  - rewrite (@tap_sum_far _ _ _ _ (length h)) by (rewrite ?Ll; auto). destruct (Nat.eqb_spec b (a + length h)); [lia|].
    rewrite Rminus_0_r, Rabs_R0. apply Qle_Rle in He. rewrite Q2R_0 in He. exact He.
Qed.
(* db2_forward is the same computation over the reals *)
Lemma db2_forward_R (x : list R) : db2_forward x = bank_forward db2_h db2_g x.
Proof.
  rewrite bank_forward_ok by reflexivity. unfold db2_forward. apply (for_set2 0%R); [apply repeat_length|apply repeat_length|].
  intros i a b Hi La Lb. rewrite !mirror_val_ok by lia. cbn [bind]. rewrite set_ok by lia. cbn [bind]. rewrite set_ok by lia. cbn [bind].
  unfold bank_out. rewrite !accum_R. unfold db2_h, db2_g, dot4. cbn [length rsum nth fadd fmul RF RFloat_of fzero flit]. rewrite Nat.add_0_r. do 3 f_equal; ring.
Qed.
(* db2 as written, in exact arithmetic: interior samples come back within 2e-16 of the
   sum of the neighbouring magnitudes (the 16-digit taps are not exactly orthonormal) *)
Theorem C41_db2_interior : forall (x : list R) p, Nat.even (length x) = true -> 2 <= p -> p + 4 <= length x ->
  exists a d out, db2_forward x = Done (a, d) /\ db2_inverse a d = Done out /\
    (Rabs (nth p out 0 - nth p x 0) <= 2 / 10 ^ 16 * rsum (length x) (fun u => if (u <? p + 4)%nat && (p <? u + 4)%nat then Rabs (nth u x 0) else 0))%R.
Proof.
  intros x p He Hp1 Hp2. rewrite db2_forward_R. replace (2 / 10 ^ 16)%R with (Q2R (2 # 10000000000000000)) by (unfold Q2R; cbn; lra).
  apply (@C41_filter_bank db2_h db2_g db2_h db2_g 4); try reflexivity; try assumption; try lia.
  - unfold Q2R. cbn. lra.
  - apply near_check_ok; [reflexivity|discriminate|cbn; lia|vm_compute; reflexivity].
Qed.
Print Assumptions C41_db2_interior.
Example C41_example : near_inverse 0 (lits [3 # 5; 4 # 5]%Q) (lits [4 # 5; - (3 # 5)]%Q) (lits [3 # 5; 4 # 5]%Q) (lits [4 # 5; - (3 # 5)]%Q).
Proof. rewrite <- Q2R_0. apply near_check_ok; [reflexivity|discriminate|cbn; lia|vm_compute; reflexivity]. Qed.

(* db4, sym4 and coif1 do not reconstruct: an impulse at interior sample 16 of 32 vanishes *)
Definition impulse : list R := tab 32 (fun i => if i =? 16 then 1 else 0)%R.
Lemma impulse_lost h g gs hs L : length h = L -> length g = L -> length gs = L -> length hs = L -> Nat.even L = true -> 2 <= L <= 16 ->
  Qle_bool (Qabs (qtap_sum h g gs hs 0 L)) (1 # 1000000) = true ->
  exists a d out, bank_forward h g impulse = Done (a, d) /\ bank_inverse gs hs a d = Done out /\ (Rabs (nth 16 out 0) <= / 1000000)%R.
Proof.
  intros H1 H2 H3 H4 He HL Hc. destruct (@bank_round h g gs hs impulse 16 L) as (a & d & out & E1 & E2 & _ & E3); try assumption; try reflexivity; try (change (length impulse) with 32; lia).
  exists a, d, out. split; [exact E1|]. split; [exact E2|]. rewrite E3. change (length impulse) with 32.
  assert (Lt : forall t, length (lits t) = length t) by (intros; apply map_length).
  rewrite (@rsum_ext 32 _ (fun u => if u =? 16 then tap_sum (lits h) (lits g) (lits gs) (lits hs) 0 L else 0%R)).
  2:{ intros u Hu. unfold impulse. rewrite nth_tab by exact Hu. destruct (Nat.eqb_spec u 16) as [->|_]; [|ring].
      rewrite (@tap_sum_ok (lits h) (lits g) (lits gs) (lits hs) L (32 / 2) 16 16) by (rewrite ?Lt; try assumption; cbn; lia).
      change (16 mod 2) with 0. destruct (Nat.leb_spec 16 (16 + 0 + L)); [|lia]. replace (16 + 0 + L - 16) with L by lia. ring. }
  rewrite rsum_pick. cbn [Nat.ltb Nat.leb]. rewrite qtap_sum_ok. apply Qle_bool_iff, Qabs_Qle_condition in Hc. destruct Hc as [Q1 Q2]. apply Qle_Rle in Q1, Q2. rewrite Q2R_opp in Q1.
  replace (/ 1000000)%R with (Q2R (1 # 1000000)) by (unfold Q2R; cbn; lra). apply Rabs_le. lra.
Qed.
Theorem C41_db4_refuted : exists (x : list R) p a d out, 8 <= p + 2 /\ p + 8 <= length x /\ nth p x 0%R = 1%R /\
  db4_forward x = Done (a, d) /\ db4_inverse a d = Done out /\ (Rabs (nth p out 0) <= / 1000000)%R.
Proof.
  destruct (@impulse_lost db4_h db4_g db4_ig db4_ih 8) as (a & d & out & H); try reflexivity; [lia|].
  exists impulse, 16, a, d, out. split; [lia|]. split; [change (length impulse) with 32; lia|]. split; [reflexivity|exact H].
Qed.
Print Assumptions C41_db4_refuted.
Theorem C41_sym4_refuted : exists (x : list R) p a d out, 8 <= p + 2 /\ p + 8 <= length x /\ nth p x 0%R = 1%R /\
  sym4_forward x = Done (a, d) /\ sym4_inverse a d = Done out /\ (Rabs (nth p out 0) <= / 1000000)%R.
Proof.
  destruct (@impulse_lost sym4_h sym4_g sym4_ig sym4_ih 8) as (a & d & out & H); try reflexivity; [lia|].
  exists impulse, 16, a, d, out. split; [lia|]. split; [change (length impulse) with 32; lia|]. split; [reflexivity|exact H].
Qed.
Print Assumptions C41_sym4_refuted.
Theorem C41_coif1_refuted : exists (x : list R) p a d out, 6 <= p + 2 /\ p + 6 <= length x /\ nth p x 0%R = 1%R /\
  coif1_forward x = Done (a, d) /\ coif1_inverse a d = Done out /\ (Rabs (nth p out 0) <= / 1000000)%R.
Proof.
  destruct (@impulse_lost coif1_h coif1_g coif1_ig coif1_ih 6) as (a & d & out & H); try reflexivity; [lia|].
  exists impulse, 16, a, d, out. split; [lia|]. split; [change (length impulse) with 32; lia|]. split; [reflexivity|exact H].
Qed.
Print Assumptions C41_coif1_refuted.
(* the fault is the order of the synthesis taps: the same loops fed the analysis taps reconstruct *)
Theorem C41_with_analysis_taps : forall h g (x : list R) p, In (h, g) [(db4_h, db4_g); (sym4_h, sym4_g); (coif1_h, coif1_g)] ->
  Nat.even (length x) = true -> length h <= p + 2 -> p + length h <= length x ->
  exists a d out, bank_forward h g x = Done (a, d) /\ bank_inverse h g a d = Done out /\
    (Rabs (nth p out 0 - nth p x 0) <= / 10 ^ 12 * rsum (length x) (fun u => if (u <? p + length h)%nat && (p <? u + length h)%nat then Rabs (nth u x 0) else 0))%R.
Proof.
  intros h g x p Hin He Hp1 Hp2. replace (/ 10 ^ 12)%R with (Q2R (1 # 1000000000000)) by (unfold Q2R; cbn; lra).
  assert (G : length g = length h /\ Nat.even (length h) = true /\ 2 <= length h /\ near_check (1 # 1000000000000) h g h g = true).
  { destruct Hin as [H|[H|[H|[]]]]; injection H as <- <-; (split; [reflexivity|]); (split; [reflexivity|]); (split; [cbn; lia|vm_compute; reflexivity]). }
  destruct G as (G1 & G2 & G3 & G4). apply (@C41_filter_bank h g h g (length h)); try reflexivity; try assumption.
  - unfold Q2R. cbn. lra.
  - apply near_check_ok; try assumption. discriminate.
Qed.
Print Assumptions C41_with_analysis_taps.

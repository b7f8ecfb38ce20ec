(* Properties C07-C11: the other entry points to the transform. *)
From Coq Require Import Lra Reals Sorted Permutation.
From Verif Require Import L_plan L_stack L_rad4 L_dft P_fft.
Set Implicit Arguments.
Open Scope nat_scope.

Section Lemmas.
Context {T : Type} {F : Float T}.
Variable c : cfg.
Implicit Types p q : planner T.

Lemma stockham_as_fft p (x : list (cx T)) : Inv c p -> length x <> 1 -> out (stockham_fft c p x) = out (fft c p x).
Proof.
  intros HI H1. destruct (is_pow2 (length x)) eqn:Hp.
  - assert (Hn : 1 < length x).
    { destruct (length x) as [|[|n]]; [discriminate|congruence|lia]. }
    destruct (stockham_cases x HI Hn Hp) as (p' & E & _).
    destruct (@fft_pow2_ok T F c (fft_fuel c 5) p x HI Hp) as (q & E' & _).
    rewrite E. unfold fft, FUEL. change (fft_fuel c 6) with (fft_body c (fft_fuel c 5)). rewrite E'. reflexivity.
  - destruct (Nat.eq_dec (length x) 0) as [E0|E0].
    + destruct x; [|discriminate]. rewrite fft_empty. reflexivity.
    + rewrite stockham_nonpow2 by (assumption || lia). reflexivity.
Qed.
Lemma stockham_single p (a : cx T) : stockham_fft c p [a] = Panic.
Proof. reflexivity. Qed.
Lemma fft_single p (a : cx T) : fft c p [a] = Done (p, [a], ROk).
Proof. unfold fft, FUEL. change (fft_fuel c 6) with (fft_body c (fft_fuel c 5)). reflexivity. Qed.
Lemma single (x : list (cx T)) : length x = 1 -> exists a, x = [a].
Proof. destruct x as [|a [|]]; try discriminate. eauto. Qed.
(* a power of four, as the code decides it *)
Lemma four_pow n : is_pow2 n && Nat.even (Nat.log2 n) = true <-> exists k, n = 4 ^ k.
Proof.
  split.
  - rewrite andb_true_iff. intros [H1 H2]. unfold is_pow2 in H1. apply Nat.eqb_eq in H1.
    apply Nat.even_spec in H2. destruct H2 as [k Hk]. exists k. rewrite <- H1, Hk, Nat.pow_mul_r. reflexivity.
  - intros [k ->]. change 4 with (2 ^ 2). rewrite <- Nat.pow_mul_r, is_pow2_pow, Nat.log2_pow2 by lia.
    rewrite Nat.even_mul. reflexivity.
Qed.
Lemma radix4_other p x : ~ (exists k, length x = 4 ^ k) -> fft_radix4 c p x = fft c p x.
Proof.
  intros H. unfold fft_radix4. destruct (is_pow2 (length x) && Nat.even (Nat.log2 (length x))) eqn:E.
  - exfalso. apply H, four_pow, E.
  - destruct (is_pow2 (length x)); cbn [andb negb orb] in *; [rewrite E|]; reflexivity.
Qed.
Lemma radix4_single p (a : cx T) : fft_radix4 c p [a] = Done (p, [a], ROk).
Proof. reflexivity. Qed.
Lemma mixed_as_fft p x : Inv c p -> out (fft_mixed_radix c p x) = out (fft c p x).
Proof.
  intros HI. unfold fft_mixed_radix. destruct (Nat.eqb_spec (length x) 0) as [E0|E0].
  { destruct x; [|discriminate]. rewrite fft_empty. reflexivity. }
  destruct (Nat.eqb_spec (length x) 1) as [E1|E1].
  { destruct (single x E1) as [a ->]. rewrite fft_single. reflexivity. }
  destruct (@factorize_ok (length x)) as (l & El & _); [lia|]. rewrite El. cbn [bind].
  rewrite (@factorize_two (length x) l) by (assumption || lia).
  destruct (is_pow2 (length x)) eqn:Hp; [|reflexivity].
  rewrite (@factorize_four (length x) l) by (assumption || lia). rewrite andb_false_r. apply stockham_as_fft; assumption.
Qed.
Lemma mixed_tw_as_fft p x : Inv c p -> 1 < length x -> out (fft_mixed_radix_with_twiddles c p x) = out (fft c p x).
Proof.
  intros HI Hn. unfold fft_mixed_radix_with_twiddles.
  destruct (@factorize_ok (length x)) as (l & El & _); [lia|]. rewrite El. cbn [bind].
  rewrite (@factorize_two (length x) l) by (assumption || lia).
  destruct (is_pow2 (length x)) eqn:Hp; [|reflexivity].
  rewrite (@factorize_four (length x) l) by (assumption || lia). apply stockham_as_fft; [assumption|lia].
Qed.
Lemma strategy_as_fft s p x : Inv c p -> s <> Radix4 -> out (fft_with_strategy c s p x) = out (fft c p x).
Proof.
  intros HI Hs. unfold fft_with_strategy. destruct (Nat.eqb_spec (length x) 0) as [E0|E0].
  { destruct x; [|discriminate]. rewrite fft_empty. reflexivity. }
  destruct (Nat.eqb_spec (length x) 1) as [E1|E1].
  { destruct (single x E1) as [a ->]. rewrite fft_single. reflexivity. }
  unfold plan_strategy. destruct s; try congruence; try reflexivity; try (apply stockham_as_fft; assumption).
  destruct (is_pow2 (length x) && (1 <? length x)); [apply stockham_as_fft; assumption|reflexivity].
Qed.
Lemma strategy_radix4 p x : out (fft_with_strategy c Radix4 p x) = out (if c_std c then fft_radix4 c p x else fft c p x).
Proof.
  unfold fft_with_strategy. destruct (Nat.eqb_spec (length x) 0) as [E0|E0].
  { destruct x; [|discriminate]. destruct (c_std c); [rewrite radix4_other|]; rewrite ?fft_empty; try reflexivity.
    intros [k Hk]. cbn in Hk. pose proof (Nat.pow_nonzero 4 k). lia. }
  destruct (Nat.eqb_spec (length x) 1) as [E1|E1]; [|reflexivity].
  destruct (single x E1) as [a ->]. destruct (c_std c); [rewrite radix4_single|rewrite fft_single]; reflexivity.
Qed.
End Lemmas.

Lemma out_done {S A} (e : exec (S * A * rres)) y r : out e = Done (y, r) -> exists s, e = Done (s, y, r).
Proof. destruct e as [[[s y'] r']| |]; cbn; try discriminate. intros H. injection H as -> ->. eauto. Qed.
(* the outcome of a transform in exact arithmetic: the DFT when the length is
   supported, otherwise the documented error and an unchanged buffer *)
Definition dft_outcome (c : cfg) (x : list C) : list C * rres :=
  match expected c (length x) with ROk => (DFT x, ROk) | RErr e => (x, RErr e) end.
Lemma fft_outcome c (p : planner R) x : Inv c p -> ready c p (length x) -> out (fft c p x) = Done (dft_outcome c x).
Proof.
  intros HI Hr. unfold dft_outcome, expected.
  destruct (fft_cases x HI) as [[H E]|[(H & Hs & E)|(H & Hs & p' & y & E & _ & _ & Hy)]]; rewrite E.
  - rewrite H. reflexivity.
  - destruct (Nat.eqb_spec (length x) 0); [lia|]. unfold supported in Hs. rewrite Hs. reflexivity.
  - destruct (Nat.eqb_spec (length x) 0); [lia|]. unfold supported in Hs. rewrite Hs, (Hy Hr), fft_fresh_R by exact H. reflexivity.
Qed.
Lemma fft_outcome_new c x : out (fft c (new_planner (T := R)) x) = Done (dft_outcome c x).
Proof. apply fft_outcome; [apply Inv_new|apply ready_new]. Qed.

(* ------------------------------------------------------------------ C07 *)
(* false for length 1: every one of these entry points panics there *)
Theorem C07_entry_points_refuted : forall (T : Type) (F : Float T) (c : cfg), exists x : list (cx T), length x = 1 /\
  stockham_fft c new_planner x = Panic /\
  (forall wide, simd_fft c wide x = Panic) /\
  (c_kind c = F32 -> plan_fft c (plan_new 1 Radix2) x = Panic /\ plan_fft c (plan_new 1 Radix4) x = Panic).
Proof.
  intros T F c. exists [czero]. split; [reflexivity|]. split; [reflexivity|]. split.
  - intros [|]; reflexivity.
  - intros H. unfold plan_fft. rewrite H. split; reflexivity.
Qed.
Print Assumptions C07_entry_points_refuted.
(* every other length, on every reachable object, any arithmetic: no panic, and
   the same buffer and result as fft *)
Theorem C07_other_lengths : forall (T : Type) (F : Float T) (c : cfg) (p : planner T) (x : list (cx T)),
  reachable c p -> length x <> 1 ->
  exists q q' y, fft c p x = Done (q, y, expected c (length x)) /\ stockham_fft c p x = Done (q', y, expected c (length x)).
Proof.
  intros T F c p x Hp H1. destruct (@C05_fft_contract T F c p x Hp) as (q & y & E & _).
  pose proof (@stockham_as_fft T F c p x (reachable_Inv Hp) H1) as H. rewrite E in H. apply out_done in H.
  destruct H as [q' E']. eauto.
Qed.
Print Assumptions C07_other_lengths.
Theorem C07_simd_other_lengths : forall (T : Type) (F : Float T) (c : cfg) wide (x : list (cx T)), length x <> 1 ->
  exists q y, fft c new_planner x = Done (q, y, expected c (length x)) /\ simd_fft c wide x = Done (y, expected c (length x)).
Proof.
  intros T F c wide x H1. destruct (@C07_other_lengths T F c new_planner x) as (q & q' & y & E & E'); [exists []; reflexivity|exact H1|].
  exists q, y. split; [exact E|]. unfold simd_fft. rewrite E, E'. destruct wide, (is_pow2 (length x)); reflexivity.
Qed.
Print Assumptions C07_simd_other_lengths.
Theorem C07_stockham_is_dft : forall (c : cfg) (x : list C) wide, length x <> 1 ->
  out (stockham_fft c new_planner x) = Done (dft_outcome c x) /\ simd_fft c wide x = Done (dft_outcome c x).
Proof.
  intros c x wide H1.
  assert (E : out (stockham_fft c new_planner x) = Done (dft_outcome c x)).
  { rewrite stockham_as_fft by (apply Inv_new || exact H1). apply fft_outcome_new. }
  split; [exact E|]. unfold simd_fft. fold (out (S := planner R) (A := list C)).
  destruct wide; [exact E|]. destruct (is_pow2 (length x)); [exact E|]. apply fft_outcome_new.
Qed.
Print Assumptions C07_stockham_is_dft.
Theorem C07_f32_plan_is_dft : forall (c : cfg) (s : strategy) (x : list C), c_kind c = F32 -> s = Radix2 \/ s = Radix4 ->
  length x <> 1 -> out (plan_fft c (plan_new (length x) s) x) = Done (dft_outcome c x).
Proof.
  intros c s x Hk Hs H1. destruct (C07_stockham_is_dft c x true H1) as [E _].
  unfold plan_fft, plan_new. cbn [plan_n plan_strat plan_pl]. rewrite Nat.eqb_refl, Hk. cbn [negb].
  destruct (stockham_fft c new_planner x) as [[[q y] r]| |]; cbn in E; try discriminate.
  destruct Hs as [-> | ->]; exact E.
Qed.
Print Assumptions C07_f32_plan_is_dft.
(* the inverse of the SIMD objects has no such gap *)
Theorem C07_simd_ifft : forall (c : cfg) (x : list C), 0 < length x -> c_std c = true \/ is_pow2 (length x) = true ->
  simd_ifft c x = Done (IDFT x, ROk).
Proof.
  intros c x Hn Hs. destruct (@C02_ifft_is_idft c x Hn Hs) as [p E]. unfold simd_ifft. rewrite E. reflexivity.
Qed.
Print Assumptions C07_simd_ifft.
Example C07_example : length [C1; C0; C0] <> 1 /\ dft_outcome (cfg_std F32) [C1; C0; C0] = ([C1; C1; C1], ROk).
Proof. split; [discriminate|]. unfold dft_outcome. cbn [expected length Nat.eqb c_std cfg_std orb]. f_equal. apply C01_example. Qed.

(* ------------------------------------------------------------------ C08 *)
Theorem C08_stack_is_dft : forall (c : cfg) (x : list C), is_pow2 (length x) = true ->
  fft_inplace_stack c x = Done (DFT x, ROk) /\ ifft_inplace_stack c x = Done (IDFT x, ROk).
Proof. intros c x H. split; [apply fft_inplace_stack_R|apply ifft_inplace_stack_R]; exact H. Qed.
Print Assumptions C08_stack_is_dft.
Theorem C08_stack_round_trip : forall (c : cfg) (x : list C), is_pow2 (length x) = true ->
  exists y z, fft_inplace_stack c x = Done (y, ROk) /\ ifft_inplace_stack c y = Done (x, ROk) /\
              ifft_inplace_stack c x = Done (z, ROk) /\ fft_inplace_stack c z = Done (x, ROk).
Proof.
  intros c x H. exists (DFT x), (IDFT x).
  rewrite !fft_inplace_stack_R, !ifft_inplace_stack_R, IDFT_DFT, DFT_IDFT; rewrite ?DFT_length, ?IDFT_length; try exact H; auto.
Qed.
Print Assumptions C08_stack_round_trip.
(* any arithmetic *)
Theorem C08_stack_other_sizes : forall (T : Type) (F : Float T) (c : cfg) (x : list (cx T)),
  (length x = 1 -> fft_inplace_stack c x = Done (x, ROk) /\ ifft_inplace_stack c x = Done (x, ROk)) /\
  (length x = 0 -> fft_inplace_stack c x = Done (x, RErr EmptyInput) /\ ifft_inplace_stack c x = Done (x, RErr EmptyInput)) /\
  (0 < length x -> is_pow2 (length x) = false ->
     fft_inplace_stack c x = Done (x, RErr NonPowerOfTwoNoStd) /\ ifft_inplace_stack c x = Done (x, RErr NonPowerOfTwoNoStd)).
Proof.
  intros T F c x. unfold fft_inplace_stack, ifft_inplace_stack. repeat split; intros; try (rewrite H; reflexivity).
  all: destruct (Nat.eqb_spec (length x) 0); [lia|]; destruct (Nat.eqb_spec (length x) 1) as [E|E];
    [rewrite E in *; discriminate|]; rewrite H0; reflexivity.
Qed.
Print Assumptions C08_stack_other_sizes.
Example C08_example : is_pow2 (length (ones 32)) = true /\ is_pow2 (length (ones 12)) = false /\ 0 < length (ones 12).
Proof. repeat split. cbn; lia. Qed.

(* ------------------------------------------------------------------ C09 *)
(* Radix2, SplitRadix, Auto: bit-exactly the result of fft, on every reachable object *)
Theorem C09_strategies_same : forall (T : Type) (F : Float T) (c : cfg) (s : strategy) (p : planner T) (x : list (cx T)),
  reachable c p -> s <> Radix4 \/ c_std c = false \/ ~ (exists k, length x = 4 ^ k) ->
  out (fft_with_strategy c s p x) = out (fft c p x).
Proof.
  intros T F c s p x Hp H. pose proof (reachable_Inv Hp) as HI.
  assert (Hd : s = Radix4 \/ s <> Radix4) by (destruct s; auto; right; discriminate).
  destruct Hd as [-> |Hs]; [|apply strategy_as_fft; assumption].
  rewrite strategy_radix4. destruct H as [H|[->|H]]; [congruence|reflexivity|].
  destruct (c_std c); [rewrite radix4_other by exact H|]; reflexivity.
Qed.
Print Assumptions C09_strategies_same.
(* all four strategies, exact arithmetic, except radix 4 on 16, 64, 256, ... *)
Lemma radix4_R c (x : list C) : length x < 16 \/ ~ (exists k, length x = 4 ^ k) ->
  out (fft_radix4 c new_planner x) = Done (dft_outcome c x).
Proof.
  intros H. destruct (is_pow2 (length x) && Nat.even (Nat.log2 (length x))) eqn:E.
  - apply four_pow in E. destruct E as [k Hk]. destruct H as [H|H]; [|exfalso; apply H; eauto].
    assert (Hk2 : k < 2).
    { destruct (Nat.le_gt_cases 2 k) as [H2|H2]; [|exact H2]. pose proof (@Nat.pow_le_mono_r 4 2 k ltac:(lia) H2). cbn in *. lia. }
    unfold dft_outcome. destruct k as [|[|k]]; [| |lia]; cbn in Hk; rewrite Hk; cbn [expected Nat.eqb].
    + destruct (single x Hk) as [a ->]. rewrite radix4_single. change (is_pow2 1) with true. rewrite orb_true_r. cbn [out bind].
      do 2 f_equal. unfold DFT. change (length [a]) with 1. cbn [tab seq map]. unfold tab. cbn [seq map]. rewrite dft_1. reflexivity.
    + change (is_pow2 4) with true. rewrite orb_true_r. cbn [expected]. destruct (list_4 x Hk) as (a & b & d & e & ->).
      rewrite radix4_4. unfold butterfly4. cbn [out bind]. do 2 f_equal. unfold DFT. change (length [a; b; d; e]) with 4. unfold tab. cbn [seq map].
      destruct (dft_4 (at_ [a; b; d; e])) as (-> & -> & -> & ->). cbn [at_ nth]. rewrite !cmul_R. reflexivity.
  - rewrite radix4_other; [apply fft_outcome_new|]. intros Hk. apply four_pow in Hk. congruence.
Qed.
Theorem C09_strategies_dft : forall (c : cfg) (s : strategy) (x : list C),
  ~ (s = Radix4 /\ c_std c = true /\ exists k, length x = 4 ^ k /\ 2 <= k) ->
  out (fft_with_strategy c s new_planner x) = Done (dft_outcome c x).
Proof.
  intros c s x H. assert (Hd : s = Radix4 \/ s <> Radix4) by (destruct s; auto; right; discriminate).
  destruct Hd as [-> |Hs].
  - rewrite strategy_radix4. destruct (c_std c) eqn:Ec; [|apply fft_outcome_new]. apply radix4_R.
    destruct (Nat.lt_ge_cases (length x) 16) as [|H16]; [left; assumption|right]. intros [k Hk]. apply H.
    split; [reflexivity|]. split; [reflexivity|]. exists k. split; [exact Hk|].
    destruct k as [|[|k]]; cbn in Hk; lia.
  - rewrite strategy_as_fft by (apply Inv_new || exact Hs). apply fft_outcome_new.
Qed.
Print Assumptions C09_strategies_dft.
Lemma DFT_inj (x y : list C) : DFT x = DFT y -> x = y.
Proof. intros H. rewrite <- (IDFT_DFT x), <- (IDFT_DFT y), H. reflexivity. Qed.
Lemma radix4_wrong c p k (x : list C) : cache_ok p -> 2 <= k -> length x = 4 ^ k -> at_ x 2 <> at_ x (4 ^ k / 2) ->
  exists p' y, fft_radix4 c p x = Done (p', y, ROk) /\ length y = 4 ^ k /\ y <> DFT x.
Proof.
  intros Hc Hk HL Hx. destruct (@radix4_exact c k p x Hc HL) as (p' & z & E & _ & P & H2).
  exists p', (DFT z). split; [exact E|]. split; [rewrite DFT_length, <- (Permutation_length P); exact HL|].
  intros Hy. apply DFT_inj in Hy. subst z. apply Hx, H2, Hk.
Qed.
Definition bad16 : list C := [C1; C0; C1; C0; C1; C1; C0; C0; C0; C0; C0; C0; C0; C0; C0; C0].
Lemma radix4_bad16 c : exists p y, fft_radix4 c new_planner bad16 = Done (p, y, ROk) /\ at_ y 4 = RtoC 4.
Proof.
  destruct (@radix4_16 R RF c new_planner C1 C0 C1 C0 C1 C1 C0 C0 C0 C0 C0 C0 C0 C0 C0 C0 (proj1 (@Inv_new R RF c))) as [p E].
  eexists p, _. split; [exact E|]. unfold r4_16, butterfly4. cbn [at_ nth]. rewrite !cmul_R.
  apply C_eq; cbn; ring.
Qed.
Lemma dft_bad16 : at_ (DFT bad16) 4 = mkcx 1%R (- (1))%R.
Proof.
  unfold DFT. rewrite at_tab by (cbn; lia). unfold dft. change (length bad16) with 16. cbn [csum].
  unfold bad16. cbn [at_ nth Nat.mul Nat.add].
  replace (W 16 0) with C1 by (symmetry; apply W_0).
  replace (W 16 8) with (RtoC (-1)).
  2:{ change 8 with (2 * 4). rewrite W_16_even. pose proof (@W_half 4 0 ltac:(lia)) as H. change (0 + 4) with 4 in H. rewrite W_0 in H.
      change (2 * 4) with 8 in H. rewrite H. apply C_eq; cbn; lra. }
  replace (W 16 16) with C1 by (symmetry; apply (@W_n 16 1); lia).
  replace (W 16 20) with (W 16 4) by (symmetry; apply (@W_cong 16 20 4); [lia|reflexivity]).
  rewrite W_16_4. apply C_eq; cbn; ring.
Qed.
(* false: radix 4 on 16 points *)
Theorem C09_strategies_refuted : forall c : cfg, c_std c = true ->
  exists (x : list C) p y, fft_with_strategy c Radix4 new_planner x = Done (p, y, ROk) /\ y <> DFT x.
Proof.
  intros c Hs. destruct (radix4_bad16 c) as (p & y & E & Hy).
  assert (H : out (fft_with_strategy c Radix4 new_planner bad16) = Done (y, ROk)).
  { rewrite strategy_radix4, Hs, E. reflexivity. }
  apply out_done in H. destruct H as [q Eq]. exists bad16, q, y. split; [exact Eq|]. intros ->.
  rewrite dft_bad16 in Hy. apply (f_equal re) in Hy. cbn in Hy. lra.
Qed.
Print Assumptions C09_strategies_refuted.
(* and on every size 4^k from 16 on, for every input with x[2] <> x[n/2] *)
Theorem C09_radix4_wrong : forall (c : cfg) (p : planner R) (k : nat) (x : list C), c_std c = true -> reachable c p ->
  2 <= k -> length x = 4 ^ k -> at_ x 2 <> at_ x (4 ^ k / 2) ->
  exists p' y, fft_with_strategy c Radix4 p x = Done (p', y, ROk) /\ length y = 4 ^ k /\ y <> DFT x.
Proof.
  intros c p k x Hs Hp Hk HL Hx. destruct (@radix4_wrong c p k x (proj1 (reachable_Inv Hp)) Hk HL Hx) as (p' & y & E & Ly & Hy).
  assert (H : out (fft_with_strategy c Radix4 p x) = Done (y, ROk)) by (rewrite strategy_radix4, Hs, E; reflexivity).
  apply out_done in H. destruct H as [q Eq]. eauto.
Qed.
Print Assumptions C09_radix4_wrong.
Example C09_example : ~ (Radix4 = Radix4 /\ c_std (cfg_std F64) = true /\ exists k, length (ones 32) = 4 ^ k /\ 2 <= k)
  /\ ~ (Radix4 = Radix4 /\ c_std (cfg_std F64) = true /\ exists k, length (ones 4) = 4 ^ k /\ 2 <= k).
Proof.
  split; intros (_ & _ & k & Hk & H2); unfold ones in Hk; rewrite repeat_length in Hk.
  - destruct k as [|[|[|k]]]; cbn in Hk; lia.
  - pose proof (@Nat.pow_le_mono_r 4 2 k ltac:(lia) H2). cbn in *. lia.
Qed.

(* ------------------------------------------------------------------ C10 *)
Theorem C10_radix4_refuted : forall c : cfg,
  exists (x : list C) p y, fft_radix4 c new_planner x = Done (p, y, ROk) /\ y <> DFT x.
Proof.
  intros c. destruct (radix4_bad16 c) as (p & y & E & Hy). exists bad16, p, y. split; [exact E|]. intros ->.
  rewrite dft_bad16 in Hy. apply (f_equal re) in Hy. cbn in Hy. lra.
Qed.
Print Assumptions C10_radix4_refuted.
(* any arithmetic, any planner state: on a size 4^k it never panics or fails *)
Theorem C10_radix4_total : forall (T : Type) (F : Float T) (c : cfg) (p : planner T) (k : nat) (x : list (cx T)),
  reachable c p -> length x = 4 ^ k -> exists p' y, fft_radix4 c p x = Done (p', y, ROk) /\ length y = 4 ^ k.
Proof.
  intros T F c p k x Hp HL. destruct (@radix4_any T F c k p x (proj1 (reachable_Inv Hp)) HL) as (p' & u & y & E & _ & _ & _ & _ & ->).
  eexists p', _. split; [exact E|]. apply tab_length.
Qed.
Print Assumptions C10_radix4_total.
(* exact arithmetic: its result on 4^k samples is the DFT of the same samples in another order *)
Theorem C10_radix4_permuted : forall (c : cfg) (p : planner R) (k : nat) (x : list C), reachable c p -> length x = 4 ^ k ->
  exists p' z, fft_radix4 c p x = Done (p', DFT z, ROk) /\ Permutation x z.
Proof.
  intros c p k x Hp HL. destruct (@radix4_exact c k p x (proj1 (reachable_Inv Hp)) HL) as (p' & z & E & _ & P & _). eauto.
Qed.
Print Assumptions C10_radix4_permuted.
(* ... and from 16 samples on never the right order when x[2] <> x[n/2] *)
Theorem C10_radix4_wrong : forall (c : cfg) (p : planner R) (k : nat) (x : list C), reachable c p ->
  2 <= k -> length x = 4 ^ k -> at_ x 2 <> at_ x (4 ^ k / 2) ->
  exists p' y, fft_radix4 c p x = Done (p', y, ROk) /\ length y = 4 ^ k /\ y <> DFT x.
Proof. intros c p k x Hp. apply radix4_wrong. exact (proj1 (reachable_Inv Hp)). Qed.
Print Assumptions C10_radix4_wrong.
Example C10_wrong_example : let x := tab 64 (fun i => RtoC (INR i)) in
  length x = 4 ^ 3 /\ at_ x 2 <> at_ x (4 ^ 3 / 2) /\ reachable (cfg_std F32) (@new_planner R).
Proof.
  cbn zeta. split; [apply tab_length|]. split; [|apply reachable_new].
  change (4 ^ 3 / 2) with 32. rewrite !at_tab by lia. intros H. apply (f_equal re) in H. cbn [re RtoC] in H. apply INR_eq in H. discriminate.
Qed.
Theorem C10_radix4_dft : forall (c : cfg) (x : list C), ~ (exists k, length x = 4 ^ k /\ 2 <= k) ->
  out (fft_radix4 c new_planner x) = Done (dft_outcome c x).
Proof.
  intros c x H. apply radix4_R. destruct (Nat.lt_ge_cases (length x) 16) as [|H16]; [left; assumption|right].
  intros [k Hk]. apply H. exists k. split; [exact Hk|]. destruct k as [|[|k]]; cbn in Hk; lia.
Qed.
Print Assumptions C10_radix4_dft.
(* mixed radix: right for every length, and bit-exactly the result of fft *)
Theorem C10_mixed_same : forall (T : Type) (F : Float T) (c : cfg) (p : planner T) (x : list (cx T)), reachable c p ->
  out (fft_mixed_radix c p x) = out (fft c p x).
Proof. intros T F c p x Hp. apply mixed_as_fft, reachable_Inv, Hp. Qed.
Print Assumptions C10_mixed_same.
Theorem C10_mixed_dft : forall (c : cfg) (x : list C), out (fft_mixed_radix c new_planner x) = Done (dft_outcome c x).
Proof. intros c x. rewrite mixed_as_fft by apply Inv_new. apply fft_outcome_new. Qed.
Print Assumptions C10_mixed_dft.
(* the twiddle-buffer variant: right from length 2 on, panics on length 1 and
   never returns on the empty buffer (however much fuel factorize is given) *)
Theorem C10_mixed_twiddles_same : forall (T : Type) (F : Float T) (c : cfg) (p : planner T) (x : list (cx T)), reachable c p ->
  1 < length x -> out (fft_mixed_radix_with_twiddles c p x) = out (fft c p x).
Proof. intros T F c p x Hp Hn. apply mixed_tw_as_fft; [apply reachable_Inv, Hp|exact Hn]. Qed.
Print Assumptions C10_mixed_twiddles_same.
Theorem C10_mixed_twiddles_dft : forall (c : cfg) (x : list C), 1 < length x ->
  out (fft_mixed_radix_with_twiddles c new_planner x) = Done (dft_outcome c x).
Proof. intros c x Hn. rewrite mixed_tw_as_fft by (apply Inv_new || exact Hn). apply fft_outcome_new. Qed.
Print Assumptions C10_mixed_twiddles_dft.
Theorem C10_mixed_twiddles_refuted : forall (T : Type) (F : Float T) (c : cfg) (p : planner T),
  (exists x : list (cx T), length x = 1 /\ fft_mixed_radix_with_twiddles c p x = Panic) /\
  (forall fuel, factorize_fuel fuel (length (@nil (cx T))) = NoFuel) /\
  fft_mixed_radix_with_twiddles c p [] = NoFuel.
Proof.
  intros T F c p. split; [exists [czero]; split; reflexivity|]. split; [intros fuel; apply factorize_0|reflexivity].
Qed.
Print Assumptions C10_mixed_twiddles_refuted.
Example C10_example : 1 < length (ones 12) /\ dft_outcome (cfg_std F32) (ones 1) = (ones 1, ROk)
  /\ ~ (exists k, length (ones 12) = 4 ^ k /\ 2 <= k).
Proof.
  split; [cbn; lia|]. split.
  - unfold dft_outcome. cbn [expected ones repeat length Nat.eqb c_std cfg_std orb]. f_equal. unfold DFT. change (length [C1]) with 1. unfold tab. cbn [seq map].
    rewrite dft_1. reflexivity.
  - intros (k & Hk & H2). pose proof (@Nat.pow_le_mono_r 4 2 k ltac:(lia) H2). unfold ones in Hk. rewrite repeat_length in Hk. cbn in *. lia.
Qed.

(* ------------------------------------------------------------------ C11 *)
(* primality and product spelled out here *)
Definition prime (p : nat) : Prop := 1 < p /\ forall d, Nat.divide d p -> d = 1 \/ d = p.
Theorem C11_factorize : forall n, 0 < n -> exists l, factorize n = Done l /\
  fold_right Nat.mul 1 l = n /\ (forall q, In q l -> prime q) /\ Sorted le l.
Proof.
  intros n Hn. destruct (@factorize_ok n Hn) as (l & E & Hp & Hf & Hs). exists l. repeat split; try assumption.
  all: rewrite Forall_forall in Hf; apply Hf; assumption.
Qed.
Print Assumptions C11_factorize.
(* false for 0: the trial division by 2 never ends *)
Theorem C11_factorize_terminates_refuted : exists n, forall fuel, factorize_fuel fuel n = NoFuel.
Proof. exists 0. intros fuel. apply factorize_0. Qed.
Print Assumptions C11_factorize_terminates_refuted.
Example C11_example : factorize 84 = Done [2; 2; 3; 7] /\ factorize 97 = Done [97] /\ factorize 1 = Done [].
Proof. repeat split. Qed.

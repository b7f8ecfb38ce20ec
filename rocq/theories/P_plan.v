(* Properties C20-C23: parallel inverse, parallel settings, plans, batches. *)
From Coq Require Import Lra Reals Permutation.
From Verif Require Import L_plan L_dft P_fft P_entry P_layout.
Set Implicit Arguments.
Open Scope nat_scope.

(* ------------------------------------------------------------------ C20 *)
(* s1, s2: the orders in which the element tasks of the two passes run. For
   T = f32 from_f32(n as f32) and n as f32 are the same conversion. *)
Theorem C20_parallel_ifft : forall (T : Type) (F : Float T) (c : cfg) (e : parenv) (s1 s2 : list nat) (p : planner T) (x : list (cx T)),
  reachable c p -> Permutation s1 (seq 0 (length x)) -> Permutation s2 (seq 0 (length x)) ->
  (c_kind c = F32 -> fas (length x) = fofnat (length x)) ->
  ifft_full c e s1 s2 p x = ifft c p x.
Proof. intros T F c e s1 s2 p x Hp H1 H2 Hf. apply ifft_full_ok; try assumption. apply reachable_Inv, Hp. Qed.
Print Assumptions C20_parallel_ifft.
Theorem C20_schedule_independent : forall (T : Type) (F : Float T) (c : cfg) (e : parenv) (s1 s2 t1 t2 : list nat) (p : planner T) (x : list (cx T)),
  reachable c p -> Permutation s1 (seq 0 (length x)) -> Permutation s2 (seq 0 (length x)) ->
  Permutation t1 (seq 0 (length x)) -> Permutation t2 (seq 0 (length x)) ->
  ifft_full c e s1 s2 p x = ifft_full c e t1 t2 p x.
Proof.
  intros T F c e s1 s2 t1 t2 p x Hp H1 H2 H3 H4. unfold ifft_full.
  destruct (_ =? 0); [reflexivity|]. destruct (_ =? 1); [reflexivity|]. destruct (_ && _); [|reflexivity].
  rewrite !par_for_each_ok by assumption. cbn [bind].
  destruct (@fft_total T F c p (map cconj x) (reachable_Inv Hp)) as (q & y & r & E & Hl). rewrite E. cbn [bind]. destruct r; [|reflexivity].
  rewrite map_length in Hl. rewrite !par_for_each_ok by (rewrite Hl; assumption). reflexivity.
Qed.
Print Assumptions C20_schedule_independent.
Theorem C20_parallel_ifft_exact : forall (c : cfg) (e : parenv) (s1 s2 : list nat) (x : list C),
  Permutation s1 (seq 0 (length x)) -> Permutation s2 (seq 0 (length x)) -> 0 < length x ->
  c_std c = true \/ is_pow2 (length x) = true -> exists p, ifft_full c e s1 s2 new_planner x = Done (p, IDFT x, ROk).
Proof.
  intros c e s1 s2 x H1 H2 Hn Hs. rewrite C20_parallel_ifft; try assumption; [apply C02_ifft_is_idft; assumption|exists []; reflexivity|].
  reflexivity.
Qed.
Print Assumptions C20_parallel_ifft_exact.
(* with both features the parallel branch really is taken *)
Definition cfg_par : cfg :=
  {| c_std := true; c_parallel := true; c_fma := false; c_precomp := true; c_kind := F32; c_lanes := 4 |}.
Definition env0 : parenv := mkPar 0 0 0 0 0 0 4096 4096 1024 4 0.
Example C20_example : Permutation [2; 0; 1; 3] (seq 0 (length (ones 4))) /\
  c_parallel cfg_par && should_parallelize_fft cfg_par (set_parallel_fft_threshold env0 2) 4 (base_threshold cfg_par env0) = true.
Proof.
  split; [|reflexivity]. cbn. apply Permutation_sym. apply (@Permutation_cons_app _ _ [2] [1; 3] 0). cbn. apply perm_swap || apply Permutation_refl.
Qed.

(* ------------------------------------------------------------------ C21 *)
Theorem C21_threshold_set : forall (c : cfg) (e : parenv) t n base, 0 < t ->
  should_parallelize_fft c (set_parallel_fft_threshold e t) n base = true <-> t <= n.
Proof.
  intros c e t n base Ht. unfold should_parallelize_fft. cbn [o_thr set_parallel_fft_threshold].
  destruct (Nat.eqb_spec t 0); [lia|]. cbn [negb]. destruct (Nat.eqb_spec t 0); [lia|]. cbn [negb]. apply Nat.leb_le.
Qed.
Print Assumptions C21_threshold_set.
(* an override when set, otherwise the environment/default value *)
Definition value (o d : nat) : nat := if o =? 0 then d else o.
(* the documented decision: per-core minimum (one L1 cache, the work and the
   block size) times the number of threads *)
Definition documented (c : cfg) (e : parenv) (n : nat) : Prop :=
  let threads := value (o_threads e) (if c_std c then e_threads e else 1) in
  let block := value (o_block e) (if c_std c then e_block e else 1024) in
  let cache := value (o_cache e) (if c_std c then e_cache e else 32 * 1024) in
  let work := value (o_work e) (if c_std c then e_work e else 4096) in
  let work := if c_std c then Nat.max work (e_calib e) else work in
  Nat.max (cache / 8) (Nat.max work block) * threads <= n.
(* with the threshold reset and no base threshold, the setters act as documented *)
Theorem C21_heuristic : forall (c : cfg) (e : parenv) n, o_thr e = 0 ->
  should_parallelize_fft c e n 0 = true <-> documented c e n.
Proof.
  intros c e n H0. unfold should_parallelize_fft, documented. rewrite H0. cbn [Nat.eqb negb]. rewrite Nat.leb_le.
  unfold bytes_per_elem, value.
  destruct (o_threads e =? 0), (o_block e =? 0), (o_cache e =? 0), (o_work e =? 0); reflexivity.
Qed.
Print Assumptions C21_heuristic.
(* without std every call uses that decision *)
Theorem C21_setters_nostd : forall (c : cfg) (e : parenv) n, c_std c = false -> o_thr e = 0 ->
  should_parallelize_fft c e n (base_threshold c e) = true <-> documented c e n.
Proof. intros c e n Hs H0. unfold base_threshold. rewrite Hs. apply C21_heuristic. exact H0. Qed.
Print Assumptions C21_setters_nostd.
(* with std the base threshold computed from the environment alone decides
   whenever it is not zero: the other four setters have no effect at all *)
Theorem C21_setters_ignored : forall (c : cfg) (e : parenv) n v, c_std c = true -> o_thr e = 0 -> base_threshold c e <> 0 ->
  (should_parallelize_fft c e n (base_threshold c e) = true <-> parallel_fft_threshold e <= n) /\
  Forall (fun e' => should_parallelize_fft c e' n (base_threshold c e') = should_parallelize_fft c e n (base_threshold c e))
    [set_parallel_fft_l1_cache e v; set_parallel_fft_per_core_work e v; set_parallel_fft_block_size e v; set_parallel_fft_threads e v].
Proof.
  intros c e n v Hs H0 Hb.
  assert (G : forall e', o_thr e' = 0 -> base_threshold c e' = base_threshold c e ->
     should_parallelize_fft c e' n (base_threshold c e') = (base_threshold c e <=? n)).
  { intros e' H0' ->. unfold should_parallelize_fft. rewrite H0'. cbn [Nat.eqb negb].
    destruct (Nat.eqb_spec (base_threshold c e) 0); [contradiction|]. reflexivity. }
  rewrite (G e H0 eq_refl). split.
  - unfold base_threshold. rewrite Hs. apply Nat.leb_le.
  - repeat constructor; apply G; try assumption; unfold base_threshold; rewrite Hs; reflexivity.
Qed.
Print Assumptions C21_setters_ignored.
(* nothing overridden: the environment's threshold when there is one, else the documented decision *)
Theorem C21_no_overrides : forall (c : cfg) (e : parenv) n, c_std c = true ->
  o_thr e = 0 -> o_cache e = 0 -> o_work e = 0 -> o_block e = 0 -> o_threads e = 0 ->
  should_parallelize_fft c e n (base_threshold c e) = true <-> (e_thr e <> 0 /\ e_thr e <= n) \/ (e_thr e = 0 /\ documented c e n).
Proof.
  intros c e n Hs H1 H2 H3 H4 H5. destruct (Nat.eq_dec (base_threshold c e) 0) as [Eb|Nb].
  - rewrite Eb, C21_heuristic by exact H1. unfold base_threshold in Eb. rewrite Hs in Eb. unfold parallel_fft_threshold in Eb.
    destruct (Nat.eqb_spec (e_thr e) 0) as [E|N]; cbn [negb] in Eb; tauto.
  - unfold should_parallelize_fft. rewrite H1. cbn [Nat.eqb negb]. destruct (Nat.eqb_spec (base_threshold c e) 0); [contradiction|]. cbn [negb]. rewrite Nat.leb_le.
    unfold base_threshold, documented, value, parallel_fft_threshold, bytes_per_elem in *. rewrite Hs, H2, H3, H4, H5 in *. cbn [Nat.eqb negb].
    destruct (Nat.eqb_spec (e_thr e) 0) as [E|N]; cbn [negb]; tauto.
Qed.
Print Assumptions C21_no_overrides.
Theorem C21_setters_refuted : forall c : cfg, c_std c = true ->
  exists (e : parenv) n, o_thr e = 0 /\ 0 < o_cache e /\ 0 < o_work e /\ 0 < o_block e /\ 0 < o_threads e /\
    documented c e n /\ should_parallelize_fft c e n (base_threshold c e) = false.
Proof.
  intros c Hs. exists (set_parallel_fft_l1_cache (set_parallel_fft_per_core_work (set_parallel_fft_block_size (set_parallel_fft_threads env0 1) 8) 8) 64), 8.
  unfold documented, base_threshold. rewrite Hs. vm_compute. repeat split; lia.
Qed.
Print Assumptions C21_setters_refuted.
Example C21_example : o_thr env0 = 0 /\ base_threshold cfg_par env0 <> 0 /\ documented (cfg_nostd F32) (set_parallel_fft_threads (set_parallel_fft_per_core_work (set_parallel_fft_block_size (set_parallel_fft_l1_cache env0 16) 1) 1) 2) 5.
Proof. split; [reflexivity|]. split; [vm_compute; discriminate|]. vm_compute. lia. Qed.

(* ------------------------------------------------------------------ C22 *)
(* the outcome of a call on a plan with any history is that of a new plan *)
Theorem C22_repeatable : forall (T : Type) (F : Float T) (c : cfg) n s (ks : list (pcall T)) pn,
  plan_calls c (plan_new n s) ks = Done pn ->
  (forall x, out (plan_fft c pn x) = out (plan_fft c (plan_new n s) x)) /\
  (forall x, out (plan_ifft c pn x) = out (plan_ifft c (plan_new n s) x)) /\
  (forall x y, out (plan_oop (plan_fft c) pn x y) = out (plan_oop (plan_fft c) (plan_new n s) x y)) /\
  (forall x y, out (plan_oop (plan_ifft c) pn x y) = out (plan_oop (plan_ifft c) (plan_new n s) x y)) /\
  (forall a b, out2 (plan_split (fft_split c) pn a b) = out2 (plan_split (fft_split c) (plan_new n s) a b)) /\
  (forall a b, out2 (plan_split (ifft_split c) pn a b) = out2 (plan_split (ifft_split c) (plan_new n s) a b)).
Proof.
  intros T F c n s ks pn E. pose proof (plan_calls_inv ks (@plan_inv_new T F c n s) E) as HI.
  assert (H1 : forall x, out (plan_fft c pn x) = out (plan_fft c (plan_new n s) x)) by (intros; apply plan_fft_indep; exact HI).
  assert (H2 : forall x, out (plan_ifft c pn x) = out (plan_ifft c (plan_new n s) x)) by (intros; apply plan_ifft_indep; exact HI).
  split; [exact H1|]. split; [exact H2|]. split; [|split; [|split]]; intros.
  - apply (@plan_oop_indep T F c n s); auto.
  - apply (@plan_oop_indep T F c n s); auto.
  - apply (@plan_split_indep T F c n s); auto. intros. apply fft_split_indep; assumption.
  - apply (@plan_split_indep T F c n s); auto. intros. apply ifft_split_indep; assumption.
Qed.
Print Assumptions C22_repeatable.
Theorem C22_length_check : forall (T : Type) (F : Float T) (c : cfg) n s (ks : list (pcall T)) pn,
  plan_calls c (plan_new n s) ks = Done pn ->
  (forall x, length x <> n -> plan_fft c pn x = Done (pn, x, RErr MismatchedLengths) /\ plan_ifft c pn x = Done (pn, x, RErr MismatchedLengths)) /\
  (forall x y, length x <> n \/ length y <> n ->
     plan_oop (plan_fft c) pn x y = Done (pn, y, RErr MismatchedLengths) /\ plan_oop (plan_ifft c) pn x y = Done (pn, y, RErr MismatchedLengths)) /\
  (forall a b, length a <> n \/ length b <> n ->
     plan_split (fft_split c) pn a b = Done (pn, a, b, RErr MismatchedLengths) /\ plan_split (ifft_split c) pn a b = Done (pn, a, b, RErr MismatchedLengths)).
Proof.
  intros T F c n s ks pn E. destruct (plan_calls_inv ks (@plan_inv_new T F c n s) E) as (Hn & _).
  unfold plan_fft, plan_ifft, plan_oop, plan_split. rewrite Hn. split; [|split].
  - intros x H. destruct (Nat.eqb_spec (length x) n); [contradiction|]. auto.
  - intros x y H. destruct (Nat.eqb_spec (length x) n), (Nat.eqb_spec (length y) n); cbn [negb orb]; auto. lia.
  - intros x y H. destruct (Nat.eqb_spec (length x) n), (Nat.eqb_spec (length y) n); cbn [negb orb]; auto. lia.
Qed.
Print Assumptions C22_length_check.
(* what cannot be transformed is refused by both directions, whatever the strategy: the empty plan, and
   without std every length that is not a power of two; the forward call keeps the buffer, the inverse
   leaves it conjugated (C06) *)
Theorem C22_errors : forall (T : Type) (F : Float T) (c : cfg) n s (ks : list (pcall T)) pn (x : list (cx T)),
  plan_calls c (plan_new n s) ks = Done pn -> length x = n -> n = 0 \/ (c_std c = false /\ ~ (exists m, n = 2 ^ m)) ->
  let e := RErr (if n =? 0 then EmptyInput else NonPowerOfTwoNoStd) in
  exists pn' pn'', plan_fft c pn x = Done (pn', x, e) /\ plan_ifft c pn x = Done (pn'', map cconj x, e).
Proof.
  intros T F c n s ks pn x E Hn Hc e. destruct (@C22_repeatable T F c n s ks pn E) as (R1 & R2 & _).
  assert (Hp : n = 0 \/ (c_std c = false /\ 0 < n /\ is_pow2 n = false)).
  { destruct Hc as [->|[H1 H2]]; [auto|]. destruct (Nat.eq_dec n 0); [auto|right]. split; [exact H1|]. split; [lia|].
    destruct (is_pow2 n) eqn:Ep; [|reflexivity]. exfalso. apply H2, is_pow2_iff, Ep. }
  assert (Hr : reachable c (@new_planner T)) by (exists []; reflexivity).
  assert (A : forall y, length y = n -> out (fft c (@new_planner T) y) = Done (y, e)).
  { intros y Hy. destruct (@C05_fft_contract T F c new_planner y Hr) as (p' & z & Ef & _).
    assert (Ee : expected c (length y) = e).
    { unfold expected, e. rewrite Hy. destruct Hp as [->|(H1 & H2 & H3)]; [reflexivity|]. destruct (Nat.eqb_spec n 0); [lia|]. rewrite H1, H3. reflexivity. }
    rewrite Ee in Ef. destruct (@C06_fft_error_keeps_buffer T F c new_planner y z p' _ Hr Ef) as [-> _]. rewrite Ef. reflexivity. }
  assert (N1 : n <> 1) by (destruct Hp as [->|(_ & H1 & H2)]; [lia|]; intros ->; discriminate H2).
  assert (B : forall y, length y = n -> out (plan_fft c (plan_new n s) y) = Done (y, e)).
  { intros y Hy. unfold plan_fft, plan_new. cbn [plan_n plan_strat plan_pl]. rewrite Hy, Nat.eqb_refl. cbn [negb].
    assert (S1 : out (stockham_fft c new_planner y) = Done (y, e)) by (rewrite stockham_as_fft; [apply A; exact Hy|apply Inv_new|lia]).
    assert (S2 : out (fft_with_strategy c s new_planner y) = Done (y, e)).
    { destruct (Nat.eq_dec n 0) as [H0|H0].
      - unfold fft_with_strategy, e. rewrite Hy, H0. reflexivity.
      - destruct Hp as [?|(H1 & _)]; [contradiction|]. rewrite (@C09_strategies_same T F c s new_planner y Hr) by (right; left; exact H1). apply A. exact Hy. }
    destruct (c_kind c), s;
      first [destruct (stockham_fft c new_planner y) as [[[q z] r]| |]; cbn in S1; try discriminate; exact S1
            |destruct (fft_with_strategy c _ new_planner y) as [[[q z] r]| |]; cbn in S2; try discriminate; exact S2]. }
  assert (D : out (plan_ifft c (plan_new n s) x) = Done (map cconj x, e)).
  { unfold plan_ifft. cbn [plan_n plan_new]. rewrite Hn, Nat.eqb_refl. cbn [negb]. fold (plan_new (T := T) n s).
    specialize (B (map cconj x) ltac:(rewrite map_length; exact Hn)). destruct (plan_fft c (plan_new n s) (map cconj x)) as [[[q z] r]| |]; cbn in B; try discriminate.
    injection B as -> ->. reflexivity. }
  specialize (R1 x). specialize (R2 x). rewrite (B x Hn) in R1. rewrite D in R2. apply out_done in R1, R2. destruct R1 as [q1 R1], R2 as [q2 R2]. eauto.
Qed.
Print Assumptions C22_errors.
Example C22_errors_example : c_std (cfg_nostd F64) = false /\ ~ (exists m, 3 = 2 ^ m).
Proof. split; [reflexivity|]. intros [[|[|m]] H]; cbn in H; lia. Qed.
(* the plans that work: excluded are the one-sample f32 radix plans (C07) and
   radix 4 on 16, 64, ... points for other types (C09) *)
Definition plan_works (c : cfg) (n : nat) (s : strategy) : Prop :=
  match c_kind c with
  | F32 => n <> 1 \/ s = SplitRadix \/ s = Auto
  | _ => ~ (s = Radix4 /\ c_std c = true /\ exists k, n = 4 ^ k /\ 2 <= k)
  end.
Lemma plan_fft_R c n s (x : list C) : plan_works c n s -> length x = n -> 0 < n -> c_std c = true \/ is_pow2 n = true ->
  out (plan_fft c (plan_new n s) x) = Done (DFT x, ROk).
Proof.
  intros Hw Hn H0 Hs. unfold plan_fft, plan_new. cbn [plan_n plan_strat plan_pl]. rewrite Hn, Nat.eqb_refl. cbn [negb].
  assert (Ho : dft_outcome c x = (DFT x, ROk)).
  { unfold dft_outcome, expected. rewrite Hn. destruct (Nat.eqb_spec n 0); [lia|]. apply supported_cases in Hs. unfold supported in Hs. rewrite Hs. reflexivity. }
  assert (A : out (stockham_fft c new_planner x) = Done (DFT x, ROk) \/ n = 1).
  { destruct (Nat.eq_dec n 1); [auto|left]. rewrite <- Ho. apply (C07_stockham_is_dft c x true). rewrite Hn. assumption. }
  assert (B : ~ (s = Radix4 /\ c_std c = true /\ exists k, n = 4 ^ k /\ 2 <= k) -> out (fft_with_strategy c s new_planner x) = Done (DFT x, ROk)).
  { intros H. rewrite <- Ho. apply C09_strategies_dft. rewrite Hn. exact H. }
  unfold plan_works in Hw.
  destruct (c_kind c).
  1: destruct s.
  1,2: destruct A as [A| ->]; [|destruct Hw as [?|[?|?]]; congruence];
     destruct (stockham_fft c new_planner x) as [[[q y] r]| |]; cbn in A; try discriminate; exact A.
  1,2: specialize (B ltac:(intros [? _]; discriminate)); unfold out in B; destruct (fft_with_strategy _ _ new_planner x) as [[[q y] r]| |]; cbn in B; try discriminate; exact B.
  all: specialize (B Hw); unfold out in B; destruct (fft_with_strategy _ _ new_planner x) as [[[q y] r]| |]; cbn in B; try discriminate; exact B.
Qed.
Theorem C22_fft_is_dft : forall (c : cfg) n s (ks : list (pcall R)) pn (x : list C),
  plan_calls c (plan_new n s) ks = Done pn -> plan_works c n s -> length x = n -> 0 < n -> c_std c = true \/ is_pow2 n = true ->
  exists pn', plan_fft c pn x = Done (pn', DFT x, ROk).
Proof.
  intros c n s ks pn x E Hw Hn H0 Hs. destruct (@C22_repeatable R RF c n s ks pn E) as [H _]. specialize (H x).
  rewrite plan_fft_R in H by assumption. apply out_done in H. exact H.
Qed.
Print Assumptions C22_fft_is_dft.
Lemma scaled_conj_R n (x : list C) : length x = n -> 0 < n ->
  map (fun v => cscale (fdiv fone (fofnat n)) (cconj v)) (DFT (map cconj x)) = IDFT x.
Proof.
  intros Hl Hn. destruct (Nat.eq_dec n 1) as [->|H1].
  - destruct (single x Hl) as [a ->]. cbn [map]. unfold DFT, IDFT. change (length [cconj a]) with 1. change (length [a]) with 1. unfold tab. cbn [seq map].
    rewrite dft_1. unfold idft. cbn [csum Nat.mul]. rewrite W_0. cbn [at_ nth]. f_equal. apply C_eq; cbn; field.
  - rewrite <- (@ifft_fresh_R (cfg_std F32) x) by lia. unfold ifft_fresh. rewrite Hl. destruct (Nat.eqb_spec n 1); [contradiction|].
    rewrite fft_fresh_R by (rewrite map_length, Hl; exact Hn). reflexivity.
Qed.
Theorem C22_ifft_is_idft : forall (c : cfg) n s (ks : list (pcall R)) pn (x : list C),
  plan_calls c (plan_new n s) ks = Done pn -> plan_works c n s -> length x = n -> 0 < n -> c_std c = true \/ is_pow2 n = true ->
  exists pn', plan_ifft c pn x = Done (pn', IDFT x, ROk).
Proof.
  intros c n s ks pn x E Hw Hn H0 Hs. destruct (plan_calls_inv ks (@plan_inv_new R RF c n s) E) as (Hpn & _).
  unfold plan_ifft. rewrite Hpn, Hn, Nat.eqb_refl. cbn [negb].
  destruct (@C22_fft_is_dft c n s ks pn (map cconj x) E Hw) as [pn' E']; rewrite ?map_length; try assumption.
  rewrite E'. cbn [bind]. rewrite scaled_conj_R by assumption. eauto.
Qed.
Print Assumptions C22_ifft_is_idft.
Theorem C22_round_trip : forall (c : cfg) n s (ks : list (pcall R)) pn (x : list C),
  plan_calls c (plan_new n s) ks = Done pn -> plan_works c n s -> length x = n -> 0 < n -> c_std c = true \/ is_pow2 n = true ->
  exists pn' y pn'', plan_fft c pn x = Done (pn', y, ROk) /\ plan_ifft c pn' y = Done (pn'', x, ROk).
Proof.
  intros c n s ks pn x E Hw Hn H0 Hs. destruct (@C22_fft_is_dft c n s ks pn x E Hw Hn H0 Hs) as [pn' E'].
  exists pn', (DFT x).
  assert (Ek : plan_calls c (plan_new n s) (ks ++ [PFft x]) = Done pn').
  { clear - E E'. revert E. generalize (plan_new (T := R) n s) as q. induction ks as [|k ks IH]; intros q E; cbn [plan_calls app] in *.
    - injection E as ->. cbn [plan_call]. rewrite E'. reflexivity.
    - destruct (plan_call c q k); cbn [bind] in *; try discriminate. apply IH. exact E. }
  destruct (@C22_ifft_is_idft c n s _ pn' (DFT x) Ek Hw) as [pn'' E'']; rewrite ?DFT_length; try assumption.
  rewrite IDFT_DFT in E''. eauto.
Qed.
Print Assumptions C22_round_trip.
(* false in general: radix 4, 16 points *)
Theorem C22_round_trip_refuted : forall c : cfg, c_std c = true -> c_kind c <> F32 ->
  exists (x : list C) pn y pn' z, length x = 16 /\ plan_fft c (plan_new 16 Radix4) x = Done (pn, y, ROk) /\
    plan_ifft c pn y = Done (pn', z, ROk) /\ z <> x.
Proof.
  intros c Hs Hk.
  assert (P : forall pn : plan R, plan_n pn = 16 -> plan_strat pn = Radix4 -> forall x, length x = 16 ->
     plan_fft c pn x = ('(p, y, r) <- fft_radix4 c (plan_pl pn) x ;; Done (mkPlan 16 Radix4 p, y, r))).
  { intros pn H1 H2 x Hl. unfold plan_fft. rewrite H1, H2, Hl. cbn [Nat.eqb negb].
    unfold fft_with_strategy. rewrite Hl, Hs. cbn [Nat.eqb]. destruct (c_kind c); congruence || reflexivity. }
  destruct (@radix4_16 R RF c new_planner C1 C0 C1 C0 C1 C1 C0 C0 C0 C0 C0 C0 C0 C0 C0 C0 (proj1 (@Inv_new R RF c))) as [p E].
  set (f := RtoC 4). set (y := [f; C0; C0; C0; f; C0; C0; C0; f; C0; C0; C0; f; C0; C0; C0]).
  assert (Ey : r4_16 c C1 C0 C1 C0 C1 C1 C0 C0 C0 C0 C0 C0 C0 C0 C0 C0
         (nthc (twf c 16) 1) (nthc (twf c 16) 2) (nthc (twf c 16) 3) = y).
  { unfold r4_16, butterfly4. rewrite !cmul_R.
    generalize (nthc (F := RF) (twf c 16) 1) (nthc (F := RF) (twf c 16) 2) (nthc (F := RF) (twf c 16) 3). intros u v w. unfold y, f.
    repeat (apply f_equal2; [apply C_eq; cbn; ring|]). reflexivity. }
  rewrite Ey in E. change [C1; C0; C1; C0; C1; C1; C0; C0; C0; C0; C0; C0; C0; C0; C0; C0] with bad16 in E.
  assert (E1 : plan_fft c (plan_new 16 Radix4) bad16 = Done (mkPlan 16 Radix4 p, y, ROk)).
  { rewrite P by reflexivity. cbn [plan_pl plan_new]. rewrite E. reflexivity. }
  assert (Hc : cache_ok p).
  { destruct (@plan_fft_inv R RF c 16 Radix4 (plan_new 16 Radix4) bad16 _ _ _ (@plan_inv_new R RF c 16 Radix4) E1) as [(_ & _ & (Hc & _) & _) _]. exact Hc. }
  pose (g := cconj (F := RF) f). pose (o := cconj (F := RF) C0).
  destruct (@radix4_16 R RF c p g o o o g o o o g o o o g o o o Hc) as [p2 E2].
  exists bad16. eexists _, _, _, _. split; [reflexivity|]. split; [exact E1|]. split.
  - unfold plan_ifft. cbn [plan_n]. change (length y =? 16) with true. cbn [negb].
    change (map cconj y) with [g; o; o; o; g; o; o; o; g; o; o; o; g; o; o; o]. rewrite P by reflexivity. cbn [plan_pl].
    rewrite E2. cbn [bind]. reflexivity.
  - intros H. apply (f_equal (fun l => im (at_ l 4))) in H. revert H. unfold r4_16, butterfly4. rewrite !cmul_R. unfold bad16.
    cbn [map at_ nth]. unfold g, o, f. cbn. intros H. lra.
Qed.
Print Assumptions C22_round_trip_refuted.
Example C22_example : plan_works (cfg_std F64) 32 Radix4 /\ plan_works (cfg_std F32) 16 Radix4 /\ plan_works (cfg_std F32) 1 Auto
  /\ plan_calls (cfg_std F32) (plan_new (T := R) 4 Auto) [PFft [C1]; PSplit [1%R] [0%R]] = Done (plan_new 4 Auto).
Proof.
  split; [|split; [left; discriminate|split; [right; right; reflexivity|]]].
  - intros (_ & _ & k & Hk & H2). destruct k as [|[|[|k]]]; cbn in Hk; lia.
  - cbn [plan_calls plan_call bind]. unfold plan_fft, plan_split. cbn [length plan_n plan_new Nat.eqb negb orb bind]. reflexivity.
Qed.

(* ------------------------------------------------------------------ C23 *)
(* transforming a list of buffers one after the other, all succeeding *)
Inductive runs {S A} (op : S -> A -> exec (S * A * rres)) : S -> list A -> S -> list A -> Prop :=
| runs_nil s : runs op s [] s []
| runs_cons s b s' b' bs s'' bs' : op s b = Done (s', b', ROk) -> runs op s' bs s'' bs' -> runs op s (b :: bs) s'' (b' :: bs').
Definition ok_len (c : cfg) (n : nat) : Prop := 0 < n /\ (c_std c = true \/ is_pow2 n = true).
Lemma expected_ok c n : expected c n = ROk <-> ok_len c n.
Proof.
  unfold expected, ok_len. destruct (Nat.eqb_spec n 0) as [->|H].
  - split; [discriminate|lia].
  - rewrite <- (supported_cases c n). unfold supported. destruct (c_std c || is_pow2 n); split; try discriminate; intros; try (split; [lia|reflexivity]); try reflexivity.
    destruct H0; discriminate.
Qed.
Theorem C23_batch : forall (T : Type) (F : Float T) (c : cfg) (bs : list (list (cx T))) (p : planner T), reachable c p ->
  (Forall (fun b => ok_len c (length b)) bs /\ exists p' bs', runs (fft c) p bs p' bs' /\ batch (fft c) p bs = Done (p', bs', ROk)) \/
  (exists pre b post p' pre' e, bs = pre ++ b :: post /\ Forall (fun b => ok_len c (length b)) pre /\ ~ ok_len c (length b) /\
     expected c (length b) = RErr e /\ runs (fft c) p pre p' pre' /\ batch (fft c) p bs = Done (p', pre' ++ b :: post, RErr e)).
Proof.
  intros T F c bs. induction bs as [|b bs IH]; intros p Hp.
  - left. split; [constructor|]. exists p, []. split; [constructor|reflexivity].
  - destruct (@C05_fft_contract T F c p b Hp) as (q & y & E & Hl & Hq & _). cbn [batch]. rewrite E. cbn [bind].
    destruct (expected c (length b)) eqn:Ex.
    + apply expected_ok in Ex. destruct (IH q Hq) as [(HF & p' & bs' & Hr & Eb)|(pre & b2 & post & p' & pre' & e & Hb & HF & Hn & He & Hr & Eb)]; rewrite Eb; cbn [bind].
      * left. split; [constructor; assumption|]. exists p', (y :: bs'). split; [econstructor; eassumption|reflexivity].
      * right. exists (b :: pre), b2, post, p', (y :: pre'), e. subst bs. repeat split; try assumption; try reflexivity.
        -- constructor; assumption.
        -- econstructor; eassumption.
    + right. destruct (@C06_fft_error_keeps_buffer T F c p b y q e Hp E) as [-> ->].
      exists [], b, bs, p, [], e. repeat split; try constructor; try assumption.
      intros H. apply expected_ok in H. congruence.
Qed.
Print Assumptions C23_batch.
(* the inverse: the same, except that the failing buffer itself may come back changed *)
Theorem C23_batch_inverse : forall (T : Type) (F : Float T) (c : cfg) (bs : list (list (cx T))) (p : planner T), reachable c p ->
  (Forall (fun b => ok_len c (length b)) bs /\ exists p' bs', runs (ifft c) p bs p' bs' /\ batch (ifft c) p bs = Done (p', bs', ROk)) \/
  (exists pre b b' post p' p'' pre' e, bs = pre ++ b :: post /\ Forall (fun b => ok_len c (length b)) pre /\ ~ ok_len c (length b) /\
     expected c (length b) = RErr e /\ runs (ifft c) p pre p' pre' /\ ifft c p' b = Done (p'', b', RErr e) /\
     batch (ifft c) p bs = Done (p'', pre' ++ b' :: post, RErr e)).
Proof.
  intros T F c bs. induction bs as [|b bs IH]; intros p Hp.
  - left. split; [constructor|]. exists p, []. split; [constructor|reflexivity].
  - destruct (@C05_ifft_contract T F c p b Hp) as (q & y & E & Hl & Hq & _). cbn [batch]. rewrite E. cbn [bind].
    destruct (expected c (length b)) eqn:Ex.
    + apply expected_ok in Ex. destruct (IH q Hq) as [(HF & p' & bs' & Hr & Eb)|(pre & b2 & b3 & post & p' & p'' & pre' & e & Hb & HF & Hn & He & Hr & Ee & Eb)]; rewrite Eb; cbn [bind].
      * left. split; [constructor; assumption|]. exists p', (y :: bs'). split; [econstructor; eassumption|reflexivity].
      * right. exists (b :: pre), b2, b3, post, p', p'', (y :: pre'), e. subst bs. repeat split; try assumption; try reflexivity.
        -- constructor; assumption.
        -- econstructor; eassumption.
    + right. exists [], b, y, bs, p, q, [], e. repeat split; try constructor; try assumption.
      intros H. apply expected_ok in H. congruence.
Qed.
Print Assumptions C23_batch_inverse.
(* false for batch_inverse without std: the failing buffer is left conjugated *)
Theorem C23_inverse_failing_unchanged_refuted : forall c : cfg, c_std c = false ->
  exists (b y : list C) p e, batch (ifft c) new_planner [b] = Done (p, [y], RErr e) /\ y <> b.
Proof.
  intros c Hs. destruct (@C06_ifft_error_keeps_buffer_refuted c Hs) as (x & y & p & e & E & H). exists x, y, p, e.
  split; [|exact H]. cbn [batch]. rewrite E. reflexivity.
Qed.
Print Assumptions C23_inverse_failing_unchanged_refuted.
(* exact arithmetic, equal sizes: every buffer is replaced by its DFT *)
Theorem C23_batch_dft : forall (c : cfg) n (bs : list (list C)), ok_len c n -> (forall b, In b bs -> length b = n) ->
  exists p, batch (fft c) new_planner bs = Done (p, map DFT bs, ROk).
Proof.
  intros c n bs [Hn Hs].
  assert (G : forall p, Inv c p -> length (pl_sre p) <= padded n -> length (pl_bscratch p) <= padded n -> (forall b, In b bs -> length b = n) ->
     exists p', batch (fft c) p bs = Done (p', map DFT bs, ROk)).
  { induction bs as [|b bs IH]; intros p HI H1 H2 Hb; [exists p; reflexivity|].
    assert (Lb : length b = n) by (apply Hb; left; reflexivity).
    destruct (@fft_ok R RF c p b HI) as (q & y & E & HI' & Hl & Hy & Hsz); rewrite ?Lb; try assumption.
    rewrite Lb in *. specialize (Hsz (padded n) H1 H2 (le_n _)). specialize (Hy (ready_size c p n H1 H2)).
    destruct (IH q) as [p' E']; try tauto. { intros b' Hin. apply Hb. right. exact Hin. }
    exists p'. cbn [batch map]. rewrite E. cbn [bind]. rewrite E'. cbn [bind]. rewrite Hy, fft_fresh_R by lia. reflexivity. }
  intros Hb. apply G; [apply Inv_new|cbn; lia|cbn; lia|exact Hb].
Qed.
Print Assumptions C23_batch_dft.
Example C23_example : ok_len (cfg_std F32) 12 /\ ~ ok_len (cfg_nostd F32) 12 /\ (forall b, In b [ones 12; zeros 12] -> length b = 12).
Proof.
  split; [split; [lia|left; reflexivity]|]. split; [intros [_ [H|H]]; discriminate|].
  intros b [<-|[<-|[]]]; reflexivity.
Qed.

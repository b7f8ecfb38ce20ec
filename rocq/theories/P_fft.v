(* Properties C01-C06, C18, C19, C24-C27: the scalar FFT object. *)
From Coq Require Import Lra Reals.
From Verif Require Import L_obj L_dft.
Set Implicit Arguments.
Open Scope nat_scope.

Section Lemmas.
Variable c : cfg.
Implicit Types x y : list C.

Lemma fft_new_R x : 0 < length x -> (c_std c = true \/ is_pow2 (length x) = true) ->
  exists p, fft c new_planner x = Done (p, DFT x, ROk).
Proof.
  intros Hn Hs. destruct (fft_fresh_ok c x Hn Hs) as [p E]. exists p. rewrite E, fft_fresh_R by exact Hn. reflexivity.
Qed.
Lemma ifft_fresh_R x : 0 < length x -> ifft_fresh c x = IDFT x.
Proof.
  intros Hn. unfold ifft_fresh. destruct (Nat.eqb_spec (length x) 1) as [E|E].
  - destruct x as [|a [|]]; try discriminate. unfold IDFT. cbn [length tab seq map]. unfold idft.
    cbn [csum Nat.mul INR]. rewrite W_0, Rinv_1. f_equal. creal; cbn; ring.
  - rewrite fft_fresh_R by (rewrite map_length; exact Hn). unfold DFT, IDFT. rewrite map_length, map_tab.
    apply tab_ext. intros j Hj. rewrite <- idft_conj.
    rewrite (@dft_ext (length x) (at_ (map cconj x)) (fun k => Cconj (at_ x k))).
    + unfold cscale, cconj. cbn [re im fdiv fone fofnat fmul fneg RF RFloat_of]. creal; unfold Rdiv; ring.
    + intros i Hi. unfold at_. rewrite map_as_tab with (d := C0), nth_tab by exact Hi. reflexivity.
Qed.
Lemma fft_ready_R p x : Inv c p -> ready c p (length x) -> 0 < length x -> (c_std c = true \/ is_pow2 (length x) = true) ->
  exists p', fft c p x = Done (p', DFT x, ROk).
Proof.
  intros HI Hr Hn Hs. destruct (fft_cases x HI) as [[H _]|[(_ & H & _)|(_ & _ & p' & y & E & _ & _ & Hy)]].
  - lia.
  - apply supported_cases in Hs. congruence.
  - exists p'. rewrite E, (Hy Hr), fft_fresh_R by exact Hn. reflexivity.
Qed.
Lemma ifft_ready_R p x : Inv c p -> ready c p (length x) -> 0 < length x -> (c_std c = true \/ is_pow2 (length x) = true) ->
  exists p', ifft c p x = Done (p', IDFT x, ROk).
Proof.
  intros HI Hr Hn Hs. destruct (ifft_cases x HI) as [[H _]|[(_ & H & _)|(_ & _ & p' & y & E & _ & _ & Hy)]].
  - lia.
  - apply supported_cases in Hs. congruence.
  - exists p'. rewrite E, (Hy Hr), ifft_fresh_R by exact Hn. reflexivity.
Qed.
Lemma after_one p (k : call R) n : run_calls c new_planner [k] = Done p -> call_size k = n -> Inv c p /\ ready c p n.
Proof.
  intros E Hn. split.
  - eapply run_calls_Inv; [apply Inv_new|exact E].
  - eapply history_ready; [exact E|]. intros k' [<-|[]]. rewrite Hn. lia.
Qed.
Lemma roundtrip1 x : 0 < length x -> (c_std c = true \/ is_pow2 (length x) = true) ->
  exists p p', fft c new_planner x = Done (p, DFT x, ROk) /\ ifft c p (DFT x) = Done (p', x, ROk).
Proof.
  intros Hn Hs. destruct (fft_new_R x Hn Hs) as [p E]. exists p.
  destruct (@after_one p (CFft x) (length x)) as [HI Hr]; [cbn [run_calls run_call]; unfold forget; rewrite E; reflexivity|reflexivity|].
  destruct (@ifft_ready_R p (DFT x)) as [p' E']; try (rewrite DFT_length); try assumption.
  exists p'. rewrite IDFT_DFT in E'. auto.
Qed.
Lemma roundtrip2 x : 0 < length x -> (c_std c = true \/ is_pow2 (length x) = true) ->
  exists p p', ifft c new_planner x = Done (p, IDFT x, ROk) /\ fft c p (IDFT x) = Done (p', x, ROk).
Proof.
  intros Hn Hs. destruct (@ifft_ready_R new_planner x (@Inv_new R RF c) (@ready_new R c (length x)) Hn Hs) as [p E]. exists p.
  destruct (@after_one p (CIfft x) (length x)) as [HI Hr]; [cbn [run_calls run_call]; unfold forget; rewrite E; reflexivity|reflexivity|].
  destruct (@fft_ready_R p (IDFT x)) as [p' E']; try (rewrite IDFT_length); try assumption.
  exists p'. rewrite DFT_IDFT in E'. auto.
Qed.
End Lemmas.

(* ------------------------------------------------------------------ C01 *)
Theorem C01_fft_is_dft : forall (c : cfg) (x : list C), c_std c = true -> 0 < length x ->
  exists p, fft c new_planner x = Done (p, DFT x, ROk).
Proof. intros c x Hs Hn. apply fft_new_R; auto. Qed.
Print Assumptions C01_fft_is_dft.
(* the same without std, for powers of two *)
Theorem C01_fft_is_dft_nostd : forall (c : cfg) (x : list C), is_pow2 (length x) = true ->
  exists p, fft c new_planner x = Done (p, DFT x, ROk).
Proof.
  intros c x Hp. apply fft_new_R; [|auto]. apply is_pow2_iff in Hp. destruct Hp as [L ->]. apply pow2_pos.
Qed.
Print Assumptions C01_fft_is_dft_nostd.
Definition cfg_std (k : kind) : cfg :=
  {| c_std := true; c_parallel := false; c_fma := false; c_precomp := true; c_kind := k; c_lanes := 4 |}.
Definition cfg_nostd (k : kind) : cfg :=
  {| c_std := false; c_parallel := false; c_fma := false; c_precomp := false; c_kind := k; c_lanes := 0 |}.
Example C01_example : 0 < length [C1; C0; RtoC 5] /\ is_pow2 (length [C1; C0; RtoC 5]) = false
  /\ c_std (cfg_std F32) = true /\ DFT [C1; C0; C0] = [C1; C1; C1].
Proof.
  repeat split; try (cbn; lia). unfold DFT. cbn [length tab seq map]. unfold dft. cbn [csum Nat.mul at_ nth].
  rewrite !W_0. do 2 (apply f_equal2; [ring|]). apply f_equal2; [ring|reflexivity].
Qed.

(* ------------------------------------------------------------------ C02 *)
Theorem C02_ifft_is_idft : forall (c : cfg) (x : list C), 0 < length x ->
  c_std c = true \/ is_pow2 (length x) = true ->
  exists p, ifft c new_planner x = Done (p, IDFT x, ROk).
Proof. intros c x Hn Hs. apply ifft_ready_R; auto using Inv_new, ready_new. Qed.
Print Assumptions C02_ifft_is_idft.
Theorem C02_fft_then_ifft : forall (c : cfg) (x : list C), 0 < length x ->
  c_std c = true \/ is_pow2 (length x) = true ->
  exists p p' y, fft c new_planner x = Done (p, y, ROk) /\ ifft c p y = Done (p', x, ROk).
Proof. intros c x Hn Hs. destruct (roundtrip1 c x Hn Hs) as (p & p' & H). eauto. Qed.
Print Assumptions C02_fft_then_ifft.
Theorem C02_ifft_then_fft : forall (c : cfg) (x : list C), 0 < length x ->
  c_std c = true \/ is_pow2 (length x) = true ->
  exists p p' y, ifft c new_planner x = Done (p, y, ROk) /\ fft c p y = Done (p', x, ROk).
Proof. intros c x Hn Hs. destruct (roundtrip2 c x Hn Hs) as (p & p' & H). eauto. Qed.
Print Assumptions C02_ifft_then_fft.
Example C02_example : 0 < length [C1; RtoC 2; RtoC 3] /\ c_std (cfg_std F64) = true.
Proof. cbn; split; [lia|reflexivity]. Qed.

(* ------------------------------------------------------------------ C03 *)
Definition ones n : list C := repeat C1 n.
Definition zeros n : list C := repeat C0 n.
Lemma at_repeat a n i : i < n -> at_ (repeat a n) i = a.
Proof.
  intros H. unfold at_. rewrite nth_indep with (d' := a) by (rewrite repeat_length; exact H). apply nth_repeat.
Qed.
Lemma dft_delta n : 0 < n -> DFT (C1 :: zeros (n - 1)) = ones n.
Proof.
  intros Hn. unfold DFT, ones. cbn [length]. unfold zeros. rewrite repeat_length. replace (S (n - 1)) with n by lia.
  symmetry. apply list_is_tab with (d := C0); [apply repeat_length|]. intros k Hk. fold (at_ (repeat C1 n) k). rewrite at_repeat by exact Hk.
  unfold dft. replace n with (S (n - 1)) at 1 by lia. rewrite csum_S_l. rewrite csum_0.
  - cbn [at_ nth Nat.mul]. rewrite W_0. ring.
  - intros i Hi. unfold at_. cbn [nth]. fold (at_ (repeat C0 (n - 1)) i). rewrite at_repeat by exact Hi. ring.
Qed.
Lemma stale_history (c : cfg) : c_kind c <> OtherT ->
  exists p, run_calls c new_planner [CFft (C1 :: zeros 63)] = Done p /\
    exists q y, fft c p (zeros 32) = Done (q, y, ROk) /\ at_ y 0 = RtoC 32.
Proof.
  intros Hk.
  assert (HL1 : length (C1 :: zeros 63) = 64) by reflexivity.
  destruct (@fft_pow2_ok R RF c (fft_fuel c 5) new_planner (C1 :: zeros 63) (@Inv_new R RF c)) as (p & E & HI & _ & _ & _ & Hsp).
  { rewrite HL1. apply (is_pow2_pow 6). }
  specialize (Hsp Hk ltac:(rewrite HL1; lia)). destruct Hsp as [Hre Him].
  assert (ES : split_after c (new_planner (T := R)) (C1 :: zeros 63) = ones 64).
  { unfold split_after. rewrite skipn_nil_iff, app_nil_r by (cbn; lia).
    rewrite stkp_R; [apply (dft_delta (n := 64)); lia|intros; apply cmul_plain_R|rewrite HL1; apply (is_pow2_pow 6)]. }
  rewrite ES in Hre, Him.
  exists p. split; [cbn [run_calls run_call]; unfold forget, fft, FUEL; change (fft_fuel c 6) with (fft_body c (fft_fuel c 5)); rewrite E; reflexivity|].
  destruct (@fft_pow2_ok R RF c (fft_fuel c 5) p (zeros 32) HI) as (q & E' & _).
  { unfold zeros. rewrite repeat_length. apply (is_pow2_pow 5). }
  exists q, (pow2_out c (pl_sre p) (pl_sim p) (zeros 32)).
  split; [unfold fft, FUEL; change (fft_fuel c 6) with (fft_body c (fft_fuel c 5)); exact E'|].
  assert (EZ : skipn 32 (zipc (pl_sre p) (pl_sim p)) = ones 32).
  { rewrite Hre, Him, zipc_parts. reflexivity. }
  assert (EO : pow2_out c (pl_sre p) (pl_sim p) (zeros 32) = firstn 32 (stkp c cmul_plain (zeros 32 ++ ones 32))).
  { unfold pow2_out. change (length (zeros 32)) with 32. rewrite EZ. cbn [Nat.leb].
    destruct (c_kind c); [reflexivity|reflexivity|congruence]. }
  rewrite EO, stkp_R; [|intros; apply cmul_plain_R|apply (is_pow2_pow 6)].
  unfold at_. rewrite nth_firstn by lia. unfold DFT. change (length (zeros 32 ++ ones 32)) with 64.
  rewrite nth_tab by lia. unfold dft. change 64 with (32 + 32) at 1. rewrite csum_app.
  rewrite csum_0.
  - rewrite (@csum_ext 32 _ (fun _ => C1)).
    + rewrite csum_const. replace (INR 32) with 32%R by (rewrite INR_IZR_INZ; reflexivity). ring.
    + intros i Hi. rewrite Nat.mul_0_r, W_0. unfold at_. rewrite app_nth2 by (cbn; lia).
      change (length (zeros 32)) with 32. replace (32 + i - 32) with i by lia. fold (at_ (ones 32) i).
      unfold ones. rewrite at_repeat by exact Hi. ring.
  - intros i Hi. unfold at_. rewrite app_nth1 by exact Hi. fold (at_ (zeros 32) i). unfold zeros. rewrite at_repeat by exact Hi. ring.
Qed.
(* false: a 64-point transform followed by a 32-point one *)
Theorem C03_history_independent_refuted : forall c : cfg, c_kind c <> OtherT ->
  exists (ks : list (call R)) (x : list C) p q q' y y',
    run_calls c new_planner ks = Done p /\
    fft c p x = Done (q, y, ROk) /\ fft c new_planner x = Done (q', y', ROk) /\ y <> y'.
Proof.
  intros c Hk. destruct (stale_history c Hk) as (p & E & q & y & E' & Hy).
  destruct (@C01_fft_is_dft_nostd c (zeros 32)) as [q' E'']; [apply (is_pow2_pow 5)|].
  exists [CFft (C1 :: zeros 63)], (zeros 32), p, q, q', y, (DFT (zeros 32)).
  repeat split; try assumption. intros ->. revert Hy. unfold DFT. rewrite at_tab by (cbn; lia).
  unfold dft. rewrite csum_0.
  - intros H. apply (f_equal re) in H. cbn in H. lra.
  - intros i Hi. unfold zeros in *. rewrite repeat_length in Hi. rewrite at_repeat by exact Hi. ring.
Qed.
Print Assumptions C03_history_independent_refuted.
Example C03_example : c_kind (cfg_std F32) <> OtherT /\ c_kind (cfg_std F64) <> OtherT.
Proof. split; discriminate. Qed.

(* ------------------------------------------------------------------ C04 *)
(* any arithmetic (bit-exact). padded n is n for powers of two and the chirp
   transform's working size otherwise. *)
Theorem C04_good_histories : forall (T : Type) (F : Float T) (c : cfg) (ks : list (call T)) (x : list (cx T)) p,
  run_calls c new_planner ks = Done p ->
  (forall k, In k ks -> padded (call_size k) <= padded (length x)) ->
  0 < length x -> c_std c = true \/ is_pow2 (length x) = true ->
  exists y q q', fft c p x = Done (q, y, ROk) /\ fft c new_planner x = Done (q', y, ROk).
Proof.
  intros T F c ks x p E Hk Hn Hs.
  pose proof (run_calls_Inv _ (@Inv_new T F c) E) as HI. pose proof (history_ready c ks (length x) E Hk) as Hr.
  destruct (fft_ok x HI Hn Hs) as (q & y & Eq & _ & _ & Hy & _).
  destruct (fft_fresh_ok c x Hn Hs) as [q' Eq']. exists y, q, q'. rewrite Eq, Eq', (Hy Hr). auto.
Qed.
Print Assumptions C04_good_histories.
(* repeating one size *)
Theorem C04_same_size : forall (T : Type) (F : Float T) (c : cfg) (xs : list (list (cx T))) (x : list (cx T)) p,
  run_calls c new_planner (map (CFft (T := T)) xs) = Done p ->
  (forall y, In y xs -> length y = length x) ->
  0 < length x -> c_std c = true \/ is_pow2 (length x) = true ->
  exists y q q', fft c p x = Done (q, y, ROk) /\ fft c new_planner x = Done (q', y, ROk).
Proof.
  intros T F c xs x p E H Hn Hs. eapply C04_good_histories; try eassumption.
  intros k Hin. apply in_map_iff in Hin. destruct Hin as (y & <- & Hy). cbn [call_size]. rewrite (H y Hy). lia.
Qed.
Print Assumptions C04_same_size.
Example C04_example : (forall k, In k [CFft (ones 64); CIfft (ones 37); CFft (ones 2)] -> padded (call_size k) <= padded (length (ones 100)))
  /\ padded (length (ones 100)) = 256 /\ exists p, run_calls (cfg_std F32) new_planner [CFft (ones 64)] = Done p.
Proof.
  repeat split.
  - intros k [<-|[<-|[<-|[]]]]; cbn [call_size]; unfold ones; rewrite !repeat_length; vm_compute; lia.
  - destruct (@C01_fft_is_dft (cfg_std F32) (ones 64) eq_refl) as [p E]; [cbn; lia|]. exists p. cbn [run_calls run_call].
    unfold forget. rewrite E. reflexivity.
Qed.

(* ------------------------------------------------------------------ C05 *)
(* specification of the outcome of a transform on n points *)
Definition expected (c : cfg) (n : nat) : rres :=
  if n =? 0 then RErr EmptyInput
  else if c_std c || is_pow2 n then ROk else RErr NonPowerOfTwoNoStd.
Theorem C05_fft_contract : forall (T : Type) (F : Float T) (c : cfg) p (x : list (cx T)), reachable c p ->
  exists p' y, fft c p x = Done (p', y, expected c (length x)) /\ length y = length x /\ reachable c p' /\
    (length x = 1 -> y = x).
Proof.
  intros T F c p x Hp. pose proof (reachable_Inv Hp) as HI. unfold expected.
  assert (Hreach : forall p' y r, fft c p x = Done (p', y, r) -> reachable c p').
  { intros p' y r E. destruct Hp as [ks Ek]. exists (ks ++ [CFft x]).
    clear HI. revert Ek. generalize (new_planner (T := T)) as p0. induction ks as [|k ks IH]; intros p0 Ek; cbn [run_calls app] in *.
    - injection Ek as ->. cbn [run_call]. unfold forget. rewrite E. reflexivity.
    - destruct (run_call c p0 k); cbn [bind] in *; try discriminate. apply IH. exact Ek. }
  assert (H1 : length x = 1 -> fft c p x = Done (p, x, ROk)).
  { intros H. unfold fft, FUEL. change (fft_fuel c 6) with (fft_body c (fft_fuel c 5)). unfold fft_body. rewrite H. reflexivity. }
  destruct (fft_cases x HI) as [[H E]|[(H & H2 & E)|(H & H2 & p' & y & E & _ & Hl & _)]].
  - exists p, x. rewrite H. rewrite E. repeat split; eauto.
  - exists p, x. destruct (Nat.eqb_spec (length x) 0); [lia|]. unfold supported in H2. rewrite H2, E. repeat split; eauto.
  - exists p', y. destruct (Nat.eqb_spec (length x) 0); [lia|]. unfold supported in H2. rewrite H2, E. repeat split; eauto.
    intros H'. rewrite (H1 H') in E. congruence.
Qed.
Print Assumptions C05_fft_contract.
Theorem C05_ifft_contract : forall (T : Type) (F : Float T) (c : cfg) p (x : list (cx T)), reachable c p ->
  exists p' y, ifft c p x = Done (p', y, expected c (length x)) /\ length y = length x /\ reachable c p' /\
    (length x = 1 -> y = x).
Proof.
  intros T F c p x Hp. pose proof (reachable_Inv Hp) as HI. unfold expected.
  assert (Hreach : forall p' y r, ifft c p x = Done (p', y, r) -> reachable c p').
  { intros p' y r E. destruct Hp as [ks Ek]. exists (ks ++ [CIfft x]).
    clear HI. revert Ek. generalize (new_planner (T := T)) as p0. induction ks as [|k ks IH]; intros p0 Ek; cbn [run_calls app] in *.
    - injection Ek as ->. cbn [run_call]. unfold forget. rewrite E. reflexivity.
    - destruct (run_call c p0 k); cbn [bind] in *; try discriminate. apply IH. exact Ek. }
  assert (H1 : length x = 1 -> ifft c p x = Done (p, x, ROk)).
  { intros H. unfold ifft. rewrite H. reflexivity. }
  destruct (ifft_cases x HI) as [[H E]|[(H & H2 & E)|(H & H2 & p' & y & E & _ & Hl & _)]].
  - exists p, x. rewrite H. rewrite E. repeat split; eauto.
  - exists p, (map cconj x). destruct (Nat.eqb_spec (length x) 0); [lia|].
    unfold supported in H2. rewrite H2, E. repeat split; eauto; [apply map_length|].
    intros H'. rewrite H' in H2. change (is_pow2 1) with true in H2. rewrite orb_true_r in H2. discriminate.
  - exists p', y. destruct (Nat.eqb_spec (length x) 0); [lia|]. unfold supported in H2. rewrite H2, E. repeat split; eauto.
    intros H'. rewrite (H1 H') in E. congruence.
Qed.
Print Assumptions C05_ifft_contract.
Example C05_example : reachable (cfg_std F32) (new_planner (T := R)) /\ expected (cfg_nostd F32) 12 = RErr NonPowerOfTwoNoStd
  /\ expected (cfg_nostd F32) 64 = ROk /\ expected (cfg_std F32) 12 = ROk /\ expected (cfg_std F32) 0 = RErr EmptyInput.
Proof. repeat split. exists []. reflexivity. Qed.

(* ------------------------------------------------------------------ C06 *)
Theorem C06_fft_error_keeps_buffer : forall (T : Type) (F : Float T) (c : cfg) p (x y : list (cx T)) p' e, reachable c p ->
  fft c p x = Done (p', y, RErr e) -> y = x /\ p' = p.
Proof.
  intros T F c p x y p' e Hp E. destruct (fft_cases x (reachable_Inv Hp)) as [[H E']|[(H & H2 & E')|(H & H2 & q & z & E' & _)]];
    rewrite E' in E; injection E as <- <-; try discriminate; auto.
Qed.
Print Assumptions C06_fft_error_keeps_buffer.
(* false for ifft without std: the buffer is left conjugated *)
Theorem C06_ifft_error_keeps_buffer_refuted : forall c : cfg, c_std c = false ->
  exists (x y : list C) p e, ifft c new_planner x = Done (p, y, RErr e) /\ y <> x.
Proof.
  intros c Hs. set (x := [C1; mkcx 0%R 1%R; C0]). exists x, (map cconj x), new_planner, NonPowerOfTwoNoStd.
  destruct (ifft_cases x (@Inv_new R RF c)) as [[H E']|[(H & H2 & E')|(H & H2 & q & z & E' & _)]].
  - discriminate.
  - split; [exact E'|]. cbn. intros H'. injection H' as _ H' _. cbn in H'. lra.
  - unfold supported in H2. rewrite Hs in H2. discriminate.
Qed.
Print Assumptions C06_ifft_error_keeps_buffer_refuted.
Example C06_example : fft (cfg_nostd F32) new_planner [C1; C0; C0] = Done (new_planner, [C1; C0; C0], RErr NonPowerOfTwoNoStd).
Proof. apply fft_nostd; reflexivity || (cbn; lia). Qed.

(* ------------------------------------------------------------------ C18 *)
Theorem C18_twiddle_cache : forall (T : Type) (F : Float T) (c : cfg) p n, reachable c p ->
  snd (get_twiddles c p n) = snd (get_twiddles (T := T) c new_planner n).
Proof.
  intros T F c p n Hp. pose proof (reachable_Inv Hp) as (Hc & _).
  rewrite (get_twiddles_ok c n Hc). destruct (@Inv_new T F c) as (Hc' & _).
  rewrite (get_twiddles_ok c n Hc'). reflexivity.
Qed.
Print Assumptions C18_twiddle_cache.
Theorem C18_chirp_cache : forall (T : Type) (F : Float T) (c : cfg) p n, reachable c p -> 0 < n ->
  exists p1 p2 t, get_bluestein c p n = Done (p1, t) /\ get_bluestein (T := T) c new_planner n = Done (p2, t).
Proof.
  intros T F c p n Hp Hn. unfold get_bluestein, fft, FUEL. change (fft_fuel c 6) with (fft_body c (fft_fuel c 5)).
  destruct (@get_bluestein_ok T F c (fft_fuel c 5) p n (reachable_Inv Hp) Hn) as (b1 & E1 & _).
  destruct (@get_bluestein_ok T F c (fft_fuel c 5) new_planner n (@Inv_new T F c) Hn) as (b2 & E2 & _).
  rewrite E1, E2. eauto.
Qed.
Print Assumptions C18_chirp_cache.
Example C18_example : exists p, reachable (cfg_std F32) (T := R) p /\ run_calls (cfg_std F32) new_planner [CFft (ones 100); CIfft (ones 64)] = Done p.
Proof.
  destruct (@C05_fft_contract R RF (cfg_std F32) new_planner (ones 100)) as (p & y & E & _ & Hp & _); [exists []; reflexivity|].
  destruct (@C05_ifft_contract R RF (cfg_std F32) p (ones 64) Hp) as (q & z & E' & _ & Hq & _).
  exists q. split; [exact Hq|]. cbn [run_calls run_call]. unfold forget. rewrite E. cbn [bind]. rewrite E'. reflexivity.
Qed.

(* ------------------------------------------------------------------ C19 *)
Theorem C19_twiddles : forall (c : cfg) n,
  length (snd (get_twiddles (T := R) c new_planner n)) = n / 2 /\
  forall k, k < n / 2 -> at_ (snd (get_twiddles c new_planner n)) k = W n k.
Proof.
  intros c n. destruct (@Inv_new R RF c) as (Hc & _). rewrite (get_twiddles_ok c n Hc). cbn [snd].
  split; [apply twf_length|]. intros k Hk. apply (twf_R c n Hk).
Qed.
Print Assumptions C19_twiddles.
Theorem C19_precomputed_agree : forall n, tw_table (T := R) n = pre_table n.
Proof.
  intros n. apply list_ext with (d := C0).
  - rewrite tw_table_length. symmetry. apply tab_length.
  - rewrite tw_table_length. intros i Hi. transitivity (W n i); [apply (tw_table_R n Hi)|symmetry; apply (pre_table_R n Hi)].
Qed.
Print Assumptions C19_precomputed_agree.
(* Which table a call gets, bit for bit and after any history: the printed one for f32 and f64 and the powers of two
   from 2 to 1024 when the feature is on, the running product otherwise. *)
Definition printed_entry (T : Type) (F : Float T) (n k : nat) : @cx T :=
  let angle := fdiv (fmul (fmul (fneg (flit 2)) fpi) (fofnat k)) (fofnat n) in mkcx (freparse (fcos angle)) (freparse (fsin angle)).
Definition product_step (T : Type) (F : Float T) (n : nat) (w : @cx T) : @cx T :=
  let '(s, d) := fsin_cos (fdiv (fmul (fneg (flit 2)) fpi) (fofnat n)) in
  mkcx (fmul_add (re w) d (fneg (fmul (im w) s))) (fmul_add (im w) d (fmul (re w) s)).
Definition has_printed (c : cfg) (n : nat) : Prop := c_precomp c = true /\ c_kind c <> OtherT /\ exists e, 1 <= e <= 10 /\ n = 2 ^ e.
Lemma tw_loop_step (T : Type) (F : Float T) m (d s a b : T) k : k + 1 < m ->
  nth (k + 1) (tw_loop m d s a b) czero = (fun w => mkcx (fmul_add (re w) d (fneg (fmul (im w) s))) (fmul_add (im w) d (fmul (re w) s))) (nth k (tw_loop m d s a b) czero).
Proof.
  revert a b k. induction m as [|m IH]; intros a b k Hk; [lia|]. destruct k as [|k].
  - destruct m as [|m]; [lia|]. reflexivity.
  - cbn [Nat.add tw_loop nth]. apply IH. lia.
Qed.
Lemma printed_iff (T : Type) (F : Float T) (c : cfg) n : has_printed c n <-> lookup_pre c n <> None.
Proof.
  unfold has_printed, lookup_pre. destruct (c_precomp c); cbn [andb].
  2:{ split; [intros [H _]; discriminate|congruence]. }
  assert (EX : (exists e, 1 <= e <= 10 /\ n = 2 ^ e) <-> existsb (Nat.eqb n) pre_sizes = true).
  { rewrite existsb_exists. unfold pre_sizes. split.
    - intros (e & He & ->). exists (2 ^ e). split; [|apply Nat.eqb_refl].
      do 11 (destruct e as [|e]; [try lia; vm_compute; tauto|]). lia.
    - intros (k & Hk & E). apply Nat.eqb_eq in E. subst k. cbn [In] in Hk.
      repeat (destruct Hk as [<-|Hk]; [solve [(exists 1 + exists 2 + exists 3 + exists 4 + exists 5 + exists 6 + exists 7 + exists 8 + exists 9 + exists 10); split; [lia|reflexivity]]|]). destruct Hk. }
  rewrite EX. destruct (c_kind c); destruct (existsb _ _); cbn [andb]; intuition congruence.
Qed.
Theorem C19_which_table : forall (T : Type) (F : Float T) (c : cfg) p n, reachable c p ->
  length (snd (get_twiddles c p n)) = n / 2 /\
  (has_printed c n -> forall k, k < n / 2 -> nth k (snd (get_twiddles c p n)) czero = printed_entry F n k) /\
  (~ has_printed c n -> 0 < n / 2 -> nth 0 (snd (get_twiddles c p n)) czero = mkcx fone fzero /\
     forall k, k + 1 < n / 2 -> nth (k + 1) (snd (get_twiddles c p n)) czero = product_step F n (nth k (snd (get_twiddles c p n)) czero)).
Proof.
  intros T F c p n Hp. pose proof (reachable_Inv Hp) as (Hc & _). rewrite (get_twiddles_ok c n Hc). cbn [snd].
  split; [apply twf_length|]. unfold twf. pose proof (@printed_iff T F c n) as E. split.
  - intros H k Hk. apply E in H. revert H. unfold lookup_pre. destruct (_ && _); [|congruence]. intros _. unfold pre_table. rewrite nth_tab by exact Hk. reflexivity.
  - intros H Hn. destruct (lookup_pre c n) eqn:EL; [exfalso; apply H, E; congruence|]. unfold tw_table, product_step. destruct (fsin_cos _) as [sn cs]. split.
    + destruct (n / 2); [lia|]. reflexivity.
    + intros k Hk. exact (@tw_loop_step T F (n / 2) cs sn fone fzero k Hk).
Qed.
Print Assumptions C19_which_table.
Example C19_printed_example : has_printed (cfg_std F32) 64 /\ ~ has_printed (cfg_std F32) 2048 /\ ~ has_printed (cfg_nostd F32) 64.
Proof.
  split; [|split].
  - split; [reflexivity|]. split; [discriminate|]. exists 6. split; [lia|reflexivity].
  - intros (_ & _ & e & He & E). assert (2 ^ e <= 2 ^ 10) by (apply Nat.pow_le_mono_r; lia). rewrite <- E in H. change (2 ^ 10) with 1024 in H. lia.
  - intros (H & _). discriminate.
Qed.
Example C19_example : 3 < 8 / 2 /\ W 8 2 = mkcx 0%R (- (1))%R.
Proof. split; [vm_compute; lia|exact W_8_2]. Qed.

(* ------------------------------------------------------------------ C24-27 *)
Definition lin (a b : C) (x y : list C) : list C :=
  tab (length x) (fun i => a *c at_ x i +c b *c at_ y i).
Theorem C24_linear : forall (c : cfg) (a b : C) (x y : list C), length y = length x -> 0 < length x ->
  c_std c = true \/ is_pow2 (length x) = true ->
  exists p1 p2 p3 X Y, fft c new_planner x = Done (p1, X, ROk) /\ fft c new_planner y = Done (p2, Y, ROk) /\
    fft c new_planner (lin a b x y) = Done (p3, lin a b X Y, ROk).
Proof.
  intros c a b x y Hl Hn Hs.
  assert (Ll : length (lin a b x y) = length x) by apply tab_length.
  destruct (fft_new_R c x Hn Hs) as [p1 E1]. destruct (fft_new_R c y) as [p2 E2]; try (rewrite Hl; assumption).
  destruct (fft_new_R c (lin a b x y)) as [p3 E3]; try (rewrite Ll; assumption).
  exists p1, p2, p3, (DFT x), (DFT y). rewrite E1, E2, E3. repeat split. do 3 f_equal.
  unfold lin at 2. rewrite DFT_length. unfold DFT at 1. rewrite Ll. apply tab_ext. intros k Hk.
  unfold DFT. rewrite Hl, !at_tab by exact Hk. rewrite <- dft_linear. apply dft_ext. intros i Hi.
  unfold lin. apply at_tab. exact Hi.
Qed.
Print Assumptions C24_linear.
Theorem C25_parseval : forall (c : cfg) (x : list C), 0 < length x -> c_std c = true \/ is_pow2 (length x) = true ->
  exists p y, fft c new_planner x = Done (p, y, ROk) /\
    rsum (length x) (fun k => Cnorm2 (at_ y k)) = (INR (length x) * rsum (length x) (fun j => Cnorm2 (at_ x j)))%R.
Proof.
  intros c x Hn Hs. destruct (fft_new_R c x Hn Hs) as [p E]. exists p, (DFT x). split; [exact E|].
  rewrite <- parseval by exact Hn. apply rsum_ext. intros k Hk. unfold DFT. rewrite at_tab by exact Hk. reflexivity.
Qed.
Print Assumptions C25_parseval.
(* circular convolution of two lists, from the definition *)
Definition conv (x y : list C) : list C :=
  tab (length x) (fun k => csum (length x) (fun j => at_ x j *c at_ y ((k + (length x - j)) mod length x))).
Definition pointwise (x y : list C) : list C := tab (length x) (fun k => at_ x k *c at_ y k).
Theorem C26_convolution : forall (c : cfg) (x y : list C), length y = length x -> 0 < length x ->
  c_std c = true \/ is_pow2 (length x) = true ->
  exists p1 p2 p3 X Y, fft c new_planner x = Done (p1, X, ROk) /\ fft c new_planner y = Done (p2, Y, ROk) /\
    ifft c new_planner (pointwise X Y) = Done (p3, conv x y, ROk).
Proof.
  intros c x y Hl Hn Hs. destruct (fft_new_R c x Hn Hs) as [p1 E1]. destruct (fft_new_R c y) as [p2 E2]; try (rewrite Hl; assumption).
  assert (Lp : length (pointwise (DFT x) (DFT y)) = length x) by (unfold pointwise; rewrite tab_length; apply DFT_length).
  destruct (@C02_ifft_is_idft c (pointwise (DFT x) (DFT y))) as [p3 E3]; try (rewrite Lp; assumption).
  exists p1, p2, p3, (DFT x), (DFT y). rewrite E1, E2, E3. repeat split. do 3 f_equal.
  unfold IDFT, conv. rewrite Lp. apply tab_ext. intros k Hk.
  transitivity (cconv (length x) (at_ x) (at_ y) k); [|reflexivity]. rewrite <- idft_conv by exact Hk. apply idft_ext.
  intros i Hi. unfold pointwise. rewrite DFT_length, at_tab by exact Hi. unfold DFT. rewrite Hl, !at_tab by exact Hi. reflexivity.
Qed.
Print Assumptions C26_convolution.
(* delay by s samples *)
Definition delay (s : nat) (x : list C) : list C := tab (length x) (fun j => at_ x ((j + (length x - s)) mod length x)).
Theorem C26_shift : forall (c : cfg) (s : nat) (x : list C), s <= length x -> 0 < length x ->
  c_std c = true \/ is_pow2 (length x) = true ->
  exists p1 p2 X Y, fft c new_planner x = Done (p1, X, ROk) /\ fft c new_planner (delay s x) = Done (p2, Y, ROk) /\
    forall k, k < length x -> at_ Y k = W (length x) (k * s) *c at_ X k.
Proof.
  intros c s x Hsn Hn Hs. destruct (fft_new_R c x Hn Hs) as [p1 E1].
  assert (Ld : length (delay s x) = length x) by apply tab_length.
  destruct (fft_new_R c (delay s x)) as [p2 E2]; try (rewrite Ld; assumption).
  exists p1, p2, (DFT x), (DFT (delay s x)). repeat split; try assumption. intros k Hk.
  unfold DFT. rewrite Ld, !at_tab by exact Hk. rewrite <- dft_shift by assumption. apply dft_ext.
  intros i Hi. unfold delay. rewrite at_tab by exact Hi. reflexivity.
Qed.
Print Assumptions C26_shift.
Theorem C27_hermitian : forall (c : cfg) (x : list C), (forall j, j < length x -> im (at_ x j) = 0%R) -> 0 < length x ->
  c_std c = true \/ is_pow2 (length x) = true ->
  exists p y, fft c new_planner x = Done (p, y, ROk) /\
    (forall k, 0 < k < length x -> at_ y (length x - k) = Cconj (at_ y k)) /\ im (at_ y 0) = 0%R /\
    (Nat.even (length x) = true -> im (at_ y (length x / 2)) = 0%R).
Proof.
  intros c x Hr Hn Hs. destruct (fft_new_R c x Hn Hs) as [p E]. exists p, (DFT x). split; [exact E|].
  assert (H : forall k, 0 < k < length x -> at_ (DFT x) (length x - k) = Cconj (at_ (DFT x) k)).
  { intros k Hk. unfold DFT. rewrite !at_tab by lia. apply dft_hermitian; auto. lia. }
  split; [exact H|]. split.
  - unfold DFT. rewrite at_tab by exact Hn. unfold dft. rewrite im_csum. apply rsum_0. intros i Hi.
    rewrite Nat.mul_0_r, W_0. cbn. rewrite Hr by exact Hi. ring.
  - intros He. apply Nat.even_spec in He. destruct He as [m Em]. rewrite Em, Nat.mul_comm, Nat.div_mul by lia.
    specialize (H m ltac:(lia)). replace (length x - m) with m in H by lia.
    apply (f_equal im) in H. cbn in H. lra.
Qed.
Print Assumptions C27_hermitian.
Example C24_27_example : length [C1; C0; RtoC 3] = length [C0; C0; C1] /\ 2 <= length [C1; C0; RtoC 3]
  /\ (forall j, j < 3 -> im (at_ [C1; C0; RtoC 3] j) = 0%R) /\ conv [C1; RtoC 2] [C1; RtoC 3] = [RtoC 7; RtoC 5].
Proof.
  repeat split; try (cbn; lia).
  - intros j Hj. do 3 (destruct j as [|j]; [reflexivity|]). lia.
  - unfold conv. cbn [length tab seq map csum]. cbn. repeat f_equal; apply C_eq; cbn; lra.
Qed.

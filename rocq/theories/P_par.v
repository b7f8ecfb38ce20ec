(* Property C99: the one-shot transforms. *)
From Verif Require Import M_par L_fft L_fftR L_obj P_fft.
Set Implicit Arguments.
Open Scope nat_scope.

Definition with_parallel (b : bool) (c : cfg) : cfg :=
  {| c_std := c_std c; c_parallel := b; c_fma := c_fma c; c_precomp := c_precomp c; c_kind := c_kind c; c_lanes := c_lanes c |}.
Lemma body_parallel {T} {F : Float T} (c : cfg) b (rec : planner T -> list (cx T) -> exec (planner T * list (cx T) * rres)) : fft_body (with_parallel b c) rec = fft_body c rec.
Proof. destruct c. reflexivity. Qed.
Lemma fuel_parallel {T} {F : Float T} (c : cfg) b n : fft_fuel (T := T) (with_parallel b c) n = fft_fuel c n.
Proof.
  induction n as [|n IH]; [reflexivity|]. change (fft_fuel (T := T) (with_parallel b c) (S n)) with (fft_body (T := T) (with_parallel b c) (fft_fuel (with_parallel b c) n)).
  change (fft_fuel (T := T) c (S n)) with (fft_body (T := T) c (fft_fuel c n)). rewrite IH. apply body_parallel.
Qed.
(* the parallel feature changes nothing: fft_parallel is the sequential transform *)
Theorem C99_parallel_feature : forall (T : Type) (F : Float T) (c : cfg) b (x : list (cx T)),
  fft_parallel (with_parallel b c) x = fft_parallel c x /\ ifft_parallel (with_parallel b c) x = ifft_parallel c x.
Proof.
  intros T F c b x. unfold fft_parallel, ifft_parallel, ifft. assert (E : fft (T := T) (with_parallel b c) = fft c) by apply fuel_parallel.
  rewrite E. split; reflexivity.
Qed.
Print Assumptions C99_parallel_feature.

(* exact values; every length with std, powers of two without *)
Theorem C99_exact : forall (c : cfg) (x : list C), 0 < length x -> c_std c = true \/ is_pow2 (length x) = true ->
  fft_parallel c x = Done (DFT x, ROk) /\ ifft_parallel c x = Done (IDFT x, ROk) /\ ifft_parallel c (DFT x) = Done (x, ROk) /\ fft_parallel c (IDFT x) = Done (x, ROk).
Proof.
  intros c x Hn Hs. unfold fft_parallel, ifft_parallel.
  assert (A : forall z, length z = length x -> exists p, fft c new_planner z = Done (p, DFT z, ROk)) by (intros z Hz; apply fft_new_R; rewrite Hz; auto).
  assert (B : forall z, length z = length x -> exists p, ifft c new_planner z = Done (p, IDFT z, ROk)) by (intros z Hz; apply C02_ifft_is_idft; rewrite Hz; auto).
  assert (L1 : length (DFT x) = length x) by apply tab_length. assert (L2 : length (IDFT x) = length x) by apply tab_length.
  destruct (A x eq_refl) as [p1 E1]. destruct (B x eq_refl) as [p2 E2]. destruct (B _ L1) as [p3 E3]. destruct (A _ L2) as [p4 E4]. rewrite E1, E2, E3, E4. cbn [bind].
  rewrite IDFT_DFT, DFT_IDFT. repeat split.
Qed.
Print Assumptions C99_exact.

(* any arithmetic: never a panic, which lengths are refused and that the buffer is then left alone by the forward transform *)
Theorem C99_contract : forall (T : Type) (F : Float T) (c : cfg) (x : list (cx T)),
  exists y z, fft_parallel c x = Done (y, expected c (length x)) /\ ifft_parallel c x = Done (z, expected c (length x)) /\ length y = length x /\ length z = length x /\
    (expected c (length x) <> ROk -> y = x).
Proof.
  intros T F c x. unfold fft_parallel, ifft_parallel. destruct (@C05_fft_contract T F c new_planner x (reachable_new c)) as (p & y & E & L & _).
  destruct (@C05_ifft_contract T F c new_planner x (reachable_new c)) as (p' & z & E' & L' & _). rewrite E, E'. cbn [bind]. exists y, z. repeat split; try assumption.
  intros H. destruct (fft_cases x (Inv_new (T := T) c)) as [[_ G]|[[_ [_ G]]|[_ [_ [q [w [G _]]]]]]]; rewrite G in E; injection E; intros.
  - congruence.
  - congruence.
  - congruence.
Qed.
Print Assumptions C99_contract.

(* the unused butterfly is the 8-point kernel, operation for operation, and so the 8-point DFT *)
Theorem C99_butterfly8 : forall (T : Type) (F : Float T) (c : cfg) (x0 x1 x2 x3 x4 x5 x6 x7 : cx T),
  fft8 c [x0; x1; x2; x3; x4; x5; x6; x7] = Done (butterfly8 c x0 x1 x2 x3 x4 x5 x6 x7).
Proof. reflexivity. Qed.
Print Assumptions C99_butterfly8.
Theorem C99_butterfly8_exact : forall (c : cfg) (x0 x1 x2 x3 x4 x5 x6 x7 : C),
  butterfly8 c x0 x1 x2 x3 x4 x5 x6 x7 = DFT [x0; x1; x2; x3; x4; x5; x6; x7].
Proof. intros. pose proof (C99_butterfly8 RF c x0 x1 x2 x3 x4 x5 x6 x7) as E. rewrite fft8_R in E by reflexivity. symmetry. exact (f_equal (fun e => match e with Done y => y | _ => [] end) E). Qed.
Print Assumptions C99_butterfly8_exact.

Example C99_example : c_std (cfg_std F32) = true /\ 0 < length [C1; RtoC 2; RtoC 3] /\ expected (cfg_nostd F64) 24 <> ROk /\ with_parallel true (cfg_std F32) <> cfg_std F32.
Proof. repeat split; try discriminate. cbn. lia. Qed.

(* Properties C12-C17: split, SIMD, strided and out-of-place layouts. Any
   arithmetic unless said otherwise. *)
From Coq Require Import Lra Reals.
From Verif Require Import L_plan L_dft P_fft P_entry.
Set Implicit Arguments.
Open Scope nat_scope.

(* ------------------------------------------------------------------ C12 *)
Section C12L.
Context {T : Type} {F : Float T}.
Variable c : cfg.
Lemma zipc_eta (x : list (cx T)) : zipc (map re x) (map im x) = x.
Proof. apply zipc_parts. Qed.
Lemma split_default_ok (op : fft_ty (T := T)) p x p' y : op p x = Done (p', y, ROk) -> length y = length x ->
  split_default op p (map re x) (map im x) = Done (p', map re y, map im y, ROk).
Proof.
  intros E Hl. unfold split_default. rewrite !map_length, Nat.eqb_refl. cbn [negb]. rewrite zipc_eta, E. cbn [bind].
  pose proof (@unzip_loop T F y (map re x) (map im x)) as H. rewrite !map_length in H.
  specialize (H Hl eq_refl). rewrite H. reflexivity.
Qed.
Lemma fft_split_fresh p x : Inv c p -> ready c p (length x) ->
  exists q q' y, fft c new_planner x = Done (q, y, expected c (length x)) /\
    fft_split c p (map re x) (map im x) = Done (q', map re y, map im y, expected c (length x)).
Proof.
  intros HI Hr. destruct (@C05_fft_contract T F c new_planner x) as (q & y & E & Hl & _); [exists []; reflexivity|].
  pose proof (fft_indep x HI (@Inv_new T F c) Hr (@ready_new T c _)) as Hi. rewrite E in Hi. apply out_done in Hi. destruct Hi as [q' E'].
  unfold fft_split. rewrite !map_length, Nat.eqb_refl. cbn [negb].
  destruct (c_kind c) eqn:Ek.
  3:{ destruct (expected c (length x)) eqn:Ex.
      - exists q, q', y. split; [exact E|]. apply split_default_ok; assumption.
      - exists q, q', y. split; [exact E|]. unfold split_default. rewrite !map_length, Nat.eqb_refl. cbn [negb]. rewrite zipc_eta, E'. cbn [bind].
        destruct (@C06_fft_error_keeps_buffer T F c new_planner x y q e) as [-> _]; [exists []; reflexivity|exact E|]. reflexivity. }
  all: assert (Hlen : length (map re x) = length (map im x)) by (rewrite !map_length; reflexivity);
    pose proof (split_simd_via (map re x) (map im x) HI Hlen) as H; rewrite map_length in H; unfold expected in *;
    destruct H as [[H ES]|[(H & H2 & ES)|(H & H2 & p' & y' & ES & _ & Hl' & Hy)]];
    (destruct (Nat.eqb_spec (length x) 0) as [E0|E0]; [|unfold supported in *]); try lia.
  all: try (destruct x; [|discriminate]; rewrite fft_empty in E; injection E as <- <-; exists new_planner, p, []; rewrite fft_empty; auto; fail).
  all: rewrite H2 in *.
  1,3: assert (y = x) as -> by (eapply C06_fft_error_keeps_buffer; [exists []; reflexivity|exact E]); exists q, p, x; auto.
  all: specialize (Hy ltac:(congruence) (or_introl Hr)); rewrite zipc_eta in Hy; exists q, p', y; split; [exact E|]; rewrite ES, Hy.
  all: destruct (fft_fresh_ok c x H) as [q2 E2]; [apply supported_cases; exact H2|]; rewrite E2 in E; injection E as _ <-; reflexivity.
Qed.
End C12L.
Theorem C12_fft_split : forall (T : Type) (F : Float T) (c : cfg) (ks : list (call T)) p (x : list (cx T)),
  run_calls c new_planner ks = Done p -> (forall k, In k ks -> padded (call_size k) <= padded (length x)) ->
  exists q q' y, fft c new_planner x = Done (q, y, expected c (length x)) /\
    fft_split c p (map re x) (map im x) = Done (q', map re y, map im y, expected c (length x)).
Proof.
  intros T F c ks p x E Hk. apply fft_split_fresh.
  - exact (run_calls_Inv _ (@Inv_new T F c) E).
  - exact (history_ready c ks (length x) E Hk).
Qed.
Print Assumptions C12_fft_split.
(* powers of two above 16 are transformed in the caller's arrays: any history *)
Theorem C12_fft_split_any_history : forall (T : Type) (F : Float T) (c : cfg) p (x : list (cx T)),
  reachable c p -> c_kind c <> OtherT -> is_pow2 (length x) = true -> 
  exists q q' y, fft c new_planner x = Done (q, y, ROk) /\
    fft_split c p (map re x) (map im x) = Done (q', map re y, map im y, ROk).
Proof.
  intros T F c p x Hp Hk Hx. pose proof (reachable_Inv Hp) as HI.
  assert (H0 : 0 < length x) by (apply is_pow2_iff in Hx; destruct Hx as [L ->]; apply pow2_pos).
  destruct (fft_fresh_ok c x H0 (or_intror Hx)) as [q E]. exists q.
  assert (Hlen : length (map re x) = length (map im x)) by (rewrite !map_length; reflexivity).
  pose proof (split_simd_via (map re x) (map im x) HI Hlen) as H. rewrite map_length in H.
  destruct H as [[H ES]|[(H & H2 & ES)|(H & H2 & p' & y' & ES & _ & Hl' & Hy)]]; [lia| |].
  - unfold supported in H2. rewrite Hx, orb_true_r in H2. discriminate.
  - exists p', (fft_fresh c x). split; [exact E|]. specialize (Hy Hk (or_intror Hx)). rewrite zipc_eta in Hy.
    unfold fft_split. rewrite !map_length, Nat.eqb_refl. cbn [negb]. rewrite ES, Hy. destruct (c_kind c); congruence.
Qed.
Print Assumptions C12_fft_split_any_history.
(* the inverse. The f32/f64 code scales by 1/(n as T) where ifft uses
   1/from_f32(n as f32), and has no special case for one sample: the hypotheses
   say those two agree, which f32 satisfies for every n and f64 for n <= 2^24. *)
Theorem C12_ifft_split : forall (T : Type) (F : Float T) (c : cfg) (ks : list (call T)) p (x : list (cx T)),
  run_calls c new_planner ks = Done p -> (forall k, In k ks -> padded (call_size k) <= padded (length x)) ->
  (c_kind c <> OtherT -> fas (length x) = fofnat (length x)) ->
  (c_kind c <> OtherT -> length x = 1 -> forall a, fmul a (fdiv fone (fas 1)) = a /\ fneg (fneg a) = a) ->
  0 < length x -> c_std c = true \/ is_pow2 (length x) = true ->
  exists q q' y, ifft c new_planner x = Done (q, y, ROk) /\
    ifft_split c p (map re x) (map im x) = Done (q', map re y, map im y, ROk).
Proof.
  intros T F c ks p x E Hk Hfas H1 Hn Hs.
  pose proof (run_calls_Inv _ (@Inv_new T F c) E) as HI. pose proof (history_ready c ks (length x) E Hk) as Hr.
  assert (Ex : expected c (length x) = ROk).
  { unfold expected. destruct (Nat.eqb_spec (length x) 0); [lia|]. apply supported_cases in Hs. unfold supported in Hs. rewrite Hs. reflexivity. }
  destruct (@C05_ifft_contract T F c new_planner x) as (q & y & EI & Hl & _ & Hy1); [exists []; reflexivity|]. rewrite Ex in EI.
  unfold ifft_split. rewrite !map_length, Nat.eqb_refl. cbn [negb].
  destruct (c_kind c) eqn:Ek.
  3:{ pose proof (ifft_indep x HI (@Inv_new T F c) Hr (@ready_new T c _)) as Hi. rewrite EI in Hi. apply out_done in Hi. destruct Hi as [q' E'].
      exists q, q', y. split; [exact EI|]. apply split_default_ok; assumption. }
  all: destruct (@fft_split_fresh T F c p (map cconj x) HI) as (r & r' & z & Ez & ES); [rewrite map_length; exact Hr|].
  all: rewrite map_length, Ex in Ez, ES.
  all: replace (map re (map cconj x)) with (map re x) in ES by (rewrite map_map; apply map_ext; reflexivity).
  all: replace (map im (map cconj x)) with (map fneg (map im x)) in ES by (rewrite !map_map; apply map_ext; reflexivity).
  all: unfold fft_split in ES; rewrite !map_length, Nat.eqb_refl, Ek in ES; cbn [negb] in ES; rewrite ES; cbn [bind].
  all: specialize (Hfas ltac:(congruence)); specialize (H1 ltac:(congruence)).
  all: assert (Lz : length z = length x) by (destruct (@C05_fft_contract T F c new_planner (map cconj x)) as (? & ? & E3 & L3 & _); [exists []; reflexivity|]; rewrite E3 in Ez; rewrite map_length in *; congruence).
  all: exists q, r', y; split; [exact EI|]; do 4 f_equal; rewrite map_length, Lz, !map_map.
  all: destruct (Nat.eq_dec (length x) 1) as [En|En].
  all: try (destruct (single x En) as [a ->]; rewrite (Hy1 En); cbn [length] in *;
    cbn [map] in Ez; rewrite fft_single in Ez; injection Ez as _ <-; cbn [map re im cconj]; f_equal; try rewrite (proj2 (H1 eq_refl (im a))); apply (proj1 (H1 eq_refl _))).
  all: unfold ifft in EI; destruct (Nat.eqb_spec (length x) 0); [lia|]; destruct (Nat.eqb_spec (length x) 1); [lia|];
    rewrite Ez in EI; cbn [bind] in EI; injection EI as _ <-; rewrite map_map, Hfas; apply map_ext; reflexivity.
Qed.
Print Assumptions C12_ifft_split.
(* exact arithmetic: no side condition *)
Theorem C12_ifft_split_exact : forall (c : cfg) (ks : list (call R)) p (x : list C),
  run_calls c new_planner ks = Done p -> (forall k, In k ks -> padded (call_size k) <= padded (length x)) ->
  0 < length x -> c_std c = true \/ is_pow2 (length x) = true ->
  exists q, ifft_split c p (map re x) (map im x) = Done (q, map re (IDFT x), map im (IDFT x), ROk).
Proof.
  intros c ks p x E Hk Hn Hs. destruct (@C12_ifft_split R RF c ks p x E Hk) as (q & q' & y & E1 & E2); try assumption.
  - reflexivity.
  - intros _ _ a. cbn. split; [|ring]. field.
  - destruct (@C02_ifft_is_idft c x Hn Hs) as [q2 E3]. rewrite E3 in E1. injection E1 as _ <-. eauto.
Qed.
Print Assumptions C12_ifft_split_exact.
Theorem C12_mismatch : forall (T : Type) (F : Float T) (c : cfg) p (a b : list T), length a <> length b ->
  fft_split c p a b = Done (p, a, b, RErr MismatchedLengths) /\ ifft_split c p a b = Done (p, a, b, RErr MismatchedLengths).
Proof.
  intros T F c p a b H. unfold fft_split, ifft_split. destruct (Nat.eqb_spec (length a) (length b)); [contradiction|]. auto.
Qed.
Print Assumptions C12_mismatch.
Example C12_example : (forall k, In k [CSplit [1%R; 2%R] [0%R; 0%R]] -> padded (call_size k) <= padded (length (ones 100)))
  /\ (exists p, run_calls (cfg_std F32) (new_planner (T := R)) [CFft (ones 1)] = Done p)
  /\ length [1%R] <> length [1%R; 2%R].
Proof.
  repeat split; [intros k [<-|[]]; vm_compute; lia| |discriminate].
  exists new_planner. cbn [run_calls run_call]. unfold forget, ones. cbn [repeat]. rewrite fft_single. reflexivity.
Qed.

(* ------------------------------------------------------------------ C13 *)
(* one butterfly group, any lane width L against the scalar loop *)
Theorem C13_group : forall (T : Type) (F : Float T) L n n1 n2 k (twl : list (cx T)) (a b : list T) (d : list T * list T),
  n <= length a -> n <= length b -> n <= length (fst d) -> n <= length (snd d) ->
  k < n1 -> 0 < n2 -> 2 * n1 * n2 = n -> length twl = n / 2 ->
  exists d', split_group 0 n1 n2 twl a b k d = Done d' /\ split_group L n1 n2 twl a b k d = Done d'.
Proof.
  intros. destruct (@split_group_lanes T F L n n1 n2 k twl a b d) as [E (d' & E' & _)]; try assumption.
  exists d'. rewrite E. auto.
Qed.
Print Assumptions C13_group.
(* whole transforms of builds differing only in the lane width *)
Theorem C13_transforms : forall (T : Type) (F : Float T) (c : cfg) (L : nat) (p : planner T), reachable c p ->
  (forall x, fft (with_lanes c L) p x = fft c p x) /\
  (forall x, ifft (with_lanes c L) p x = ifft c p x) /\
  (forall a b, fft_split (with_lanes c L) p a b = fft_split c p a b).
Proof.
  intros T F c L p Hp. pose proof (reachable_Inv Hp) as HI. split; [|split]; intros.
  - apply fft_lanes; exact HI.
  - apply ifft_lanes; exact HI.
  - apply fft_split_lanes; exact HI.
Qed.
Print Assumptions C13_transforms.
Example C13_example : 2 * 2 * 8 = 32 /\ length (repeat C1 16) = 32 / 2 /\ c_lanes (with_lanes (cfg_std F32) 0) = 0
  /\ c_lanes (cfg_std F32) = 4.
Proof. repeat split. Qed.

(* ------------------------------------------------------------------ C14 *)
(* the samples at 0, stride, ..., (n-1) stride *)
Definition samples {T} {F : Float T} (stride n : nat) (x : list (cx T)) : list (cx T) :=
  tab n (fun i => nth (i * stride) x czero).
(* out' is out with those samples replaced by y, everything else as it was *)
Definition replaced {T} {F : Float T} (stride n : nat) (y out out' : list (cx T)) : Prop :=
  length out' = length out /\
  (forall i, i < n -> nth (i * stride) out' czero = nth i y czero) /\
  (forall q, (forall i, i < n -> q <> i * stride) -> nth q out' czero = nth q out czero).
Definition strided_spec {T} {F : Float T} (op : fft_ty (T := T)) (run : planner T -> list (cx T) -> nat -> list (cx T) -> exec (planner T * list (cx T) * list (cx T) * rres))
  (p : planner T) : Prop := forall input stride scratch, 0 < stride -> 0 < length scratch ->
  (length scratch - 1) * stride < length input ->
  exists p' y r, op p (samples stride (length scratch) input) = Done (p', y, r) /\ length y = length scratch /\
    exists input', run p input stride scratch = Done (p', input', y, r) /\
      match r with ROk => replaced stride (length scratch) y input input' | RErr _ => input' = input end.
Theorem C14_strided : forall (T : Type) (F : Float T) (c : cfg) (p : planner T), reachable c p ->
  strided_spec (fft c) (fft_strided c) p /\ strided_spec (ifft c) (ifft_strided c) p.
Proof.
  intros T F c p Hp. pose proof (reachable_Inv Hp) as HI. split; intros input stride scratch H1 H2 H3.
  - exact (@strided_ok T F c (fft c) p input stride scratch (@fft_total T F c) HI H1 H2 H3).
  - exact (@strided_ok T F c (ifft c) p input stride scratch (@ifft_total T F c) HI H1 H2 H3).
Qed.
Print Assumptions C14_strided.
(* the previous scratch contents never matter *)
Theorem C14_scratch_irrelevant : forall (T : Type) (F : Float T) (c : cfg) (p : planner T) input stride s1 s2, reachable c p ->
  length s1 = length s2 -> 0 < length s1 ->
  fft_strided c p input stride s1 = fft_strided c p input stride s2 \/
  (fft_strided c p input stride s1 = Done (p, input, s1, RErr InvalidStride) /\ fft_strided c p input stride s2 = Done (p, input, s2, RErr InvalidStride)) \/
  (fft_strided c p input stride s1 = Done (p, input, s1, RErr MismatchedLengths) /\ fft_strided c p input stride s2 = Done (p, input, s2, RErr MismatchedLengths)).
Proof.
  intros T F c p input stride s1 s2 Hp Hl Hn. destruct (Nat.eq_dec stride 0) as [->|Hs]; [right; left; split; apply strided_stride0|].
  destruct (Nat.le_gt_cases (length input) ((length s1 - 1) * stride)) as [Hlen|Hlen].
  - right; right. split; apply strided_short; try lia.
  - left. destruct (C14_strided Hp) as [H _].
    destruct (H input stride s1) as (p1 & y1 & r1 & E1 & L1 & i1 & F1 & M1); try lia.
    destruct (H input stride s2) as (p2 & y2 & r2 & E2 & L2 & i2 & F2 & M2); try lia.
    rewrite <- Hl in E2. rewrite E1 in E2. injection E2 as <- <- <-. rewrite F1, F2. do 4 f_equal.
    destruct r1; [|congruence]. eapply scattered_det; [exact M1|rewrite Hl; exact M2|lia].
Qed.
Print Assumptions C14_scratch_irrelevant.
Theorem C14_errors : forall (T : Type) (F : Float T) (c : cfg) (p : planner T) input scratch,
  (fft_strided c p input 0 scratch = Done (p, input, scratch, RErr InvalidStride) /\
   ifft_strided c p input 0 scratch = Done (p, input, scratch, RErr InvalidStride)) /\
  (forall stride, 0 < stride -> 0 < length scratch -> length input <= (length scratch - 1) * stride ->
   fft_strided c p input stride scratch = Done (p, input, scratch, RErr MismatchedLengths) /\
   ifft_strided c p input stride scratch = Done (p, input, scratch, RErr MismatchedLengths)).
Proof.
  intros. split; [split; apply strided_stride0|]. intros. split; apply strided_short; assumption.
Qed.
Print Assumptions C14_errors.
(* an empty scratch is accepted without error (unlike an empty fft) *)
Theorem C14_empty_scratch : forall (T : Type) (F : Float T) (c : cfg) (p : planner T) input stride, 0 < stride ->
  fft_strided c p input stride [] = Done (p, input, [], ROk) /\ ifft_strided c p input stride [] = Done (p, input, [], ROk).
Proof.
  intros. unfold fft_strided, ifft_strided, strided. destruct (Nat.eqb_spec stride 0); [lia|]. split; reflexivity.
Qed.
Print Assumptions C14_empty_scratch.
Example C14_example : (length (ones 3) - 1) * 4 < length (ones 9) /\ samples 2 2 [C1; C0; RtoC 5; C0] = [C1; RtoC 5] /\
  replaced 2 2 [C0; C1] [C1; RtoC 7; RtoC 5; C0] [C0; RtoC 7; C1; C0].
Proof.
  split; [cbn; lia|]. split; [reflexivity|]. split; [reflexivity|]. split.
  - intros [|[|i]] H; [reflexivity|reflexivity|lia].
  - intros q H. destruct q as [|[|[|[|q]]]]; try reflexivity; exfalso; [apply (H 0)|apply (H 1)]; lia.
Qed.

(* ------------------------------------------------------------------ C15 *)
Section C15L.
Context {T : Type} {F : Float T}.
Variable c : cfg.
Lemma alloc_as_strided op (p : planner T) input stride scr : op_sim c op -> Inv c p ->
  length scr = (if stride =? 0 then 0 else length input / stride) ->
  exists p' q input' t r, strided_alloc op p input stride = Done (p', input', r) /\ strided op p input stride scr = Done (q, input', t, r).
Proof.
  intros Hop HI Hs. destruct (@strided_alloc_ok T F c op p input stride scr (proj1 Hop) HI Hs) as (p' & q & i1 & t & r & E1 & E2).
  destruct (@strided_sim T F c op (with_scratch p []) p input stride scr) as (a & b & o & t' & r' & E3 & E4); try assumption.
  - apply agree_scratch.
  - rewrite E2 in E3. injection E3 as <- <- <- <-. eauto 8.
Qed.
End C15L.
(* for whatever the object's own scratch (inside p) and the caller's scratch hold *)
Theorem C15_strided_alloc : forall (T : Type) (F : Float T) (c : cfg) (p : planner T) input stride scr, reachable c p ->
  length scr = (if stride =? 0 then 0 else length input / stride) ->
  (exists p' q input' t r, fft_strided_alloc c p input stride = Done (p', input', r) /\ fft_strided c p input stride scr = Done (q, input', t, r)) /\
  (exists p' q input' t r, ifft_strided_alloc c p input stride = Done (p', input', r) /\ ifft_strided c p input stride scr = Done (q, input', t, r)).
Proof.
  intros T F c p input stride scr Hp Hs. pose proof (reachable_Inv Hp) as HI.
  split; apply alloc_as_strided with (c := c); auto using op_sim_fft, op_sim_ifft.
Qed.
Print Assumptions C15_strided_alloc.
(* the trait's default implementation: uninit is the content of uninitialised memory *)
Theorem C15_uninitialised_scratch : forall (T : Type) (F : Float T) (c : cfg) (uninit : nat -> cx T) (p : planner T) input stride scr, reachable c p ->
  length scr = (if stride =? 0 then 0 else length input / stride) ->
  (exists p' input' t r, strided_alloc_default (fft c) uninit p input stride = Done (p', input', r) /\ fft_strided c p input stride scr = Done (p', input', t, r)) /\
  (exists p' input' t r, strided_alloc_default (ifft c) uninit p input stride = Done (p', input', r) /\ ifft_strided c p input stride scr = Done (p', input', t, r)).
Proof.
  intros T F c uninit p input stride scr Hp Hs. pose proof (reachable_Inv Hp) as HI.
  split; eapply strided_alloc_default_ok; eauto using fft_total, ifft_total.
Qed.
Print Assumptions C15_uninitialised_scratch.
Example C15_example : length (ones 3) = (if 4 =? 0 then 0 else length (ones 14) / 4).
Proof. reflexivity. Qed.

(* ------------------------------------------------------------------ C16 *)
Definition strides_ok (li is_ lo os : nat) : Prop :=
  0 < is_ /\ 0 < os /\ li mod is_ = 0 /\ lo mod os = 0 /\ lo / os = li / is_.
Section C16L.
Context {T : Type} {F : Float T}.
Variable c : cfg.
Lemma oop_ok op (p : planner T) input is_ output os : op_sim c op -> Inv c p -> strides_ok (length input) is_ (length output) os ->
  let n := length input / is_ in
  exists p' q y r output', op p (samples is_ n input) = Done (q, y, r) /\ oop_strided op p input is_ output os = Done (p', output', r) /\
    match r with ROk => replaced os n y output output' | RErr _ => output' = output end.
Proof.
  intros Hop HI (H1 & H2 & H3 & H4 & H5) n.
  destruct (@oop_strided_ok T F c op p input is_ output os (proj1 Hop) HI H1 H2 H3 H4 H5) as (q & y & r & E & Hl & p' & o & E' & M).
  destruct (proj2 Hop (with_scratch p []) p (samples is_ n input)) as (p1 & q1 & y1 & r1 & E1 & E2 & _); [apply with_scratch_Inv; exact HI|exact HI|apply agree_scratch|].
  fold n in E, Hl, M. change (gather is_ n input) with (samples is_ n input) in E. rewrite E in E1. injection E1 as <- <- <-.
  exists p', q1, y, r, o. auto.
Qed.
End C16L.
Theorem C16_out_of_place_strided : forall (T : Type) (F : Float T) (c : cfg) (p : planner T) input is_ output os, reachable c p ->
  strides_ok (length input) is_ (length output) os ->
  let n := length input / is_ in
  (exists p' q y output', fft c p (samples is_ n input) = Done (q, y, expected c n) /\
    fft_out_of_place_strided c p input is_ output os = Done (p', output', expected c n) /\
    match expected c n with ROk => replaced os n y output output' | RErr _ => output' = output end) /\
  (exists p' q y output', ifft c p (samples is_ n input) = Done (q, y, expected c n) /\
    ifft_out_of_place_strided c p input is_ output os = Done (p', output', expected c n) /\
    match expected c n with ROk => replaced os n y output output' | RErr _ => output' = output end).
Proof.
  intros T F c p input is_ output os Hp Hs n. pose proof (reachable_Inv Hp) as HI.
  assert (Ln : length (samples is_ n input) = n) by apply tab_length. split.
  - destruct (@oop_ok T F c (fft c) p input is_ output os (@op_sim_fft T F c) HI Hs) as (p' & q & y & r & o & E & E' & M). fold n in E, M.
    destruct (@C05_fft_contract T F c p (samples is_ n input) Hp) as (q' & y' & E2 & _). rewrite Ln in E2. rewrite E in E2.
    injection E2 as _ _ ->. exists p', q, y, o. auto.
  - destruct (@oop_ok T F c (ifft c) p input is_ output os (@op_sim_ifft T F c) HI Hs) as (p' & q & y & r & o & E & E' & M). fold n in E, M.
    destruct (@C05_ifft_contract T F c p (samples is_ n input) Hp) as (q' & y' & E2 & _). rewrite Ln in E2. rewrite E in E2.
    injection E2 as _ _ ->. exists p', q, y, o. auto.
Qed.
Print Assumptions C16_out_of_place_strided.
Theorem C16_bad_strides : forall (T : Type) (F : Float T) (c : cfg) (p : planner T) input is_ output os,
  ~ strides_ok (length input) is_ (length output) os -> exists e, (e = InvalidStride \/ e = MismatchedLengths) /\
   fft_out_of_place_strided c p input is_ output os = Done (p, output, RErr e) /\
   ifft_out_of_place_strided c p input is_ output os = Done (p, output, RErr e).
Proof.
  intros T F c p input is_ output os H. unfold fft_out_of_place_strided, ifft_out_of_place_strided, oop_strided, strides_ok in *.
  destruct (Nat.eqb_spec is_ 0); [cbn [orb]; eauto|]. destruct (Nat.eqb_spec os 0); [cbn [orb]; eauto|]. cbn [orb].
  destruct (Nat.eqb_spec (length input mod is_) 0); [|cbn [orb negb]; eauto].
  destruct (Nat.eqb_spec (length output mod os) 0); [|cbn [orb negb]; eauto]. cbn [orb negb].
  destruct (Nat.eqb_spec (length output / os) (length input / is_)); [|cbn [negb]; eauto].
  exfalso. apply H. repeat split; lia.
Qed.
Print Assumptions C16_bad_strides.
(* success exactly under the documented conditions *)
Theorem C16_success_iff : forall (T : Type) (F : Float T) (c : cfg) (p : planner T) input is_ output os, reachable c p ->
  (exists p' output', fft_out_of_place_strided c p input is_ output os = Done (p', output', ROk)) <->
  (strides_ok (length input) is_ (length output) os /\ 0 < length input / is_ /\
   (c_std c = true \/ is_pow2 (length input / is_) = true)).
Proof.
  intros T F c p input is_ output os Hp. split.
  - intros (p' & o & E). assert (Hd : strides_ok (length input) is_ (length output) os \/ ~ strides_ok (length input) is_ (length output) os).
    { unfold strides_ok. lia. }
    destruct Hd as [Hs|Hs].
    + destruct (C16_out_of_place_strided input output Hp Hs) as [(p1 & q1 & y1 & o1 & _ & E1 & _) _]. rewrite E in E1. injection E1 as _ _ E1.
      symmetry in E1. split; [exact Hs|]. unfold expected in E1. destruct (Nat.eqb_spec (length input / is_) 0); [discriminate|].
      split; [apply Nat.neq_0_lt_0; assumption|]. destruct (c_std c), (is_pow2 (length input / is_)); auto; discriminate.
    + destruct (@C16_bad_strides T F c p input is_ output os Hs) as (e & _ & E1 & _). rewrite E in E1. discriminate.
  - intros (Hs & Hn & Hc). destruct (C16_out_of_place_strided input output Hp Hs) as [(p1 & q1 & y1 & o1 & _ & E1 & _) _].
    exists p1, o1. rewrite E1. do 2 f_equal. unfold expected. destruct (Nat.eqb_spec (length input / is_) 0) as [Hz|_]; [rewrite Hz in Hn; inversion Hn|].
    destruct Hc as [-> | ->]; rewrite ?orb_true_r; reflexivity.
Qed.
Print Assumptions C16_success_iff.
Example C16_example : strides_ok 12 3 8 2 /\ ~ strides_ok 12 5 8 2 /\ 0 < 12 / 3.
Proof. unfold strides_ok. cbn. lia. Qed.

(* ------------------------------------------------------------------ C17 *)
Theorem C17_out_of_place : forall (T : Type) (F : Float T) (c : cfg) (p : planner T) (input output : list (cx T)), reachable c p ->
  (length input = length output ->
     (exists p' y r, fft c p input = Done (p', y, r) /\ out_of_place (fft c) p input output = Done (p', y, r)) /\
     (exists p' y r, ifft c p input = Done (p', y, r) /\ out_of_place (ifft c) p input output = Done (p', y, r))) /\
  (length input <> length output ->
     out_of_place (fft c) p input output = Done (p, output, RErr MismatchedLengths) /\
     out_of_place (ifft c) p input output = Done (p, output, RErr MismatchedLengths)).
Proof.
  intros T F c p input output Hp. unfold out_of_place. destruct (Nat.eqb_spec (length input) (length output)); cbn [negb].
  - split; [intros _|congruence]. split.
    + destruct (@C05_fft_contract T F c p input Hp) as (p' & y & E & _). rewrite E. eauto.
    + destruct (@C05_ifft_contract T F c p input Hp) as (p' & y & E & _). rewrite E. eauto 8.
  - split; [congruence|]. auto.
Qed.
Print Assumptions C17_out_of_place.
Theorem C17_vec : forall (T : Type) (F : Float T) (c : cfg) (p : planner T) (input : list (cx T)), reachable c p ->
  (exists p' y, fft c p input = Done (p', y, expected c (length input)) /\
     op_vec (fft c) p input = Done (p', match expected c (length input) with ROk => Ok y | RErr e => Err e end)) /\
  (exists p' y, ifft c p input = Done (p', y, expected c (length input)) /\
     op_vec (ifft c) p input = Done (p', match expected c (length input) with ROk => Ok y | RErr e => Err e end)).
Proof.
  intros T F c p input Hp. split.
  - destruct (@C05_fft_contract T F c p input Hp) as (p' & y & E & _). exists p', y. split; [exact E|]. unfold op_vec. rewrite E.
    cbn [bind]. destruct (expected c (length input)); reflexivity.
  - destruct (@C05_ifft_contract T F c p input Hp) as (p' & y & E & _). exists p', y. split; [exact E|]. unfold op_vec. rewrite E.
    cbn [bind]. destruct (expected c (length input)); reflexivity.
Qed.
Print Assumptions C17_vec.
Example C17_example : length (ones 5) = length (zeros 5) /\ length (ones 5) <> length (zeros 4).
Proof. split; [reflexivity|discriminate]. Qed.

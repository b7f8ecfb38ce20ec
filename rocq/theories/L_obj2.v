(* Any-arithmetic facts: strided and out-of-place transforms, parallel element
   passes, SIMD lanes, plans, batches. *)
From Coq Require Import ZArith ZifyBool ZifyNat Permutation.
From Verif Require Export L_obj.
Ltac Zify.zify_post_hook ::= Z.div_mod_to_equations.
Set Implicit Arguments.

Section Obj2.
Context {T : Type} {F : Float T}.
Variable c : cfg.
Local Notation cx := (cx T).

(* what every transform on a reachable object satisfies *)
Definition op_total (op : fft_ty (T := T)) : Prop := forall (p : planner T) (x : list cx), Inv c p ->
  exists p' y r, op p x = Done (p', y, r) /\ length y = length x.
Lemma fft_total : op_total (fft c).
Proof.
  intros p x HI. destruct (fft_cases x HI) as [[H E]|[(_ & _ & E)|(_ & _ & q & y & E & _ & Hl & _)]]; eauto 6.
Qed.
Lemma ifft_total : op_total (ifft c).
Proof.
  intros p x HI. destruct (ifft_cases x HI) as [[H E]|[(_ & _ & E)|(_ & _ & q & y & E & _ & Hl & _)]]; eauto 6.
  exists p, (map cconj x), (RErr NonPowerOfTwoNoStd). split; [exact E|apply map_length].
Qed.

(* samples at 0, stride, 2 stride, ... *)
Definition gather (stride n : nat) (x : list cx) : list cx := tab n (fun i => nth (i * stride) x czero).
Lemma gather_loop stride n (input a : list cx) : n = 0 \/ (n - 1) * stride < length input -> n <= length a ->
  for_range 0 n (fun i s => v <- get input (i * stride) ;; set s i v) a = Done (gather stride n input ++ skipn n a).
Proof.
  intros H Ha. apply for_set; [exact Ha|]. intros i Hi. apply get_nth. destruct H; [lia|]. nia.
Qed.
Definition scattered (stride n : nat) (s out out' : list cx) : Prop :=
  length out' = length out /\
  (forall i, i < n -> nth (i * stride) out' czero = nth i s czero) /\
  (forall q, (forall i, i < n -> q <> i * stride) -> nth q out' czero = nth q out czero).
Lemma scatter_loop stride n (s out : list cx) : 0 < stride -> n = 0 \/ (n - 1) * stride < length out -> n <= length s ->
  exists out', for_range 0 n (fun i o => v <- get s i ;; set o (i * stride) v) out = Done out' /\ scattered stride n s out out'.
Proof.
  intros Hst H Hs.
  destruct (@for_inv (list cx) (fun k o => scattered stride k s out o)
     (fun i o => v <- get s i ;; set o (i * stride) v) 0 n out) as (o & E & Ho); [lia| | |eauto].
  - split; [reflexivity|]. split; [intros; lia|]. intros; reflexivity.
  - intros i o Hi (Hl & H1 & H2). rewrite get_nth with (d := czero) by lia. cbn [bind].
    assert (Hb : i * stride < length o) by (rewrite Hl; destruct H; nia).
    rewrite set_ok by exact Hb. eexists; split; [reflexivity|]. split; [rewrite upd_length; exact Hl|]. split.
    + intros k Hk. rewrite nth_upd by exact Hb. destruct (Nat.eqb_spec (k * stride) (i * stride)) as [E|E].
      * assert (k = i) by nia. subst k. reflexivity.
      * apply H1. assert (k <> i) by (intros ->; lia). lia.
    + intros q Hq. rewrite nth_upd by exact Hb. destruct (Nat.eqb_spec q (i * stride)) as [E|E].
      * exfalso. apply (Hq i); [lia|exact E].
      * apply H2. intros k Hk. apply Hq. lia.
Qed.
Lemma scattered_det stride n s out o1 o2 : scattered stride n s out o1 -> scattered stride n s out o2 -> 0 < stride -> o1 = o2.
Proof.
  intros (L1 & A1 & B1) (L2 & A2 & B2) Hs. apply list_ext with (d := czero); [congruence|]. intros q Hq.
  destruct (Nat.eq_dec (q mod stride) 0) as [E|E]; [destruct (Nat.lt_ge_cases (q / stride) n) as [Hn|Hn]|].
  - assert (Eq : q = q / stride * stride) by (pose proof (Nat.div_mod_eq q stride); lia).
    rewrite Eq, A1, A2 by exact Hn. reflexivity.
  - rewrite B1, B2; [reflexivity| |]; intros i Hi Hne; subst q; rewrite Nat.div_mul in Hn by lia; lia.
  - rewrite B1, B2; [reflexivity| |]; intros i Hi Hne; subst q; apply E; apply Nat.mod_mul; lia.
Qed.
Lemma gather_length stride n x : length (gather stride n x) = n.
Proof. apply tab_length. Qed.

Lemma strided_ok op p input stride scratch : op_total op -> Inv c p -> 0 < stride -> 0 < length scratch ->
  (length scratch - 1) * stride < length input ->
  exists p' y r, op p (gather stride (length scratch) input) = Done (p', y, r) /\ length y = length scratch /\
    exists input', strided op p input stride scratch = Done (p', input', y, r) /\
      match r with ROk => scattered stride (length scratch) y input input' | RErr _ => input' = input end.
Proof.
  intros Hop HI Hs Hn Hlen. set (n := length scratch) in *.
  destruct (Hop p (gather stride n input) HI) as (p' & y & r & E & Hl). rewrite gather_length in Hl.
  exists p', y, r. split; [exact E|]. split; [exact Hl|].
  unfold strided. fold n. destruct (Nat.eqb_spec stride 0); [lia|]. destruct (Nat.eqb_spec n 0); [lia|].
  destruct (Nat.ltb_spec (length input) ((n - 1) * stride + 1)); [lia|].
  rewrite gather_loop by (fold n; lia). rewrite skipn_nil_iff, app_nil_r by (fold n; lia). cbn [bind]. rewrite E. cbn [bind].
  destruct r as [|e]; [|eexists; split; [reflexivity|reflexivity]].
  destruct (@scatter_loop stride n y input) as (o & Eo & Ho); [lia|lia|lia|]. rewrite Eo. cbn [bind]. eauto.
Qed.
Lemma strided_stride0 (op : fft_ty (T := T)) p input scratch : strided op p input 0 scratch = Done (p, input, scratch, RErr InvalidStride).
Proof. reflexivity. Qed.
Lemma strided_short (op : fft_ty (T := T)) p input stride scratch : 0 < stride -> 0 < length scratch ->
  length input <= (length scratch - 1) * stride ->
  strided op p input stride scratch = Done (p, input, scratch, RErr MismatchedLengths).
Proof.
  intros Hs Hn H. unfold strided. destruct (Nat.eqb_spec stride 0); [lia|]. destruct (Nat.eqb_spec (length scratch) 0); [lia|].
  destruct (Nat.ltb_spec (length input) ((length scratch - 1) * stride + 1)); [reflexivity|lia].
Qed.
Definition alloc_n (stride : nat) (input : list cx) : nat := if stride =? 0 then 0 else length input / stride.
(* the scratch contents never matter *)
Lemma strided_scratch op p input stride s1 s2 : op_total op -> Inv c p -> length s1 = length s2 ->
  length s1 = alloc_n stride input ->
  exists p' input' t1 t2 r, strided op p input stride s1 = Done (p', input', t1, r) /\
     strided op p input stride s2 = Done (p', input', t2, r) /\ length t1 = length s1.
Proof.
  intros Hop HI H12 Hn. unfold alloc_n in Hn. destruct (Nat.eqb_spec stride 0) as [->|Hs].
  { rewrite !strided_stride0. exists p, input, s1, s2, (RErr InvalidStride). auto. }
  destruct (Nat.eq_dec (length s1) 0) as [E0|E0].
  { destruct s1; [|discriminate]. destruct s2; [|discriminate]. unfold strided. destruct (Nat.eqb_spec stride 0); [lia|].
    exists p, input, [], [], ROk. auto. }
  assert (Hlen : (length s1 - 1) * stride < length input).
  { pose proof (Nat.mul_div_le (length input) stride ltac:(lia)). nia. }
  destruct (@strided_ok op p input stride s1 Hop HI) as (p1 & y1 & r1 & E1 & L1 & i1 & S1 & P1); try lia.
  destruct (@strided_ok op p input stride s2 Hop HI) as (p2 & y2 & r2 & E2 & L2 & i2 & S2 & P2); try lia; try (rewrite <- H12; exact Hlen).
  rewrite <- H12 in E2. rewrite E1 in E2. injection E2 as <- <- <-.
  assert (i1 = i2).
  { destruct r1; [|congruence]. rewrite <- H12 in P2. eapply scattered_det; [exact P1|exact P2|lia]. }
  subst i2. exists p1, i1, y1, y1, r1. auto.
Qed.
Lemma strided_alloc_ok op p input stride scr : op_total op -> Inv c p -> length scr = alloc_n stride input ->
  exists p' q input' t r, strided_alloc op p input stride = Done (p', input', r) /\
    strided op (with_scratch p []) input stride scr = Done (q, input', t, r).
Proof.
  intros Hop HI Hn. unfold strided_alloc. fold (alloc_n stride input). rewrite <- Hn. set (n := length scr) in *.
  unfold slice_to. destruct (Nat.leb_spec n (length (grow (pl_scratch p) n czero))) as [H|H].
  2:{ rewrite grow_length in H. lia. }
  cbn [bind]. set (part := firstn n (grow (pl_scratch p) n czero)).
  assert (Lp : length part = n) by (unfold part; rewrite firstn_length; lia).
  destruct (@strided_scratch op (with_scratch p []) input stride part scr Hop) as (q & i' & t1 & t2 & r & E1 & E2 & _).
  - apply with_scratch_Inv. exact HI.
  - fold n. exact Lp.
  - congruence.
  - rewrite E1. cbn [bind]. exists (with_scratch q (t1 ++ skipn n (grow (pl_scratch p) n czero))), q, i', t2, r. auto.
Qed.
Lemma strided_alloc_default_ok op uninit p input stride scr : op_total op -> Inv c p -> length scr = alloc_n stride input ->
  exists p' input' t r, strided_alloc_default op uninit p input stride = Done (p', input', r) /\
    strided op p input stride scr = Done (p', input', t, r).
Proof.
  intros Hop HI Hn. unfold strided_alloc_default. fold (alloc_n stride input). rewrite <- Hn.
  destruct (@strided_scratch op p input stride (tab (length scr) uninit) scr Hop HI) as (q & i' & t1 & t2 & r & E1 & E2 & _).
  - apply tab_length.
  - rewrite tab_length. exact Hn.
  - rewrite E1. cbn [bind]. eauto 7.
Qed.

Lemma oop_strided_ok op p input is_ output os : op_total op -> Inv c p -> 0 < is_ -> 0 < os ->
  length input mod is_ = 0 -> length output mod os = 0 -> length output / os = length input / is_ ->
  let n := length input / is_ in
  exists q y r, op (with_scratch p []) (gather is_ n input) = Done (q, y, r) /\ length y = n /\
    exists p' output', oop_strided op p input is_ output os = Done (p', output', r) /\
      match r with ROk => scattered os n y output output' | RErr _ => output' = output end.
Proof.
  intros Hop HI His Hos Hi Ho Hno n.
  destruct (Hop (with_scratch p []) (gather is_ n input)) as (q & y & r & E & Hl); [apply with_scratch_Inv; exact HI|].
  rewrite gather_length in Hl. exists q, y, r. split; [exact E|]. split; [exact Hl|].
  unfold oop_strided. destruct (Nat.eqb_spec is_ 0); [lia|]. destruct (Nat.eqb_spec os 0); [lia|].
  rewrite Hi, Ho, Hno. fold n. cbn [orb negb Nat.eqb]. rewrite Nat.eqb_refl. cbn [negb].
  assert (Ein : length input = n * is_) by (unfold n; pose proof (Nat.div_mod_eq (length input) is_); lia).
  assert (Eout : length output = n * os) by (unfold n; rewrite <- Hno; pose proof (Nat.div_mod_eq (length output) os); lia).
  set (g := grow (pl_scratch p) n czero).
  assert (Lg : n <= length g) by (unfold g; rewrite grow_length; lia).
  rewrite gather_loop; [|destruct (Nat.eq_dec n 0); [left; assumption|right; nia]|exact Lg].
  cbn [bind]. unfold slice_to. rewrite app_length, gather_length.
  destruct (Nat.leb_spec n (n + length (skipn n g))); [|lia]. cbn [bind].
  rewrite firstn_app, gather_length, Nat.sub_diag. cbn [firstn]. rewrite app_nil_r, firstn_all2 by (rewrite gather_length; lia).
  rewrite E. cbn [bind]. destruct r as [|e]; [|eauto].
  set (s2 := y ++ _).
  destruct (@scatter_loop os n s2 output) as (o & Eo & Hso); [lia|destruct (Nat.eq_dec n 0); [left; assumption|right; nia]|unfold s2; rewrite app_length; lia|].
  rewrite Eo. cbn [bind]. eexists _, _. split; [reflexivity|].
  destruct Hso as (H1 & H2 & H3). split; [exact H1|]. split; [|exact H3].
  intros i Hi'. rewrite H2 by exact Hi'. unfold s2. apply app_nth1. lia.
Qed.
Lemma oop_strided_bad op p input is_ output os :
  ~ (0 < is_ /\ 0 < os /\ length input mod is_ = 0 /\ length output mod os = 0 /\ length output / os = length input / is_) ->
  exists e, oop_strided op p input is_ output os = Done (p, output, RErr e) /\ (e = InvalidStride \/ e = MismatchedLengths).
Proof.
  intros H. unfold oop_strided.
  destruct (Nat.eqb_spec is_ 0); cbn [orb]; [eauto|]. destruct (Nat.eqb_spec os 0); [eauto|].
  destruct (Nat.eqb_spec (length input mod is_) 0); cbn [orb negb]; [|eauto].
  destruct (Nat.eqb_spec (length output mod os) 0); cbn [orb negb]; [|eauto].
  destruct (Nat.eqb_spec (length output / os) (length input / is_)); cbn [orb negb]; [|eauto].
  exfalso. apply H. repeat split; try assumption; lia.
Qed.
Lemma oop_strided_empty op p input is_ output os e q y : 0 < is_ -> 0 < os -> length input = 0 -> length output = 0 ->
  op (with_scratch p []) [] = Done (q, y, RErr e) ->
  oop_strided op p input is_ output os = Done (q, output, RErr e).
Proof.
  intros H1 H2 H3 H4 E. unfold oop_strided. rewrite H3, H4, Nat.mod_0_l, Nat.mod_0_l, !Nat.div_0_l by lia.
  destruct (Nat.eqb_spec is_ 0); [lia|]. destruct (Nat.eqb_spec os 0); [lia|]. cbn [orb negb Nat.eqb].
  unfold for_range. cbn [Nat.sub for_n bind slice_to Nat.leb firstn]. unfold slice_to. cbn. rewrite E. reflexivity.
Qed.

(* ---------- parallel element passes ---------- *)
Lemma par_for_each_aux {A} (f : A -> A) (d : A) sched : forall l, NoDup sched -> (forall i, In i sched -> i < length l) ->
  exists l', par_for_each f sched l = Done l' /\ length l' = length l /\
    forall i, i < length l -> nth i l' d = if in_dec Nat.eq_dec i sched then f (nth i l d) else nth i l d.
Proof.
  unfold par_for_each. induction sched as [|k s IH]; intros l Hnd Hlt.
  - exists l. split; [reflexivity|]. split; [reflexivity|]. intros i Hi. destruct (in_dec Nat.eq_dec i []) as [[]|]. reflexivity.
  - cbn [fold_left bind]. assert (Hk : k < length l) by (apply Hlt; left; reflexivity).
    rewrite get_nth with (d := d) by exact Hk. cbn [bind]. rewrite set_ok by exact Hk.
    inversion Hnd as [|? ? Hnin Hnd']; subst.
    destruct (IH (upd l k (f (nth k l d))) Hnd') as (l' & E & Hl & Hn).
    { intros i Hi. rewrite upd_length. apply Hlt. right. exact Hi. }
    exists l'. split; [exact E|]. rewrite upd_length in Hl, Hn. split; [exact Hl|]. intros i Hi. rewrite Hn by exact Hi.
    rewrite nth_upd by exact Hk. destruct (Nat.eqb_spec i k) as [->|Hne].
    + destruct (in_dec Nat.eq_dec k s); [contradiction|]. destruct (in_dec Nat.eq_dec k (k :: s)) as [|H]; [reflexivity|].
      exfalso. apply H. left. reflexivity.
    + destruct (in_dec Nat.eq_dec i s) as [Hi'|Hi'], (in_dec Nat.eq_dec i (k :: s)) as [Hj|Hj]; try reflexivity.
      * exfalso. apply Hj. right. exact Hi'.
      * exfalso. destruct Hj as [Hj|Hj]; [congruence|contradiction].
Qed.
Lemma par_for_each_ok {A} (f : A -> A) sched (l : list A) : Permutation sched (seq 0 (length l)) ->
  par_for_each f sched l = Done (map f l).
Proof.
  intros HP. destruct l as [|d l].
  - apply Permutation_sym in HP. cbn in HP. apply Permutation_nil in HP. subst. reflexivity.
  - set (L := d :: l) in *. destruct (@par_for_each_aux A f d sched L) as (l' & E & Hl & Hn).
    + eapply Permutation_NoDup; [apply Permutation_sym; exact HP|apply seq_NoDup].
    + intros i Hi. apply (Permutation_in _ HP) in Hi. apply in_seq in Hi. lia.
    + rewrite E. f_equal. rewrite (map_as_tab f L d). apply list_is_tab with (d := d); [exact Hl|]. intros i Hi.
      rewrite Hn by exact Hi. destruct (in_dec Nat.eq_dec i sched) as [|H]; [reflexivity|]. exfalso. apply H.
      apply (Permutation_in _ (Permutation_sym HP)). apply in_seq. lia.
Qed.
Lemma ifft_full_ok e s1 s2 p x : Inv c p -> Permutation s1 (seq 0 (length x)) -> Permutation s2 (seq 0 (length x)) ->
  (c_kind c = F32 -> fas (length x) = fofnat (length x)) -> ifft_full c e s1 s2 p x = ifft c p x.
Proof.
  intros HI H1 H2 Hf. unfold ifft_full. destruct (Nat.eqb_spec (length x) 0) as [E0|E0].
  { unfold ifft. rewrite E0. reflexivity. }
  destruct (Nat.eqb_spec (length x) 1) as [E1|E1].
  { unfold ifft. rewrite E1. reflexivity. }
  destruct (c_kind c) eqn:Ek; rewrite ?andb_false_r; try reflexivity. specialize (Hf eq_refl). rewrite andb_true_r.
  destruct (_ && _); [|reflexivity]. rewrite par_for_each_ok by exact H1. cbn [bind]. unfold ifft.
  destruct (Nat.eqb_spec (length x) 0); [lia|]. destruct (Nat.eqb_spec (length x) 1); [lia|].
  destruct (fft_total (map cconj x) HI) as (q & y & r & E & Hl). rewrite E. cbn [bind]. destruct r; [|reflexivity].
  rewrite map_length in Hl. rewrite Hf, par_for_each_ok by (rewrite Hl; exact H2). reflexivity.
Qed.

(* ---------- which part of the object state matters ---------- *)
Definition agree (p q : planner T) : Prop :=
  pl_bscratch p = pl_bscratch q /\ (c_kind c = OtherT \/ (pl_sre p = pl_sre q /\ pl_sim p = pl_sim q)).
Lemma pow2_out_agree p q x : agree p q -> pow2_out c (pl_sre p) (pl_sim p) x = pow2_out c (pl_sre q) (pl_sim q) x.
Proof. intros [_ [H|[-> ->]]]; [unfold pow2_out; rewrite H; reflexivity|reflexivity]. Qed.
Lemma fft_pow2_sim rec p q x : Inv c p -> Inv c q -> agree p q -> is_pow2 (length x) = true ->
  exists p' q' y, fft_body c rec p x = Done (p', y, ROk) /\ fft_body c rec q x = Done (q', y, ROk) /\
    agree p' q' /\ Inv c p' /\ Inv c q' /\ length y = length x.
Proof.
  intros Hp Hq Ha Hx.
  destruct (@fft_pow2_ok T F c rec p x Hp Hx) as (p' & E1 & I1 & B1 & _ & _ & S1).
  destruct (@fft_pow2_ok T F c rec q x Hq Hx) as (q' & E2 & I2 & B2 & _ & _ & S2).
  exists p', q', (pow2_out c (pl_sre p) (pl_sim p) x). rewrite E1, E2, (pow2_out_agree x Ha).
  split; [reflexivity|]. split; [reflexivity|]. split; [|split; [exact I1|split; [exact I2|]]].
  2:{ apply pow2_out_length; [apply Hq|exact Hx]. }
  split; [rewrite B1, B2; apply Ha|]. destruct (c_kind c) eqn:Ek; [| |left; reflexivity]; right.
  all: destruct (Nat.leb_spec (length x) 16) as [H16|H16].
  2,4: destruct S1 as [-> ->]; [congruence|exact H16|]; destruct S2 as [-> ->]; [congruence|exact H16|];
    unfold split_after; destruct Ha as [_ [Ha|[-> ->]]]; [congruence|auto].
  all: assert (Es : forall r, r = p \/ r = q -> exists y, fft_body c rec r x = Done (r, y, ROk)) by
    (intros r Hr; unfold fft_body; destruct (Nat.eqb_spec (length x) 0) as [E0|E0]; [rewrite E0 in Hx; discriminate|];
     destruct (Nat.eqb_spec (length x) 1) as [E3|E3]; [eauto|]; rewrite Hx;
     destruct (Nat.leb_spec (length x) 16); [cbn [andb]|lia];
     destruct (@small_kernel_ok T F c r x Hx) as [Ek' _]; [lia|eauto]).
  all: destruct (Es p (or_introl eq_refl)) as [y1 F1]; destruct (Es q (or_intror eq_refl)) as [y2 F2];
    rewrite F1 in E1; rewrite F2 in E2; injection E1 as <- _; injection E2 as <- _; destruct Ha as [_ [Ha|Ha]]; [congruence|exact Ha].
Qed.
Lemma fft_sim p q x : Inv c p -> Inv c q -> agree p q ->
  exists p' q' y r, fft c p x = Done (p', y, r) /\ fft c q x = Done (q', y, r) /\ agree p' q'.
Proof.
  intros Hp Hq Ha. unfold fft, FUEL. change (fft_fuel c 6) with (fft_body c (fft_fuel c 5)).
  destruct (is_pow2 (length x)) eqn:Hx.
  { destruct (@fft_pow2_sim (fft_fuel c 5) p q x Hp Hq Ha Hx) as (p' & q' & y & E1 & E2 & A & _). eauto 8. }
  unfold fft_body at 1 2. destruct (Nat.eqb_spec (length x) 0) as [|H0]; [eauto 8|]. destruct (Nat.eqb_spec (length x) 1); [eauto 8|].
  rewrite Hx, andb_false_r, land_pred_pow2, Hx by lia. destruct (negb (c_std c)); [eauto 8|].
  change (fft_fuel c 5) with (fft_body c (fft_fuel c 4)).
  destruct (@get_bluestein_ok T F c (fft_fuel c 4) p (length x) Hp) as (bp & Ep & Ip); [lia|].
  destruct (@get_bluestein_ok T F c (fft_fuel c 4) q (length x) Hq) as (bq & Eq & Iq); [lia|].
  rewrite Ep, Eq. cbn [bind].
  set (m := length (bl_fft_b c (length x))). assert (Em : m = blue_m (length x)) by apply bl_fft_b_length.
  cbn [pl_bscratch with_blue]. destruct Ha as [Hb Hs]. rewrite <- Hb.
  set (a := grow (pl_bscratch p) m czero).
  assert (Hla : is_pow2 (length a) = true).
  { unfold a. rewrite grow_length. destruct Hp as (_ & _ & _ & _ & [Hb'|Hb']).
    - rewrite Hb', Nat.max_0_r, Em. apply blue_m_pow2.
    - apply pow2_max; [rewrite Em; apply blue_m_pow2|exact Hb']. }
  assert (Hm : length x <= m) by (rewrite Em; pose proof (blue_m_ge (length x)); lia).
  assert (Hma : m <= length a) by (unfold a; rewrite grow_length; lia).
  rewrite for_set with (g := fun i => cmul c (nth i x czero) (nth i (blue_chirp (length x)) czero)).
  2:{ lia. }
  2:{ intros i Hi. rewrite !get_nth with (d := czero); [reflexivity|unfold blue_chirp; rewrite tab_length; exact Hi|exact Hi]. }
  cbn [bind]. set (a1 := tab _ _ ++ _).
  assert (La1 : length a1 = length a) by (unfold a1; rewrite app_length, tab_length, skipn_length; lia).
  destruct (Nat.leb_spec (length x) m); [|lia]. destruct (Nat.leb_spec m (length a1)); [|lia]. cbn [andb bind].
  set (a2 := firstn _ _ ++ _).
  assert (La2 : length a2 = length a).
  { unfold a2. rewrite !app_length, firstn_length, repeat_length, skipn_length. lia. }
  destruct (@fft_pow2_sim (fft_fuel c 4) (with_bscratch (with_blue p bp) []) (with_bscratch (with_blue q bq) []) a2) as (p1 & q1 & y1 & E1 & E2 & A1 & I1 & J1 & L1).
  { destruct Ip as (A & B & D & E & _). repeat split; try assumption. left. reflexivity. }
  { destruct Iq as (A & B & D & E & _). repeat split; try assumption. left. reflexivity. }
  { split; [reflexivity|exact Hs]. }
  { rewrite La2. exact Hla. }
  rewrite E1, E2. cbn [bind]. set (a3 := map cconj _).
  assert (La3 : length a3 = length a) by (unfold a3; rewrite map_length, zip_apply_length, L1; exact La2).
  destruct (@fft_pow2_sim (fft_fuel c 4) p1 q1 a3 I1 J1 A1) as (p2 & q2 & y2 & E3 & E4 & A2 & I2 & J2 & L2); [rewrite La3; exact Hla|].
  rewrite E3, E4. cbn [bind]. set (a4 := map _ (map cconj y2)).
  assert (La4 : length a4 = length a) by (unfold a4; rewrite !map_length, L2; exact La3).
  rewrite for_set with (g := fun i => cmul c (nth i a4 czero) (nth i (blue_chirp (length x)) czero)).
  2:{ lia. }
  2:{ intros i Hi. rewrite !get_nth with (d := czero); [reflexivity|unfold blue_chirp; rewrite tab_length; exact Hi|lia]. }
  cbn [bind]. eexists _, _, _, _. split; [reflexivity|]. split; [reflexivity|]. split; [reflexivity|apply A2].
Qed.
Lemma ifft_sim p q x : Inv c p -> Inv c q -> agree p q ->
  exists p' q' y r, ifft c p x = Done (p', y, r) /\ ifft c q x = Done (q', y, r) /\ agree p' q'.
Proof.
  intros Hp Hq Ha. unfold ifft. destruct (Nat.eqb_spec (length x) 0); [eauto 8|]. destruct (Nat.eqb_spec (length x) 1); [eauto 8|].
  destruct (@fft_sim p q (map cconj x) Hp Hq Ha) as (p' & q' & y & r & -> & -> & A). cbn [bind]. destruct r; eauto 8.
Qed.
Lemma agree_scratch p s : agree (with_scratch p s) p.
Proof. split; [reflexivity|right; split; reflexivity]. Qed.
Definition op_sim (op : fft_ty (T := T)) : Prop := op_total op /\ forall p q x, Inv c p -> Inv c q -> agree p q ->
  exists p' q' y r, op p x = Done (p', y, r) /\ op q x = Done (q', y, r) /\ agree p' q'.
Lemma op_sim_fft : op_sim (fft c).
Proof. split; [apply fft_total|apply fft_sim]. Qed.
Lemma op_sim_ifft : op_sim (ifft c).
Proof. split; [apply ifft_total|apply ifft_sim]. Qed.
(* strided transforms on two agreeing objects *)
Lemma strided_sim op p q input stride scr : op_sim op -> Inv c p -> Inv c q -> agree p q -> length scr = alloc_n stride input ->
  exists p' q' out t r, strided op p input stride scr = Done (p', out, t, r) /\ strided op q input stride scr = Done (q', out, t, r).
Proof.
  intros [Ht Hs] Hp Hq Ha Hn. unfold alloc_n in Hn. destruct (Nat.eqb_spec stride 0) as [->|Hs0].
  { rewrite !strided_stride0. eauto 8. }
  destruct (Nat.eq_dec (length scr) 0) as [E0|E0].
  { destruct scr; [|discriminate]. unfold strided. destruct (Nat.eqb_spec stride 0); [lia|]. exists p, q, input, [], ROk. auto. }
  assert (Hlen : (length scr - 1) * stride < length input).
  { pose proof (Nat.mul_div_le (length input) stride ltac:(lia)). nia. }
  destruct (@strided_ok op p input stride scr Ht Hp) as (p1 & y1 & r1 & E1 & L1 & i1 & S1 & P1); try lia.
  destruct (@strided_ok op q input stride scr Ht Hq) as (p2 & y2 & r2 & E2 & L2 & i2 & S2 & P2); try lia.
  destruct (Hs p q (gather stride (length scr) input) Hp Hq Ha) as (p' & q' & y & r & F1 & F2 & _).
  rewrite F1 in E1. rewrite F2 in E2. injection E1 as <- <- <-. injection E2 as <- <- <-.
  assert (i1 = i2). { destruct r; [|congruence]. eapply scattered_det; [exact P1|exact P2|lia]. }
  subst i2. eauto 8.
Qed.

(* ---------- SIMD lanes ---------- *)
Lemma rd2_det la lb (d1 d2 : list T * list T) : len2 la lb d1 -> len2 la lb d2 ->
  (forall q, rd2 d1 q = rd2 d2 q) -> d1 = d2.
Proof.
  intros [A1 B1] [A2 B2] H. destruct d1 as [r1 i1], d2 as [r2 i2]. cbn [fst snd] in *.
  f_equal.
  - apply list_ext with (d := fzero); [congruence|]. intros q Hq. specialize (H q). unfold rd2 in H. cbn [fst snd] in H. injection H as H1 _. exact H1.
  - apply list_ext with (d := fzero); [congruence|]. intros q Hq. specialize (H q). unfold rd2 in H. cbn [fst snd] in H. injection H as _ H1. exact H1.
Qed.
Lemma split_group_lanes L n n1 n2 k (twl : list cx) (a b : list T) (d : list T * list T) :
  n <= length a -> n <= length b -> n <= length (fst d) -> n <= length (snd d) ->
  k < n1 -> 0 < n2 -> 2 * n1 * n2 = n -> length twl = n / 2 ->
  split_group L n1 n2 twl a b k d = split_group 0 n1 n2 twl a b k d /\
  exists d', split_group 0 n1 n2 twl a b k d = Done d' /\ len2 (length (fst d)) (length (snd d)) d'.
Proof.
  intros Ha Hb Hd1 Hd2 Hk Hn2 Hn Htw.
  destruct (@split_group_ok T F n n1 n2 k twl (a, b) (length (fst d)) (length (snd d)) Ha Hb Hd1 Hd2 Hk Hn2 Hn L d Htw) as (e1 & E1 & L1 & U1); [split; reflexivity|].
  destruct (@split_group_ok T F n n1 n2 k twl (a, b) (length (fst d)) (length (snd d)) Ha Hb Hd1 Hd2 Hk Hn2 Hn 0 d Htw) as (e2 & E2 & L2 & U2); [split; reflexivity|].
  cbn [fst snd] in E1, E2. rewrite E1, E2. split; [|eauto]. f_equal. eapply rd2_det; [exact L1|exact L2|].
  intros q. rewrite (U1 q), (U2 q). reflexivity.
Qed.
Lemma for_n_ext_inv {S} (P : S -> Prop) (b1 b2 : nat -> S -> exec S) n : forall lo s,
  (forall i s, lo <= i < lo + n -> P s -> b1 i s = b2 i s /\ forall s', b2 i s = Done s' -> P s') ->
  P s -> for_n n lo b1 s = for_n n lo b2 s.
Proof.
  induction n as [|n IH]; intros lo s H HP; cbn [for_n]; [reflexivity|].
  destruct (H lo s) as [E HP']; [lia|exact HP|]. rewrite E. destruct (b2 lo s) as [s'| |]; cbn [bind]; try reflexivity.
  apply IH; [|apply HP'; reflexivity]. intros i t Hi Ht. apply H; [lia|exact Ht].
Qed.
Lemma while_ext_inv {S} (P : S -> Prop) fuel cd (b1 b2 : S -> exec S) :
  (forall s, P s -> cd s = true -> b1 s = b2 s /\ forall s', b2 s = Done s' -> P s') ->
  forall s, P s -> while_ fuel cd b1 s = while_ fuel cd b2 s.
Proof.
  intros H. induction fuel as [|f IH]; intros s HP; cbn [while_]; [reflexivity|].
  destruct (cd s) eqn:Ec; [|reflexivity]. destruct (H s HP Ec) as [E HP']. rewrite E.
  destruct (b2 s); cbn [bind]; try reflexivity. apply IH. apply HP'. reflexivity.
Qed.
Lemma split_stages_lanes L K n twl (a b sa sb : list T) : n = 2 ^ K ->
  n <= length a -> n <= length b -> n <= length sa -> n <= length sb -> length twl = n / 2 ->
  split_stages L n twl a b sa sb = split_stages 0 n twl a b sa sb.
Proof.
  intros HK Ha Hb Hsa Hsb Htw. unfold split_stages.
  apply while_ext_inv with (P := fun '(n1, n2, s, d, _) => (exists e, e <= K /\ n1 = 2 ^ e /\ n2 = 2 ^ (K - e)) /\
     n <= length (fst s) /\ n <= length (snd s) /\ n <= length (fst d) /\ n <= length (snd d)).
  2:{ split; [exists 0; rewrite Nat.sub_0_r; cbn; repeat split; [lia|exact HK]|]. cbn [fst snd]. auto. }
  intros [[[[n1 n2] [s1 s2]] d] fl] ((e & He & E1 & E2) & H1 & H2 & H3 & H4) Hlt. cbn [fst snd] in H1, H2.
  apply Nat.ltb_lt in Hlt.
  assert (HeK : e < K). { destruct (Nat.eq_dec e K) as [->|]; [subst n1 n; lia|lia]. }
  assert (E2' : n2 / 2 = 2 ^ (K - S e)).
  { rewrite E2. replace (K - e) with (S (K - S e)) by lia. rewrite Nat.pow_succ_r', Nat.mul_comm. apply Nat.div_mul. lia. }
  set (m2 := n2 / 2) in *.
  assert (Hm2 : 0 < m2) by (rewrite E2'; apply pow2_pos).
  assert (Hn : 2 * n1 * m2 = n).
  { rewrite E1, E2', HK. replace K with (e + S (K - S e)) at 2 by lia. rewrite Nat.pow_add_r, Nat.pow_succ_r'. nia. }
  set (P := fun dd : list T * list T => length (fst dd) = length (fst d) /\ length (snd dd) = length (snd d)).
  assert (HG : forall i dd, 0 <= i < 0 + (n1 - 0) -> P dd ->
     split_group L n1 m2 twl s1 s2 i dd = split_group 0 n1 m2 twl s1 s2 i dd /\
     forall s', split_group 0 n1 m2 twl s1 s2 i dd = Done s' -> P s').
  { intros i dd Hi [P1 P2].
    destruct (@split_group_lanes L n n1 m2 i twl s1 s2 dd) as [Eg (d' & Ed & Ld)]; try lia; try assumption.
    split; [exact Eg|]. intros s' Es. rewrite Es in Ed. injection Ed as <-. destruct Ld. split; congruence. }
  assert (EF : for_range 0 n1 (split_group L n1 m2 twl s1 s2) d = for_range 0 n1 (split_group 0 n1 m2 twl s1 s2) d).
  { unfold for_range. apply for_n_ext_inv with (P := P); [exact HG|split; reflexivity]. }
  rewrite EF. split; [reflexivity|]. intros s' Es. inv_bind Es. injection Es as <-.
  assert (HP : P v).
  { assert (Gen : forall m lo dd v, lo + m <= n1 -> P dd -> for_n m lo (split_group 0 n1 m2 twl s1 s2) dd = Done v -> P v).
    { induction m as [|m IH]; intros lo dd w Hlo HPd Ew; cbn [for_n] in Ew; [congruence|].
      inv_bind Ew. eapply IH; [|eapply HG; [|exact HPd|exact E0]|exact Ew]; lia. }
    eapply Gen; [|split; reflexivity|exact E]; lia. }
  destruct HP as [P1 P2]. split; [|cbn [fst snd]; rewrite P1, P2; auto].
  exists (S e). split; [lia|]. split; [rewrite E1, Nat.pow_succ_r'; lia|exact E2'].
Qed.
Definition with_lanes (L : nat) : cfg :=
  {| c_std := c_std c; c_parallel := c_parallel c; c_fma := c_fma c; c_precomp := c_precomp c; c_kind := c_kind c; c_lanes := L |}.
Lemma small_kernel_lanes L p (x : list cx) : small_kernel (with_lanes L) p x = small_kernel c p x.
Proof.
  unfold small_kernel, fft4, fft8, fft16. change (cmul (T := T) (with_lanes L)) with (cmul (T := T) c). reflexivity.
Qed.
Lemma fft_split_simd_lanes L rec rec' p a b : cache_ok p -> length a = length b -> is_pow2 (length a) = true -> 16 < length a ->
  fft_split_simd_ (with_lanes L) rec' p a b = fft_split_simd_ c rec p a b.
Proof.
  intros Hc Hab Hp H16. unfold fft_split_simd_. rewrite Hp. cbn [negb orb].
  destruct (Nat.eqb_spec (length a) 0); [lia|]. destruct (Nat.leb_spec (length a) 16); [lia|].
  change (get_twiddles (with_lanes L) p (length a)) with (get_twiddles c p (length a)).
  pose proof (get_twiddles_ok c (length a) Hc) as Eg. rewrite Eg. change (c_lanes (with_lanes L)) with L.
  apply is_pow2_iff in Hp. destruct Hp as [K HK].
  rewrite (@split_stages_lanes L K); try (rewrite grow_length); try lia; try apply twf_length; try exact HK.
  rewrite (@split_stages_lanes (c_lanes c) K); try (rewrite grow_length); try lia; try apply twf_length; try exact HK.
  reflexivity.
Qed.
Lemma stockham_lanes L rec rec' p x : Inv c p -> is_pow2 (length x) = true -> 16 < length x ->
  stockham_ (with_lanes L) rec' p x = stockham_ c rec p x.
Proof.
  intros (Hc & _ & Hsi & Hs & _) Hp H16. unfold stockham_. rewrite Hp. cbn [negb].
  destruct (Nat.eqb_spec (length x) 0); [lia|]. destruct (Nat.leb_spec (length x) 16); [lia|].
  change (get_twiddles (with_lanes L) p (length x)) with (get_twiddles c p (length x)).
  rewrite (get_twiddles_ok c (length x) Hc). change (c_kind (with_lanes L)) with (c_kind c).
  assert (Hc' : forall q r i, cache_ok (with_split (with_scratch (with_cache p (cache_after c p (length x))) q) r i)).
  { intros q r i k t. cbn. apply cache_after_ok. exact Hc. }
  assert (Hmax : is_pow2 (Nat.max (length x) (length (pl_sre p))) = true).
  { destruct Hs as [Hs|[Hs _]]; [rewrite Hs, Nat.max_0_r; exact Hp|apply pow2_max; assumption]. }
  destruct (c_kind c) eqn:Ek; cbn [pl_sre pl_sim with_cache]; try (
    rewrite fft_split_simd_lanes with (rec := rec); [reflexivity|apply Hc'| | |]; rewrite ?zip_apply_length, ?grow_length; cbn [pl_sre pl_sim with_cache];
      [rewrite Hsi; reflexivity|exact Hmax|lia]).
  reflexivity.
Qed.
Lemma fft_pow2_lanes L rec rec' p x : Inv c p -> is_pow2 (length x) = true ->
  fft_body (with_lanes L) rec' p x = fft_body c rec p x.
Proof.
  intros HI Hp. unfold fft_body. destruct (Nat.eqb_spec (length x) 0); [reflexivity|]. destruct (Nat.eqb_spec (length x) 1); [reflexivity|].
  rewrite Hp, andb_true_r. destruct (Nat.leb_spec (length x) 16); [apply small_kernel_lanes|].
  rewrite land_pred_pow2, Hp by lia. apply stockham_lanes; assumption.
Qed.
Lemma fft_lanes L p x : Inv c p -> fft (with_lanes L) p x = fft c p x.
Proof.
  intros HI. destruct (is_pow2 (length x)) eqn:Hp.
  { unfold fft, FUEL. change (fft_fuel c 6) with (fft_body c (fft_fuel c 5)).
    change (fft_fuel (with_lanes L) 6) with (fft_body (with_lanes L) (fft_fuel (with_lanes L) 5)).
    apply (@fft_pow2_lanes L (fft_fuel c 5) (fft_fuel (with_lanes L) 5)); assumption. }
  unfold fft, FUEL. change (fft_fuel c 6) with (fft_body c (fft_fuel c 5)).
  change (fft_fuel (with_lanes L) 6) with (fft_body (with_lanes L) (fft_fuel (with_lanes L) 5)).
  unfold fft_body at 1 2. destruct (Nat.eqb_spec (length x) 0) as [|H0]; [reflexivity|]. destruct (Nat.eqb_spec (length x) 1); [reflexivity|].
  rewrite Hp, andb_false_r, land_pred_pow2, Hp by lia. change (c_std (with_lanes L)) with (c_std c).
  destruct (negb (c_std c)); [reflexivity|].
  change (fft_fuel c 5) with (fft_body c (fft_fuel c 4)).
  change (fft_fuel (with_lanes L) 5) with (fft_body (with_lanes L) (fft_fuel (with_lanes L) 4)).
  destruct (@get_bluestein_ok T F c (fft_fuel c 4) p (length x) HI) as (bl & Eb & HIb); [lia|].
  assert (Eb' : get_bluestein_ (fft_body (with_lanes L) (fft_fuel (with_lanes L) 4)) p (length x) =
                get_bluestein_ (fft_body c (fft_fuel c 4)) p (length x)).
  { unfold get_bluestein_. destruct (assoc (length x) (pl_blue p)); [reflexivity|].
    destruct (Nat.eqb_spec (length x) 0); [lia|]. rewrite blue_b_ok by lia. cbn [bind].
    rewrite (@fft_pow2_lanes L (fft_fuel c 4) (fft_fuel (with_lanes L) 4)); [reflexivity|apply Inv_new|].
    rewrite bl_b_length. apply blue_m_pow2. }
  rewrite Eb', Eb. cbn [bind].
  set (m := length (bl_fft_b c (length x))). assert (Em : m = blue_m (length x)) by apply bl_fft_b_length.
  set (a := grow (pl_bscratch (with_blue p bl)) m czero).
  assert (Ha : is_pow2 (length a) = true).
  { unfold a. rewrite grow_length. cbn [pl_bscratch with_blue]. destruct HI as (_ & _ & _ & _ & [Hb|Hb]).
    - rewrite Hb, Nat.max_0_r, Em. apply blue_m_pow2.
    - apply pow2_max; [rewrite Em; apply blue_m_pow2|exact Hb]. }
  assert (Hm : length x <= m) by (rewrite Em; pose proof (blue_m_ge (length x)); lia).
  assert (Hma : m <= length a) by (unfold a; rewrite grow_length; lia).
  change (cmul (with_lanes L)) with (cmul (T := T) c).
  rewrite for_set with (g := fun i => cmul c (nth i x czero) (nth i (blue_chirp (length x)) czero)).
  2:{ lia. }
  2:{ intros i Hi. rewrite !get_nth with (d := czero); [reflexivity|unfold blue_chirp; rewrite tab_length; exact Hi|exact Hi]. }
  cbn [bind]. set (a1 := tab _ _ ++ _).
  assert (La1 : length a1 = length a) by (unfold a1; rewrite app_length, tab_length, skipn_length; lia).
  destruct (Nat.leb_spec (length x) m); [|lia]. destruct (Nat.leb_spec m (length a1)); [|lia]. cbn [andb bind].
  set (a2 := firstn _ _ ++ _).
  assert (La2 : length a2 = length a).
  { unfold a2. rewrite !app_length, firstn_length, repeat_length, skipn_length. lia. }
  assert (HIb' : Inv c (with_bscratch (with_blue p bl) [])).
  { destruct HIb as (A & B & D & E & _). repeat split; try assumption. left. reflexivity. }
  rewrite (@fft_pow2_lanes L (fft_fuel c 4) (fft_fuel (with_lanes L) 4) _ _ HIb') by (rewrite La2; exact Ha).
  destruct (@fft_pow2_ok T F c (fft_fuel c 4) _ a2 HIb') as (q & Eq & HIq & _); [rewrite La2; exact Ha|].
  rewrite Eq. cbn [bind].
  rewrite (@fft_pow2_lanes L (fft_fuel c 4) (fft_fuel (with_lanes L) 4) q); [reflexivity|exact HIq|].
  rewrite map_length, zip_apply_length, pow2_out_length; [rewrite La2; exact Ha|apply HIb'|rewrite La2; exact Ha].
Qed.
Lemma ifft_lanes L p x : Inv c p -> ifft (with_lanes L) p x = ifft c p x.
Proof.
  intros HI. unfold ifft. rewrite fft_lanes by exact HI. reflexivity.
Qed.
Lemma fft_split_lanes L p a b : Inv c p -> fft_split (with_lanes L) p a b = fft_split c p a b.
Proof.
  intros HI. unfold fft_split. destruct (Nat.eqb_spec (length a) (length b)) as [E|E]; cbn [negb]; [|reflexivity].
  change (c_kind (with_lanes L)) with (c_kind c).
  assert (ES : fft_split_simd (with_lanes L) p a b = fft_split_simd c p a b).
  { destruct (Nat.eq_dec (length a) 0) as [E0|E0]. { unfold fft_split_simd, fft_split_simd_. rewrite E0. cbn [Nat.eqb]. reflexivity. }
    destruct (is_pow2 (length a)) eqn:Hp; [destruct (Nat.leb_spec (length a) 16) as [H16|H16]|].
    - unfold fft_split_simd, fft_split_simd_. rewrite Hp. destruct (Nat.eqb_spec (length a) 0); [lia|].
      destruct (Nat.leb_spec (length a) 16); [|lia]. cbn [negb orb]. rewrite fft_lanes by exact HI. reflexivity.
    - apply fft_split_simd_lanes; try assumption. apply HI.
    - unfold fft_split_simd, fft_split_simd_. rewrite Hp. destruct (Nat.eqb_spec (length a) 0); [lia|].
      cbn [negb orb]. rewrite fft_lanes by exact HI. reflexivity. }
  destruct (c_kind c); try exact ES. unfold split_default. rewrite fft_lanes by exact HI. reflexivity.
Qed.
End Obj2.

(* Properties C66, C67 and C73: the DST planner tables, the split/interleaved conversions, the twiddle buffer. *)
From Coq Require Import Reals Lra ZArith Lia.
From Verif Require Import M_trig L_trig P_fft P_layout P_trig L_stft M_util.
Set Implicit Arguments.
Open Scope nat_scope.

(* ------------------------------------------------------------------ C66 *)
(* one use of the planner: ask for a table, or take the scratch buffer and leave w in it *)
Inductive suse (T : Type) := Use2 (n : nat) | Use3 (n : nat) | Use4 (n : nat) | UseScratch (w : list T).
Arguments Use2 {T}. Arguments Use3 {T}. Arguments Use4 {T}.
Definition suse_run {T} {F : Float T} (p : splanner T) (u : suse T) : splanner T :=
  match u with
  | Use2 n => fst (plan_dst2 p n) | Use3 n => fst (plan_dst3 p n) | Use4 n => fst (plan_dst4 p n)
  | UseScratch w => dst_scratch_put p w
  end.
Definition after_uses {T} {F : Float T} (us : list (suse T)) : splanner T := fold_left suse_run us sp_new.
Lemma nth_grow0 {A} (l : list A) n v i : nth i (grow l n v) v = nth i l v.
Proof.
  unfold grow, resize. destruct (Nat.ltb_spec (length l) n); [|reflexivity].
  destruct (Nat.lt_ge_cases i (length l)) as [Hi|Hi].
  - rewrite app_nth1 by (rewrite firstn_length; lia). apply nth_firstn. lia.
  - rewrite app_nth2 by (rewrite firstn_length; lia). rewrite (nth_overflow l) by exact Hi. apply nth_repeat.
Qed.
Section Dst.
Context {T : Type} {F : Float T}.
(* sin ((pi / n) * (i + off)) *)
Definition sine_table (n : nat) (off : T) : list T := tab n (fun i => fsin (fmul (fdiv fpi (fofnat n)) (fadd (fofnat i) off))).
Definition tables_ok (m : list (nat * list T)) (off : T) : Prop := forall n t, assoc n m = Some t -> t = sine_table n off.
Lemma cached_ok m n off : tables_ok m off -> tables_ok (fst (cached m n off)) off /\ snd (cached m n off) = sine_table n off.
Proof.
  intros H. unfold cached. destruct (assoc n m) as [t|] eqn:E; cbn [fst snd]; [split; [exact H|apply H, E]|].
  split; [|reflexivity]. intros k t. cbn [assoc]. destruct (Nat.eqb_spec k n) as [->|]; [intros K; injection K as <-; reflexivity|apply H].
Qed.
Definition sinv (p : splanner T) : Prop := tables_ok (sp_2 p) (flit (1 # 2)) /\ tables_ok (sp_3 p) fzero /\ tables_ok (sp_4 p) (flit (1 # 2)).
Lemma plan2_ok p n : sinv p -> sinv (fst (plan_dst2 p n)) /\ snd (plan_dst2 p n) = sine_table n (flit (1 # 2)).
Proof.
  intros (H2 & H3 & H4). destruct (cached_ok n H2) as [A B]. unfold plan_dst2. change half with (flit (T := T) (1 # 2)).
  destruct (cached (sp_2 p) n (flit (1 # 2))) as [m t]. cbn [fst snd] in *. split; [|exact B]. split; [exact A|]. split; assumption.
Qed.
Lemma plan3_ok p n : sinv p -> sinv (fst (plan_dst3 p n)) /\ snd (plan_dst3 p n) = sine_table n fzero.
Proof.
  intros (H2 & H3 & H4). destruct (cached_ok n H3) as [A B]. unfold plan_dst3.
  destruct (cached (sp_3 p) n fzero) as [m t]. cbn [fst snd] in *. split; [|exact B]. split; [exact H2|]. split; assumption.
Qed.
Lemma plan4_ok p n : sinv p -> sinv (fst (plan_dst4 p n)) /\ snd (plan_dst4 p n) = sine_table n (flit (1 # 2)).
Proof.
  intros (H2 & H3 & H4). destruct (cached_ok n H4) as [A B]. unfold plan_dst4. change half with (flit (T := T) (1 # 2)).
  destruct (cached (sp_4 p) n (flit (1 # 2))) as [m t]. cbn [fst snd] in *. split; [|exact B]. split; [exact H2|]. split; assumption.
Qed.
Lemma after_inv us : sinv (after_uses us).
Proof.
  assert (G : forall us p, sinv p -> sinv (fold_left suse_run us p)).
  { induction us0 as [|u us0 IH]; intros p H; cbn [fold_left]; [exact H|]. apply IH. destruct u; cbn [suse_run].
    - apply plan2_ok, H. - apply plan3_ok, H. - apply plan4_ok, H. - exact H. }
  apply G. split; [|split]; intros n t H; discriminate H.
Qed.
End Dst.
(* any float type, any history: the tables depend on n only *)
Theorem C66_tables : forall (T : Type) (F : Float T) (us : list (suse T)) (n : nat),
  snd (plan_dst2 (after_uses us) n) = tab n (fun i => fsin (fmul (fdiv fpi (fofnat n)) (fadd (fofnat i) (flit (1 # 2))))) /\
  snd (plan_dst3 (after_uses us) n) = tab n (fun i => fsin (fmul (fdiv fpi (fofnat n)) (fadd (fofnat i) fzero))) /\
  snd (plan_dst4 (after_uses us) n) = tab n (fun i => fsin (fmul (fdiv fpi (fofnat n)) (fadd (fofnat i) (flit (1 # 2))))).
Proof. intros. pose proof (after_inv us) as H. split; [apply plan2_ok, H|split; [apply plan3_ok, H|apply plan4_ok, H]]. Qed.
Print Assumptions C66_tables.
(* the last words left in the scratch buffer: position i holds what the last user who reached it left *)
Fixpoint left_at {T} {F : Float T} (us : list (suse T)) (i : nat) (v : T) : T :=
  match us with
  | [] => v
  | UseScratch w :: us => left_at us i (nth i w v)
  | _ :: us => left_at us i v
  end.
Theorem C66_scratch : forall (T : Type) (F : Float T) (us : list (suse T)) (len : nat),
  exists s, dst_scratch (after_uses us) len = Done s /\ length s = len /\ forall i, i < len -> nth i s fzero = left_at us i fzero.
Proof.
  intros T F us len.
  assert (G : forall us p i, nth i (sp_scratch (fold_left suse_run us p)) fzero = left_at us i (nth i (sp_scratch p) fzero)).
  { induction us0 as [|u us0 IH]; intros p i; cbn [fold_left left_at]; [reflexivity|]. rewrite IH. destruct u as [n|n|n|w]; cbn [suse_run].
    - unfold plan_dst2. destruct (cached _ _ _). reflexivity.
    - unfold plan_dst3. destruct (cached _ _ _). reflexivity.
    - unfold plan_dst4. destruct (cached _ _ _). reflexivity.
    - f_equal. unfold dst_scratch_put. cbn [sp_scratch]. destruct (Nat.lt_ge_cases i (length w)) as [Hi|Hi].
      + rewrite app_nth1 by exact Hi. apply nth_indep. exact Hi.
      + rewrite app_nth2 by exact Hi. rewrite nth_skipn. replace (length w + (i - length w)) with i by lia. rewrite (nth_overflow w) by exact Hi.
        apply nth_grow0. }
  unfold dst_scratch, slice_to. rewrite grow_length. destruct (Nat.leb_spec len (Nat.max len (length (sp_scratch (after_uses us))))); [|lia].
  eexists. split; [reflexivity|]. split; [rewrite firstn_length, grow_length; lia|].
  intros i Hi. rewrite nth_firstn by exact Hi. rewrite nth_grow0. unfold after_uses. rewrite (G us sp_new i). cbn [sp_new sp_scratch]. destruct i; reflexivity.
Qed.
Print Assumptions C66_scratch.

Open Scope R_scope.
(* exact arithmetic: the DST-II table is the first row of the DST-II, dst2(x)[0] = sum table[i] x[i] *)
Theorem C66_dst2_row : forall (us : list (suse R)) (x : list R), x <> [] ->
  exists y, dst2 x = Done y /\
    nth 0 y 0 = rsum (length x) (fun i => nth i x 0 * nth i (snd (plan_dst2 (after_uses us) (length x))) 0).
Proof.
  intros us x Hx. eexists. split; [apply dst2_R|]. assert (H0 : (0 < length x)%nat) by (destruct x; [contradiction|cbn; lia]).
  unfold sum_spec. rewrite nth_tab by exact H0. apply rsum_ext. intros i Hi. rewrite (proj1 (C66_tables _ us (length x))), nth_tab by exact Hi.
  unfold xat, s2. f_equal. fr. f_equal. cbn [INR]. assert (INR (length x) <> 0) by (apply not_0_INR; lia). field. assumption.
Qed.
Print Assumptions C66_dst2_row.
(* the same is false of the other two: no output of dst3 (of dst4) is that sum *)
Theorem C66_dst3_refuted : exists x : list R, (0 < length x)%nat /\ forall us y, dst3 x = Done y -> forall k, (k < length x)%nat ->
  nth k y 0 <> rsum (length x) (fun i => nth i x 0 * nth i (snd (plan_dst3 (after_uses us) (length x))) 0).
Proof.
  exists [1; 0]. split; [cbn; lia|]. intros us y E k Hk. rewrite dst3_R in E. injection E as <-.
  rewrite (proj1 (proj2 (C66_tables _ us (length [1; 0])))). unfold sum_spec. rewrite nth_tab by exact Hk.
  unfold xat, s3. cbn [length rsum nth Nat.eqb tab map seq]. fr. cbn [INR].
  replace (PI / (1 + 1) * (0 + 0)) with 0 by field. rewrite sin_0. lra.
Qed.
Print Assumptions C66_dst3_refuted.
Theorem C66_dst4_refuted : exists x : list R, (0 < length x)%nat /\ forall us y, dst4 x = Done y -> forall k, (k < length x)%nat ->
  nth k y 0 <> rsum (length x) (fun i => nth i x 0 * nth i (snd (plan_dst4 (after_uses us) (length x))) 0).
Proof.
  exists [1]. split; [cbn; lia|]. intros us y E k Hk. rewrite dst4_R in E. injection E as <-.
  rewrite (proj2 (proj2 (C66_tables _ us (length [1])))). unfold sum_spec. rewrite nth_tab by exact Hk.
  cbn [length] in Hk. replace k with 0%nat by lia.
  unfold xat, s4. cbn [length rsum nth Nat.eqb tab map seq]. fr. cbn [INR].
  replace (PI / 1 * (0 + / 2)) with (PI / 2) by field. replace (PI * (0 + / 2) * (0 + / 2) / 1) with (PI / 4) by field.
  rewrite sin_PI2, sin_PI4. intros H. assert (K : 1 / sqrt 2 = 1) by lra. assert (0 < sqrt 2) by (apply sqrt_lt_R0; lra).
  assert (sqrt 2 = 1) by (apply (Rmult_eq_reg_r (1 / sqrt 2)); [|rewrite K; lra]; rewrite K at 2; field; lra).
  pose proof (sqrt_def 2 ltac:(lra)) as Q. rewrite H1 in Q. lra.
Qed.
Print Assumptions C66_dst4_refuted.
Example C66_example : let us := [Use2 3%nat; UseScratch [1; 2; 3]; Use4 3%nat; UseScratch [5]] in
  (exists s, dst_scratch (after_uses us) 4 = Done s /\ nth 0 s fzero = 5 /\ nth 1 s fzero = 2 /\ nth 3 s fzero = 0) /\
  length (snd (plan_dst2 (after_uses us) 3)) = 3%nat.
Proof.
  cbv zeta. split; [|rewrite (proj1 (C66_tables _ _ 3)); reflexivity].
  destruct (C66_scratch _ [Use2 3%nat; UseScratch [1; 2; 3]; Use4 3%nat; UseScratch [5]] 4) as (s & E & _ & H).
  exists s. split; [exact E|]. rewrite !H by lia. cbn. auto.
Qed.

(* ------------------------------------------------------------------ C67 *)
Open Scope nat_scope.
(* interleaved data as two lists, and two lists interleaved *)
Fixpoint interleave {T} (r i : list T) : list (cx T) :=
  match r, i with a :: r, b :: i => mkcx a b :: interleave r i | _, _ => [] end.
Section Conv.
Context {T : Type} {F : Float T}.
Lemma inter_split (v : list (cx T)) : interleave (map re v) (map im v) = v.
Proof. induction v as [|[a b] v IH]; cbn [map interleave re im]; [|rewrite IH]; reflexivity. Qed.
Lemma split_inter (r i : list T) : length r = length i -> map re (interleave r i) = r /\ map im (interleave r i) = i.
Proof.
  revert i. induction r as [|a r IH]; intros [|b i] H; cbn in H; try discriminate; [split; reflexivity|].
  cbn [interleave map re im]. destruct (IH i) as [-> ->]; [lia|]. split; reflexivity.
Qed.
Lemma inter_length (r i : list T) : length (interleave r i) = Nat.min (length r) (length i).
Proof. revert i. induction r as [|a r IH]; intros [|b i]; cbn [interleave length Nat.min]; try reflexivity. rewrite IH. reflexivity. Qed.
Lemma nth_inter (r i : list T) k d d1 d2 : k < length r -> k < length i -> nth k (interleave r i) d = mkcx (nth k r d1) (nth k i d2).
Proof.
  revert i k. induction r as [|a r IH]; intros [|b i] [|k] H1 H2; cbn in H1, H2; try lia; [reflexivity|]. cbn [interleave nth]. apply IH; lia.
Qed.
Lemma cv_from_eq (v : list (cx T)) : cv_from v = mkcv (map re v) (map im v).
Proof.
  unfold cv_from. assert (G : forall (l : list (cx T)) (a b : list T), fold_left (fun cv z => mkcv (cv_re cv ++ [re z]) (cv_im cv ++ [im z])) l (mkcv a b) = mkcv (a ++ map re l) (b ++ map im l)).
  { induction l as [|z l IH]; intros a b; cbn [fold_left map cv_re cv_im]; [rewrite !app_nil_r; reflexivity|]. rewrite IH, <- !app_assoc. reflexivity. }
  apply (G v [] []).
Qed.
Lemma cv_to_eq (r i : list T) : cv_to (mkcv r i) = if length r <=? length i then Done (interleave r i) else Panic.
Proof.
  unfold cv_to. cbn [cv_re cv_im].
  assert (G : forall n k out, k + n = length r -> k <= length i ->
    for_n n k (fun k out => a <- get r k ;; b <- get i k ;; Done (out ++ [mkcx a b])) out
    = if length r <=? length i then Done (out ++ interleave (skipn k r) (skipn k i)) else Panic).
  { induction n as [|n IH]; intros k out Hk Hi; cbn [for_n].
    - destruct (Nat.leb_spec (length r) (length i)); [|lia]. rewrite skipn_all2 by lia. cbn [interleave]. rewrite app_nil_r. reflexivity.
    - rewrite (@get_nth _ r k fzero) by lia. cbn [bind]. destruct (Nat.lt_ge_cases k (length i)) as [K|K].
      + rewrite (@get_nth _ i k fzero) by lia. cbn [bind]. rewrite IH by lia. destruct (Nat.leb_spec (length r) (length i)); [|reflexivity].
        rewrite (@L_stft.skipn_cons T r k fzero), (@L_stft.skipn_cons T i k fzero), !Nat.add_1_r by lia. cbn [interleave]. rewrite <- app_assoc. reflexivity.
      + rewrite (@get_panic _ i k) by lia. cbn [bind]. destruct (Nat.leb_spec (length r) (length i)); [lia|reflexivity]. }
  unfold for_range. rewrite Nat.sub_0_r. rewrite (G (length r) 0 []) by lia. reflexivity.
Qed.
Lemma copy_from_eq (v : list (cx T)) (r i : list T) :
  copy_from_complex v r i = if (length v =? length r) && (length v =? length i) then Done (map re v, map im v) else Panic.
Proof.
  unfold copy_from_complex. destruct (Nat.eqb_spec (length v) (length r)) as [H1|]; [|reflexivity].
  destruct (Nat.eqb_spec (length v) (length i)) as [H2|]; [|reflexivity]. cbn [andb].
  destruct (@for_inv (list T * list T) (fun k '(a, b) => length a = length v /\ length b = length v /\
      (forall j, j < k -> nth j a fzero = re (nth j v czero)) /\ forall j, j < k -> nth j b fzero = im (nth j v czero))
    (fun k '(r, i) => c <- get v k ;; r' <- set r k (re c) ;; i' <- set i k (im c) ;; Done (r', i')) 0 (length v) (r, i)) as ([a b] & E & A & B & P & Q).
  - lia.
  - repeat split; try lia; intros; lia.
  - intros k [a b] Hk (A & B & P & Q). rewrite (@get_nth _ v k czero) by lia. cbn [bind]. rewrite !set_ok by lia. cbn [bind].
    eexists. split; [reflexivity|]. cbn beta iota. rewrite !upd_length. repeat split; try assumption.
    + intros j Hj. rewrite nth_upd by lia. destruct (Nat.eqb_spec j k) as [->|]; [reflexivity|apply P; lia].
    + intros j Hj. rewrite nth_upd by lia. destruct (Nat.eqb_spec j k) as [->|]; [reflexivity|apply Q; lia].
  - rewrite E. f_equal. f_equal; (apply list_ext with (d := fzero); [rewrite map_length; assumption|]).
    + intros j Hj. rewrite P by lia. symmetry. rewrite nth_indep with (d' := re (czero (T := T))) by (rewrite map_length; lia). apply map_nth.
    + intros j Hj. rewrite Q by lia. symmetry. rewrite nth_indep with (d' := im (czero (T := T))) by (rewrite map_length; lia). apply map_nth.
Qed.
Lemma copy_to_eq (r i : list T) (out : list (cx T)) :
  copy_to_complex r i out = if (length r =? length i) && (length r =? length out) then Done (interleave r i) else Panic.
Proof.
  unfold copy_to_complex. destruct (Nat.eqb_spec (length r) (length i)) as [H1|]; [|reflexivity].
  destruct (Nat.eqb_spec (length r) (length out)) as [H2|]; [|reflexivity]. cbn [andb].
  destruct (@for_inv (list (cx T)) (fun k o => length o = length r /\
      forall j, j < k -> nth j o czero = mkcx (nth j r fzero) (nth j i fzero))
    (fun k out => c <- get out k ;; rv <- get r k ;; out <- set out k (mkcx rv (im c)) ;;
         c <- get out k ;; iv <- get i k ;; set out k (mkcx (re c) iv)) 0 (length r) out) as (o & E & A & P).
  - lia.
  - split; [lia|]. intros; lia.
  - intros k o Hk (A & P). rewrite (@get_nth _ o k czero) by lia. cbn [bind]. rewrite (@get_nth _ r k fzero) by lia. cbn [bind].
    rewrite set_ok by lia. cbn [bind]. rewrite (@get_nth _ _ k czero) by (rewrite upd_length; lia). cbn [bind].
    rewrite (@get_nth _ i k fzero) by lia. cbn [bind]. rewrite set_ok by (rewrite upd_length; lia).
    eexists. split; [reflexivity|]. rewrite !upd_length. split; [exact A|].
    intros j Hj. rewrite nth_upd by (rewrite upd_length; lia). rewrite !nth_upd by lia. rewrite Nat.eqb_refl.
    destruct (Nat.eqb_spec j k) as [->|]; [reflexivity|apply P; lia].
  - rewrite E. f_equal. apply list_ext with (d := czero); [rewrite inter_length; lia|].
    intros j Hj. rewrite P by lia. symmetry. apply nth_inter; lia.
Qed.
End Conv.
(* the owned type: from takes the parts, to interleaves them; both ways round is the identity;
   public fields make a cvec with different lengths possible: then to panics (im shorter) or drops the
   tail of im *)
Theorem C67_complex_vec : forall (T : Type) (F : Float T),
  (forall v : list (cx T), cv_from v = mkcv (map re v) (map im v) /\ cv_to (cv_from v) = Done v /\
     cv_len (cv_from v) = length v /\ (cv_is_empty (cv_from v) = true <-> v = [])) /\
  (forall r i : list T, length r = length i -> cv_new r i = Done (mkcv r i) /\
     exists v, cv_to (mkcv r i) = Done v /\ cv_from v = mkcv r i) /\
  (forall r i : list T, length r <> length i -> cv_new r i = Panic) /\
  (forall r i : list T, length i < length r -> cv_to (mkcv r i) = Panic) /\
  (forall r i : list T, length r <= length i -> exists v, cv_to (mkcv r i) = Done v /\ cv_from v = mkcv r (firstn (length r) i)).
Proof.
  intros T F. repeat match goal with |- _ /\ _ => split end.
  - intros v. rewrite cv_from_eq. split; [reflexivity|]. rewrite cv_to_eq, !map_length, Nat.leb_refl, inter_split. split; [reflexivity|].
    unfold cv_len, cv_is_empty. cbn [cv_re]. rewrite map_length. split; [reflexivity|]. rewrite Nat.eqb_eq. split; [apply length_zero_iff_nil|intros ->; reflexivity].
  - intros r i H. unfold cv_new. rewrite H, Nat.eqb_refl. split; [reflexivity|]. exists (interleave r i). rewrite cv_to_eq, H, Nat.leb_refl.
    split; [reflexivity|]. rewrite cv_from_eq. destruct (split_inter r i H) as [-> ->]. reflexivity.
  - intros r i H. unfold cv_new. apply Nat.eqb_neq in H. rewrite H. reflexivity.
  - intros r i H. rewrite cv_to_eq. destruct (Nat.leb_spec (length r) (length i)); [lia|reflexivity].
  - intros r i H. exists (interleave r i). rewrite cv_to_eq. destruct (Nat.leb_spec (length r) (length i)); [|lia]. split; [reflexivity|].
    assert (E : interleave r i = interleave r (firstn (length r) i)).
    { clear H H0. revert i. induction r as [|a r IH]; intros [|b i]; cbn [interleave firstn length]; try reflexivity. rewrite <- IH. reflexivity. }
    rewrite E, cv_from_eq. destruct (@split_inter T r (firstn (length r) i)) as [-> ->]; [rewrite firstn_length; lia|reflexivity].
Qed.
Print Assumptions C67_complex_vec.
(* the two copies: panic exactly when the three lengths are not all equal, whatever the target held;
   one undoes the other *)
Theorem C67_copies : forall (T : Type) (F : Float T) (v : list (cx T)) (r i : list T),
  (length r = length v -> length i = length v ->
     complex32_to_split v r i = Done (mkcv (map re v) (map im v)) /\
     (forall w, length w = length v -> split_to_complex32 (mkcv (map re v) (map im v)) w = Done v) /\
     exists w, split_to_complex32 (mkcv r i) v = Done w /\ map re w = r /\ map im w = i) /\
  (length r <> length v \/ length i <> length v -> complex32_to_split v r i = Panic /\ split_to_complex32 (mkcv r i) v = Panic).
Proof.
  intros T F v r i. unfold complex32_to_split, split_to_complex32, split_copy_from, split_copy_to. cbn [cv_re cv_im]. split.
  - intros H1 H2. rewrite copy_from_eq, H1, H2, !Nat.eqb_refl. cbn [andb bind]. split; [reflexivity|]. split.
    + intros w Hw. rewrite copy_to_eq, !map_length, Hw, !Nat.eqb_refl. cbn [andb]. rewrite inter_split. reflexivity.
    + exists (interleave r i). rewrite copy_to_eq, H1, H2, !Nat.eqb_refl. split; [reflexivity|]. apply split_inter. lia.
  - intros H. rewrite copy_from_eq, copy_to_eq. destruct (Nat.eqb_spec (length v) (length r)), (Nat.eqb_spec (length v) (length i)), (Nat.eqb_spec (length r) (length i)), (Nat.eqb_spec (length r) (length v)); try lia; split; reflexivity.
Qed.
Print Assumptions C67_copies.
(* transforms of the owned type: what fft does to the interleaved data, on the free function and on a plan *)
Theorem C67_transform : forall (T : Type) (F : Float T) (c : cfg) (x : list (cx T)),
  exists q y, fft c new_planner x = Done (q, y, expected c (length x)) /\
    fft_complex_vec c (cv_from x) = Done (cv_from y, expected c (length x)) /\
    (forall s, exists pn, plan_complex_vec (fft_split c) (plan_new (length x) s) (cv_from x) = Done (pn, cv_from y, expected c (length x))).
Proof.
  intros T F c x. destruct (@C12_fft_split T F c [] new_planner x eq_refl) as (q & q' & y & E1 & E2); [intros k []|].
  exists q, y. split; [exact E1|]. unfold fft_complex_vec, plan_complex_vec, cv_len. rewrite !cv_from_eq. cbn [cv_re cv_im plan_new plan_n plan_pl].
  rewrite map_length, Nat.eqb_refl. cbn [negb]. rewrite E2. cbn [bind]. split; [reflexivity|]. intros s. eexists. reflexivity.
Qed.
Print Assumptions C67_transform.
(* exact arithmetic: DFT, inverse DFT, and one undoes the other *)
Theorem C67_exact : forall (c : cfg) (x : list C), (0 < length x)%nat -> c_std c = true \/ is_pow2 (length x) = true ->
  fft_complex_vec c (cv_from x) = Done (cv_from (DFT x), ROk) /\
  ifft_complex_vec c (cv_from x) = Done (cv_from (IDFT x), ROk) /\
  ifft_complex_vec c (cv_from (DFT x)) = Done (cv_from x, ROk).
Proof.
  intros c x H0 Hs.
  assert (I : forall z, length z = length x -> ifft_complex_vec c (cv_from z) = Done (cv_from (IDFT z), ROk)).
  { intros z Hz. destruct (@C12_ifft_split_exact c [] new_planner z eq_refl) as [q E]; [intros k []|lia|rewrite Hz; exact Hs|].
    unfold ifft_complex_vec. rewrite !cv_from_eq. cbn [cv_re cv_im]. rewrite E. reflexivity. }
  split; [|split; [apply I; reflexivity|]].
  - destruct (@C67_transform R RF c x) as (q & y & E1 & E2 & _). destruct (@fft_new_R c x H0 Hs) as [q2 E3]. rewrite E3 in E1. injection E1 as _ <- E.
    rewrite E2, <- E. reflexivity.
  - rewrite I by apply DFT_length. rewrite IDFT_DFT. reflexivity.
Qed.
Print Assumptions C67_exact.
(* lengths that differ (public fields): MismatchedLengths and nothing touched *)
Theorem C67_mismatch : forall (T : Type) (F : Float T) (c : cfg) (r i : list T) (pn : plan T),
  (length r <> length i -> fft_complex_vec c (mkcv r i) = Done (mkcv r i, RErr MismatchedLengths) /\
     ifft_complex_vec c (mkcv r i) = Done (mkcv r i, RErr MismatchedLengths)) /\
  (length r <> length i \/ length r <> plan_n pn ->
     exists pn', plan_complex_vec (fft_split c) pn (mkcv r i) = Done (pn', mkcv r i, RErr MismatchedLengths) /\
       plan_complex_vec (ifft_split c) pn (mkcv r i) = Done (pn', mkcv r i, RErr MismatchedLengths)).
Proof.
  intros T F c r i pn. split.
  - intros H. unfold fft_complex_vec, ifft_complex_vec. cbn [cv_re cv_im]. destruct (@C12_mismatch T F c new_planner r i H) as [-> ->]. split; reflexivity.
  - intros H. unfold plan_complex_vec, cv_len. cbn [cv_re cv_im]. destruct (Nat.eqb_spec (length r) (plan_n pn)) as [Hn|Hn]; cbn [negb]; [|eauto].
    destruct (@C12_mismatch T F c (plan_pl pn) r i) as [-> ->]; [lia|]. cbn [bind]. eauto.
Qed.
Print Assumptions C67_mismatch.
Example C67_example : cv_to (mkcv [1; 2] [3; 4]) = Done [mkcx 1 3; mkcx 2 4] /\ cv_to (mkcv [1; 2] [3]) = Panic /\
  complex32_to_split [mkcx 1%R 3%R] [0%R] [7%R] = Done (mkcv [1%R] [3%R]) /\
  (0 < length [mkcx 1%R 2%R; mkcx 0%R 1%R; mkcx 5%R 0%R])%nat /\ c_std (cfg_std F32) = true.
Proof. cbn. repeat split; lia. Qed.

(* ------------------------------------------------------------------ C73 *)
(* the twiddle factor exp(-2 pi i k / n) *)
Definition twiddle (n k : nat) : C := mkcx (cos (2 * PI * INR k / INR n)) (- sin (2 * PI * INR k / INR n))%R.
Lemma twiddle_W n k : twiddle n k = W n k.
Proof. unfold twiddle, W, cis. rewrite cos_neg, sin_neg. reflexivity. Qed.
Lemma tfb_get_R n k : 2 <= n -> tfb_get (F := RF) n k = Done (W n (k mod (n / 2))).
Proof.
  intros Hn. unfold tfb_get. assert (Hh : n / 2 <> 0) by lia. destruct (Nat.eqb_spec (n / 2) 0); [contradiction|].
  pose proof (Nat.mod_upper_bound k (n / 2) Hh). rewrite (@get_nth _ _ _ C0) by (unfold tfb_new; rewrite tab_length; assumption).
  unfold tfb_new. rewrite nth_tab by assumption. f_equal. rewrite expi_R. unfold W. f_equal. fr. field. apply not_0_INR. lia.
Qed.
(* inside the table *)
Theorem C73_inside : forall n k, k < n / 2 -> tfb_get (F := RF) n k = Done (twiddle n k).
Proof. intros n k H. rewrite tfb_get_R by lia. rewrite Nat.mod_small by exact H. rewrite twiddle_W. reflexivity. Qed.
Print Assumptions C73_inside.
(* beyond it, for even sizes: the factor up to the sign (-1)^(k / (n/2)), which is lost *)
Theorem C73_sign_lost : forall h k, 0 < h ->
  tfb_get (F := RF) (2 * h) k = Done (if Nat.even (k / h) then twiddle (2 * h) k else Copp (twiddle (2 * h) k)).
Proof.
  intros h k Hh. rewrite tfb_get_R by lia. replace (2 * h / 2) with h by (rewrite Nat.mul_comm, Nat.div_mul; lia). f_equal. rewrite twiddle_W.
  assert (Ek : k = h * (k / h) + k mod h) by (apply Nat.div_mod; lia).
  revert Ek. generalize (k mod h) as r, (k / h) as q. intros r q ->.
  assert (E : W (2 * h) (h * q + r) = if Nat.even q then W (2 * h) r else Copp (W (2 * h) r)).
  { assert (E1 : forall a, W (2 * h) (h + a) = Copp (W (2 * h) a)).
    { intros a. rewrite W_add by lia. replace (W (2 * h) h) with (Copp C1).
      - creal; ring.
      - unfold W. replace (2 * PI * INR h / INR (2 * h))%R with PI by (rewrite mult_INR; cbn [INR]; field; apply not_0_INR; lia). rewrite <- cis_conj, cis_PI. creal; ring. }
    induction q as [|q IH]; [rewrite Nat.mul_0_r; reflexivity|]. replace (h * S q + r) with (h + (h * q + r)) by ring. rewrite E1, IH.
    rewrite Nat.even_succ, <- Nat.negb_even. destruct (Nat.even q); cbn [negb]; [reflexivity|]. creal; ring. }
  rewrite E. destruct (Nat.even q); [reflexivity|]. creal; ring.
Qed.
Print Assumptions C73_sign_lost.
Theorem C73_every_index_refuted : exists n k, 2 <= n /\ k < n /\ exists w, tfb_get (F := RF) n k = Done w /\ w <> twiddle n k.
Proof.
  exists 4, 2. split; [lia|]. split; [lia|]. exists (W 4 0). split; [apply tfb_get_R; lia|]. rewrite W_0. unfold twiddle. intros E.
  apply (f_equal re) in E. cbn [re C1] in E. replace (2 * PI * INR 2 / INR 4)%R with PI in E by (cbn [INR]; field). rewrite cos_PI in E. cbn in E. lra.
Qed.
Print Assumptions C73_every_index_refuted.
Theorem C73_panics : forall (T : Type) (F : Float T) n k, tfb_get (F := F) n k = Panic <-> n < 2.
Proof.
  intros T F n k. unfold tfb_get. destruct (Nat.eqb_spec (n / 2) 0) as [E|E].
  - split; [lia|reflexivity].
  - split; [|lia]. rewrite (@get_nth _ _ _ czero); [discriminate|]. unfold tfb_new. rewrite tab_length. apply Nat.mod_upper_bound, E.
Qed.
Print Assumptions C73_panics.
Example C73_example : 1 < 5 / 2 /\ Nat.even (5 / 2) = true /\ Nat.even (3 / 2) = false.
Proof. cbn. repeat split; lia. Qed.

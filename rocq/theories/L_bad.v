(* Values that spread through every operation (NaN and infinities in IEEE arithmetic), followed through the transforms, for
   any float type and any state of the object. *)
From Coq Require Import ZArith ZifyBool ZifyNat.
From Verif Require Import M_fft_kernels M_fft L_fft L_obj L_obj2.
Ltac Zify.zify_post_hook ::= Z.div_mod_to_equations.
Set Implicit Arguments.

(* P is never lost by an operation *)
Record absorbing {T} (F : Float T) (P : T -> Prop) : Prop := {
  ab_add : forall a b, P a \/ P b -> P (fadd a b);
  ab_sub : forall a b, P a \/ P b -> P (fsub a b);
  ab_mul : forall a b, P a \/ P b -> P (fmul a b);
  ab_neg : forall a, P a -> P (fneg a);
  ab_div : forall a b, P a -> P (fdiv a b);
  ab_fma : forall a b d, P a \/ P b \/ P d -> P (fmul_add a b d) }.
Definition tainted {T} (P : T -> Prop) (z : cx T) : Prop := P (re z) \/ P (im z).

Section Bad.
Context {T : Type} {F : Float T}.
Variables (c : cfg) (P : T -> Prop).
Hypothesis HP : absorbing F P.
Local Notation cx := (cx T).
Local Notation bad := (tainted P).
Let p_add := ab_add HP.
Let p_sub := ab_sub HP.
Let p_mul := ab_mul HP.
Let p_neg := ab_neg HP.
Let p_fma := ab_fma HP.
Local Hint Resolve p_add p_sub p_mul p_neg p_fma : core.
Lemma bad_add_l a b : bad a -> bad (cadd a b).
Proof. intros [H|H]; [left|right]; cbn; auto. Qed.
Lemma bad_add_r a b : bad b -> bad (cadd a b).
Proof. intros [H|H]; [left|right]; cbn; auto. Qed.
Lemma bad_sub_l a b : bad a -> bad (csub a b).
Proof. intros [H|H]; [left|right]; cbn; auto. Qed.
Lemma bad_sub_r a b : bad b -> bad (csub a b).
Proof. intros [H|H]; [left|right]; cbn; auto. Qed.
Lemma bad_plain a b : bad a -> bad (cmul_plain a b).
Proof. intros [H|H]; left; cbn; auto. Qed.
Lemma bad_fma a b : bad a -> bad (cmul_fma a b).
Proof. intros [H|H]; left; cbn; apply p_fma; [auto|right; right; auto]. Qed.
Lemma bad_mul a b : bad a -> bad (cmul c a b).
Proof. unfold cmul. destruct (c_fma c); auto using bad_plain, bad_fma. Qed.
Lemma bad_mulk a b : bad a -> bad (mulk c a b).
Proof. unfold mulk. destruct (c_kind c); auto using bad_plain, bad_mul. Qed.
Lemma bad_conj a : bad a -> bad (cconj a).
Proof. intros [H|H]; [left|right]; cbn; auto. Qed.
Lemma bad_scale s a : bad a -> bad (cscale s a).
Proof. intros [H|H]; [left|right]; cbn; auto. Qed.

(* ---------- the Stockham recursion mixes everything ---------- *)
Lemma stk_bad mul tw L x i0 : (forall a b, bad a -> bad (mul a b)) -> i0 < 2 ^ L -> bad (x i0) ->
  forall s, s <= L -> forall p, p < 2 ^ L -> p mod (2 ^ (L - s)) = i0 mod (2 ^ (L - s)) -> bad (stk_fun mul tw (2 ^ L) s x p).
Proof.
  intros Hmul Hi Hx. induction s as [|s IH]; intros Hs p Hp Hm.
  - cbn [stk_fun]. rewrite Nat.sub_0_r, !Nat.mod_small in Hm by assumption. subst p. exact Hx.
  - cbn [stk_fun]. set (src := stk_fun mul tw (2 ^ L) s x) in *.
    assert (E : 2 ^ L / 2 ^ S s = 2 ^ (L - S s)).
    { replace (2 ^ L) with (2 ^ (L - S s) * 2 ^ S s) by (rewrite <- Nat.pow_add_r; f_equal; lia). apply Nat.div_mul, Nat.pow_nonzero. lia. }
    rewrite E. set (n2 := 2 ^ (L - S s)) in *.
    assert (Hn2 : 0 < n2) by (apply Nat.neq_0_lt_0, Nat.pow_nonzero; lia).
    assert (E2 : 2 ^ (L - s) = 2 * n2) by (unfold n2; rewrite <- Nat.pow_succ_r'; f_equal; lia).
    assert (EL : 2 ^ L = 2 * (2 ^ s * n2)) by (unfold n2; rewrite <- Nat.pow_add_r, <- Nat.pow_succ_r'; f_equal; lia).
    rewrite E2 in IH. specialize (IH ltac:(lia)).
    assert (Hq : forall q j, q < 2 ^ s -> j < n2 -> j = i0 mod n2 -> bad (src (2 * q * n2 + j)) \/ bad (src (2 * q * n2 + n2 + j))).
    { intros q j H1 H2 H3. assert (B : q * n2 <= 2 ^ s * n2 - n2) by (replace (2 ^ s * n2 - n2) with ((2 ^ s - 1) * n2) by (rewrite Nat.mul_sub_distr_r; lia); apply Nat.mul_le_mono_r; lia).
      pose proof (Nat.pow_nonzero 2 s ltac:(lia)).
      assert (B2 : n2 <= 2 ^ s * n2) by (rewrite <- (Nat.mul_1_l n2) at 1; apply Nat.mul_le_mono_r; lia).
      assert (D : i0 mod (2 * n2) = j \/ i0 mod (2 * n2) = n2 + j).
      { pose proof (Nat.div_mod_eq i0 n2) as D0. rewrite <- H3 in D0. set (k := i0 / n2) in *.
        pose proof (Nat.div_mod_eq k 2) as D1. pose proof (Nat.mod_upper_bound k 2 ltac:(lia)) as D2.
        destruct (k mod 2) as [|[|?]] eqn:Ek; [left|right|lia]; symmetry; apply (Nat.mod_unique i0 (2 * n2) (k / 2)); nia. }
      destruct D as [D|D]; [left|right]; (apply IH; [lia|]); rewrite D; symmetry; apply (Nat.mod_unique _ (2 * n2) q); lia. }
    assert (Hd : p / n2 < 2 ^ s + 2 ^ s) by (apply Nat.div_lt_upper_bound; lia).
    unfold stage_fun. pose proof (Nat.mod_upper_bound p n2 ltac:(lia)) as Hj.
    destruct (Nat.ltb_spec (p / n2) (2 ^ s)) as [A|A].
    + destruct (Hq (p / n2) (p mod n2) A Hj Hm); [apply bad_add_l; assumption|apply bad_add_r, Hmul; assumption].
    + destruct (Hq (p / n2 - 2 ^ s) (p mod n2) ltac:(lia) Hj Hm); [apply bad_sub_l; assumption|apply bad_sub_r, Hmul; assumption].
Qed.
Definition all_bad (y : list cx) : Prop := forall z, In z y -> bad z.
Definition some_bad (x : list cx) : Prop := exists z, In z x /\ bad z.
Lemma some_nth x : some_bad x -> exists i, i < length x /\ bad (nthc x i).
Proof. intros (z & Hz & Hb). destruct (In_nth x z czero Hz) as (i & Hi & E). exists i. split; [exact Hi|]. unfold nthc. rewrite E. exact Hb. Qed.
Lemma all_some y : y <> [] -> all_bad y -> some_bad y.
Proof. intros H A. destruct y as [|z y]; [contradiction|]. exists z. split; [left; reflexivity|apply A; left; reflexivity]. Qed.
Lemma some_app_l x y : some_bad x -> some_bad (x ++ y).
Proof. intros (z & H & B). exists z. split; [apply in_or_app; auto|exact B]. Qed.
Lemma some_app_r x y : some_bad y -> some_bad (x ++ y).
Proof. intros (z & H & B). exists z. split; [apply in_or_app; auto|exact B]. Qed.
Lemma some_map f x : (forall z, bad z -> bad (f z)) -> some_bad x -> some_bad (map f x).
Proof. intros Hf (z & H & B). exists (f z). split; [apply in_map, H|apply Hf, B]. Qed.
Lemma all_map f x : (forall z, bad z -> bad (f z)) -> all_bad x -> all_bad (map f x).
Proof. intros Hf A z Hz. apply in_map_iff in Hz. destruct Hz as (w & <- & Hw). apply Hf, A, Hw. Qed.
Lemma all_firstn n x : all_bad x -> all_bad (firstn n x).
Proof. intros A z Hz. apply A. rewrite <- (firstn_skipn n x). apply in_or_app. auto. Qed.
Lemma all_skipn n x : all_bad x -> all_bad (skipn n x).
Proof. intros A z Hz. apply A. rewrite <- (firstn_skipn n x). apply in_or_app. auto. Qed.
Lemma all_tab n f : (forall i, i < n -> bad (f i)) -> all_bad (tab n f).
Proof. intros H z Hz. unfold tab in Hz. apply in_map_iff in Hz. destruct Hz as (i & <- & Hi). apply in_seq in Hi. apply H. lia. Qed.
Lemma all_nth y i : all_bad y -> i < length y -> bad (nthc y i).
Proof. intros A H. apply A, nth_In, H. Qed.
Lemma stkp_bad mul x : (forall a b, bad a -> bad (mul a b)) -> is_pow2 (length x) = true -> some_bad x -> all_bad (stkp c mul x).
Proof.
  intros Hmul Hp Hx. apply is_pow2_iff in Hp. destruct Hp as [L HL]. destruct (some_nth Hx) as (i & Hi & Hb).
  unfold stkp. apply all_tab. intros p Hpp. rewrite HL in *. rewrite Nat.log2_pow2 by lia.
  apply (@stk_bad mul _ L (nthc x) i Hmul Hi Hb L (le_n _) p Hpp). rewrite Nat.sub_diag. cbn [Nat.pow]. rewrite !Nat.mod_1_r. reflexivity.
Qed.

(* ---------- the unrolled kernels ---------- *)
Ltac go := first [assumption | apply bad_add_l; go | apply bad_add_r; go | apply bad_sub_l; go | apply bad_sub_r; go | apply bad_mul; go].
Ltac all_goals := let z := fresh in let H := fresh in intros z H; cbn [In] in H; repeat (destruct H as [<-|H]; [go|]); contradiction.
Lemma small_bad x : is_pow2 (length x) = true -> 1 < length x <= 16 -> some_bad x -> all_bad (small_fft c x).
Proof.
  intros H1 H2 (b & Hin & Hb). destruct (small_cases H1 ltac:(lia)) as [E|[E|[E|[E|E]]]]; [lia| | | |];
  unfold small_fft, small_kernel; rewrite E; cbn [Nat.eqb].
  - do 2 (destruct x as [|? x]; [discriminate|]). destruct x; [|discriminate]. cbn [fft2 bind]. cbn [In] in Hin.
    repeat (destruct Hin as [->|Hin]; [all_goals|]). contradiction.
  - do 4 (destruct x as [|? x]; [discriminate|]). destruct x; [|discriminate]. cbn [fft4 bind]. cbn [In] in Hin.
    repeat (destruct Hin as [->|Hin]; [all_goals|]). contradiction.
  - do 8 (destruct x as [|? x]; [discriminate|]). destruct x; [|discriminate]. cbn [fft8 bind]. cbn [In] in Hin.
    repeat (destruct Hin as [->|Hin]; [all_goals|]). contradiction.
  - do 16 (destruct x as [|? x]; [discriminate|]). destruct x; [|discriminate]. cbn [fft16 bind]. cbn [In] in Hin.
    repeat (destruct Hin as [->|Hin]; [all_goals|]). contradiction.
Qed.
Lemma pow2fft_bad x : is_pow2 (length x) = true -> some_bad x -> all_bad (pow2fft c x).
Proof.
  intros Hp Hx. unfold pow2fft. destruct (Nat.leb_spec (length x) 1) as [A|A].
  - destruct Hx as (z & Hz & Hb). destruct x as [|a [|? ?]]; [destruct Hz| |cbn in A; lia]. destruct Hz as [->|[]]. intros w [<-|[]]. exact Hb.
  - destruct (Nat.leb_spec (length x) 16); [apply small_bad; [exact Hp|lia|exact Hx]|apply stkp_bad; [apply bad_mulk|exact Hp|exact Hx]].
Qed.

(* ---------- the object, whatever its buffers hold ---------- *)
Lemma stale_length p (x : list cx) : Inv c p -> is_pow2 (length x) = true -> is_pow2 (length (x ++ skipn (length x) (zipc (pl_sre p) (pl_sim p)))) = true.
Proof.
  intros (_ & _ & Hl & Hs & _) Hp. rewrite app_length, skipn_length, zipc_length, <- Hl, Nat.min_id.
  destruct Hs as [->|[Hs _]]; [cbn [Nat.sub]; rewrite Nat.add_0_r; exact Hp|].
  replace (length x + (length (pl_sre p) - length x)) with (Nat.max (length x) (length (pl_sre p))) by lia. apply pow2_max; assumption.
Qed.
Lemma pow2_out_bad p (x : list cx) : Inv c p -> is_pow2 (length x) = true ->
  (some_bad x \/ (c_kind c <> OtherT /\ 16 < length x /\ some_bad (skipn (length x) (zipc (pl_sre p) (pl_sim p))))) ->
  all_bad (pow2_out c (pl_sre p) (pl_sim p) x).
Proof.
  intros HI Hp H. unfold pow2_out. destruct (Nat.leb_spec (length x) 16) as [A|A].
  - destruct H as [H|(_ & H & _)]; [|lia]. apply pow2fft_bad; assumption.
  - assert (G : some_bad x \/ c_kind c <> OtherT -> some_bad (x ++ skipn (length x) (zipc (pl_sre p) (pl_sim p)))).
    { intros _. destruct H as [H|(_ & _ & H)]; [apply some_app_l, H|apply some_app_r, H]. }
    destruct (c_kind c) eqn:K.
    + apply all_firstn, stkp_bad; [apply bad_plain|apply stale_length; assumption|apply G; right; discriminate].
    + apply all_firstn, stkp_bad; [apply bad_plain|apply stale_length; assumption|apply G; right; discriminate].
    + destruct H as [H|(H & _)]; [apply pow2fft_bad; assumption|contradiction].
Qed.
Lemma zip_bad A (b : list cx) : all_bad A -> all_bad (zip_apply (cmul c) A b).
Proof.
  revert b. induction A as [|a A IH]; intros [|w b] H z Hz; cbn [zip_apply] in Hz; try (apply H; exact Hz). cbn [In] in Hz.
  destruct Hz as [<-|Hz]; [apply bad_mul, H; left; reflexivity|]. apply (IH b); [intros v Hv; apply H; right; exact Hv|exact Hz].
Qed.
Lemma bl_a_bad (x : list cx) : some_bad x -> some_bad (bl_a c x).
Proof.
  intros H. destruct (some_nth H) as (i & Hi & Hb). exists (cmul c (nthc x i) (nthc (blue_chirp (length x)) i)). split; [|apply bad_mul, Hb].
  unfold bl_a, tab. apply in_map_iff. exists i. split; [reflexivity|apply in_seq; lia].
Qed.
Lemma fft_blue_bad rec p x : c_std c = true -> Inv c p -> 0 < length x -> is_pow2 (length x) = false -> some_bad x ->
  exists p' y, fft_body c (fft_body c rec) p x = Done (p', y, ROk) /\ length y = length x /\ all_bad y.
Proof.
  intros Hstd HI Hn Hp Hx.
  unfold fft_body at 1. set (n := length x) in *.
  destruct (Nat.eqb_spec n 0); [lia|].
  destruct (Nat.eqb_spec n 1) as [E1|E1]; [rewrite E1 in Hp; discriminate|].
  rewrite Hp, andb_false_r, land_pred_pow2, Hp, Hstd by lia. cbn [negb].
  destruct (get_bluestein_ok rec HI Hn) as (bl & Eg & HI0). rewrite Eg. cbn [bind].
  set (p0 := with_blue p bl) in *.
  pose proof (blue_m_ge n) as Hm. pose proof (blue_m_pow2 n) as Hmp.
  rewrite bl_fft_b_length. set (m := blue_m n) in *.
  set (a0 := grow (pl_bscratch p0) m czero).
  set (M := Nat.max m (length (pl_bscratch p))).
  assert (La0 : length a0 = M) by (unfold a0; rewrite grow_length; reflexivity).
  assert (HM : is_pow2 M = true).
  { destruct HI as (_ & _ & _ & _ & [H|H]); unfold M; [rewrite H, Nat.max_0_r; exact Hmp|apply pow2_max; assumption]. }
  rewrite for_set with (g := fun i => cmul c (nthc x i) (nthc (blue_chirp n) i)).
  2:{ lia. }
  2:{ intros i Hi. rewrite !get_nth with (d := czero); [reflexivity| |exact Hi]. unfold blue_chirp. rewrite tab_length. exact Hi. }
  cbn [bind].
  change (tab n (fun i => cmul c (nthc x i) (nthc (blue_chirp n) i))) with (bl_a c x).
  assert (Hlen1 : length (bl_a c x ++ skipn n a0) = M) by (rewrite app_length, bl_a_length, skipn_length; fold n; lia).
  rewrite Hlen1. destruct (Nat.leb_spec n m); [|lia]. destruct (Nat.leb_spec m M); [|lia].
  cbn [andb bind].
  assert (Ea : firstn n (bl_a c x ++ skipn n a0) = bl_a c x).
  { rewrite firstn_app, bl_a_length. fold n. rewrite Nat.sub_diag. cbn [firstn]. rewrite app_nil_r, firstn_all2; [reflexivity|].
    rewrite bl_a_length. fold n. lia. }
  rewrite Ea. set (stale := skipn m (bl_a c x ++ skipn n a0)).
  assert (Ls : length stale = M - m) by (unfold stale; rewrite skipn_length, Hlen1; reflexivity).
  set (a1 := bl_a c x ++ repeat czero (m - n) ++ stale).
  assert (La1 : length a1 = M).
  { unfold a1. rewrite !app_length, repeat_length, bl_a_length, Ls. fold n. lia. }
  assert (Ba1 : some_bad a1) by (apply some_app_l, bl_a_bad, Hx).
  set (p1 := with_bscratch p0 []).
  assert (HI1 : Inv c p1).
  { destruct HI0 as (H1 & H2 & H3 & H4 & H5). split; [exact H1|]. split; [exact H2|]. split; [exact H3|]. split; [exact H4|].
    left. reflexivity. }
  destruct (@fft_pow2_ok _ _ c rec p1 a1 HI1) as (p2 & E2 & HI2 & Hb2 & _ & Hs2 & _); [rewrite La1; exact HM|].
  rewrite E2. cbn [bind].
  assert (BA : all_bad (pow2_out c (pl_sre p1) (pl_sim p1) a1)) by (apply pow2_out_bad; [exact HI1|rewrite La1; exact HM|left; exact Ba1]).
  set (A := pow2_out _ _ _ a1) in *.
  assert (LA : length A = M).
  { unfold A. rewrite pow2_out_length; [exact La1| |rewrite La1; exact HM]. apply HI1. }
  assert (BB : all_bad (map cconj (zip_apply (cmul c) A (bl_fft_b c n)))) by (apply all_map; [apply bad_conj|apply zip_bad, BA]).
  set (B := map cconj (zip_apply (cmul c) A (bl_fft_b c n))) in *.
  assert (LB : length B = M) by (unfold B; rewrite map_length, zip_apply_length; exact LA).
  destruct (@fft_pow2_ok _ _ c rec p2 B HI2) as (p3 & E3 & HI3 & Hb3 & _ & Hs3 & _); [rewrite LB; exact HM|].
  rewrite E3. cbn [bind].
  assert (BD : all_bad (pow2_out c (pl_sre p2) (pl_sim p2) B)).
  { apply pow2_out_bad; [exact HI2|rewrite LB; exact HM|]. left. apply all_some; [|exact BB]. intros E. apply (f_equal (@length _)) in E. rewrite LB in E. cbn in E. lia. }
  set (D := pow2_out _ _ _ B) in *.
  assert (LD : length D = M).
  { unfold D. rewrite pow2_out_length; [exact LB| |rewrite LB; exact HM]. apply HI2. }
  rewrite map_map. change (fun x0 => cscale (fdiv fone (fofnat m)) (cconj x0)) with (bl_scale (T := T) m).
  assert (BD2 : all_bad (map (bl_scale m) D)) by (apply all_map; [intros z Hz; apply bad_scale, bad_conj, Hz|exact BD]).
  set (D2 := map (bl_scale m) D) in *.
  assert (LD2 : length D2 = M) by (unfold D2; rewrite map_length; exact LD).
  rewrite for_set with (g := fun i => cmul c (nthc D2 i) (nthc (blue_chirp n) i)).
  2:{ fold n. lia. }
  2:{ intros i Hi. rewrite !get_nth with (d := czero); [reflexivity| |lia]. unfold blue_chirp. rewrite tab_length. exact Hi. }
  cbn [bind]. rewrite skipn_nil_iff, app_nil_r by (fold n; lia).
  eexists _, _. split; [reflexivity|]. split; [apply tab_length|]. apply all_tab. intros i Hi. apply bad_mul, all_nth; [exact BD2|lia].
Qed.
Lemma fft_bad p x : Inv c p -> 0 < length x -> (c_std c = true \/ is_pow2 (length x) = true) -> some_bad x ->
  exists p' y, fft c p x = Done (p', y, ROk) /\ length y = length x /\ all_bad y.
Proof.
  intros HI Hn Hs Hx. unfold fft, FUEL. change (fft_fuel c 6) with (fft_body c (fft_body c (fft_fuel c 4))).
  destruct (is_pow2 (length x)) eqn:Hp.
  - destruct (@fft_pow2_ok _ _ c (fft_body c (fft_fuel c 4)) p x HI Hp) as (p' & E & _). exists p', (pow2_out c (pl_sre p) (pl_sim p) x).
    split; [exact E|]. split; [apply pow2_out_length; [apply HI|exact Hp]|]. apply pow2_out_bad; auto.
  - destruct Hs as [Hs|Hs]; [|discriminate]. apply fft_blue_bad; assumption.
Qed.
Lemma ifft_bad p x : Inv c p -> 0 < length x -> (c_std c = true \/ is_pow2 (length x) = true) -> some_bad x ->
  exists p' y, ifft c p x = Done (p', y, ROk) /\ length y = length x /\ all_bad y.
Proof.
  intros HI Hn Hs Hx. unfold ifft. destruct (Nat.eqb_spec (length x) 0); [lia|]. destruct (Nat.eqb_spec (length x) 1) as [E1|E1].
  - exists p, x. split; [reflexivity|]. split; [reflexivity|]. destruct Hx as (z & Hz & Hb). destruct x as [|a [|? ?]]; [destruct Hz| |cbn in E1; lia].
    destruct Hz as [->|[]]. intros w [<-|[]]. exact Hb.
  - destruct (@fft_bad p (map cconj x) HI) as (p' & y & E & L & B); [rewrite map_length; exact Hn|rewrite map_length; exact Hs|apply some_map; [apply bad_conj|exact Hx]|].
    rewrite E. cbn [bind]. rewrite map_length in L. eexists _, _. split; [reflexivity|]. split; [rewrite map_length; exact L|].
    apply all_map; [intros z Hz; apply bad_scale, bad_conj, Hz|exact B].
Qed.
(* the buffers an earlier transform leaves behind, beyond the first m places *)
Definition poisoned (p : planner T) (m : nat) : Prop := some_bad (skipn m (zipc (pl_sre p) (pl_sim p))).
Lemma pow2_step p x : Inv c p -> c_kind c <> OtherT -> is_pow2 (length x) = true -> 16 < length x ->
  exists p1 y, fft c p x = Done (p1, y, ROk) /\ Inv c p1 /\ length y = length x /\ length (pl_sre p1) = Nat.max (length x) (length (pl_sre p)) /\
    (some_bad x \/ poisoned p (length x) -> all_bad y /\ forall m, m < length (pl_sre p1) -> poisoned p1 m).
Proof.
  intros HI Hk Hx H16. unfold fft, FUEL. change (fft_fuel c 6) with (fft_body c (fft_body c (fft_fuel c 4))).
  destruct (@fft_pow2_ok _ _ c (fft_body c (fft_fuel c 4)) p x HI Hx) as (p1 & E & HI' & _ & _ & Hl & Hsp). exists p1, (pow2_out c (pl_sre p) (pl_sim p) x).
  split; [exact E|]. split; [exact HI'|]. split; [apply pow2_out_length; [apply HI|exact Hx]|].
  split; [destruct (Nat.leb_spec (length x) 16); [lia|exact Hl]|]. intros H. split.
  - apply pow2_out_bad; [exact HI|exact Hx|]. destruct H as [H|H]; auto.
  - intros m Hm. destruct (Hsp Hk H16) as [S1 S2]. unfold poisoned. rewrite S1, S2, zipc_parts. rewrite S1, map_length in Hm. apply all_some.
    + intros Z. apply (f_equal (@length _)) in Z. rewrite skipn_length in Z. cbn in Z. lia.
    + apply all_skipn. unfold split_after. apply stkp_bad; [apply bad_plain|apply stale_length; assumption|].
      destruct H as [H|H]; [apply some_app_l, H|apply some_app_r, H].
Qed.
End Bad.

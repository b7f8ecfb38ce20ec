(* factorize: product, primality, order, termination. *)
From Coq Require Import ZArith ZifyBool ZifyNat Sorted.
From Verif Require Export M_fft.
Ltac Zify.zify_post_hook ::= Z.div_mod_to_equations.
Set Implicit Arguments.

Definition is_prime (p : nat) : Prop := 1 < p /\ forall d, Nat.divide d p -> d = 1 \/ d = p.
Definition product (l : list nat) : nat := fold_right Nat.mul 1 l.

Lemma product_app a b : product (a ++ b) = product a * product b.
Proof. unfold product. induction a; cbn; [lia|]. rewrite IHa. lia. Qed.
Lemma sorted_app a b : Sorted le a -> Sorted le b -> (forall x y, In x a -> In y b -> x <= y) -> Sorted le (a ++ b).
Proof.
  intros Ha Hb H. apply StronglySorted_Sorted. apply Sorted_StronglySorted in Ha; [|intros ? ? ?; lia].
  apply Sorted_StronglySorted in Hb; [|intros ? ? ?; lia].
  induction Ha as [|x a Ha IH Hx]; cbn; [exact Hb|]. constructor.
  - apply IH. intros. apply H; [right|]; assumption.
  - apply Forall_app. split; [exact Hx|]. apply Forall_forall. intros y Hy. apply H; [left; reflexivity|exact Hy].
Qed.
Lemma repeat_sorted p k : Sorted le (repeat p k).
Proof. induction k; cbn; constructor; auto. destruct k; cbn; constructor. lia. Qed.
Lemma product_repeat p k : product (repeat p k) = p ^ k.
Proof. induction k; cbn; [reflexivity|]. unfold product in IHk. rewrite IHk. lia. Qed.

(* no divisor of n lies strictly between 1 and f *)
Definition rough (f n : nat) : Prop := forall q, 1 < q < f -> ~ Nat.divide q n.
Lemma rough_divide f n m : rough f n -> Nat.divide m n -> rough f m.
Proof. intros H Hm q Hq Hd. apply (H q Hq). eapply Nat.divide_trans; eassumption. Qed.
Lemma rough_prime f n : rough f n -> 1 < n -> n < f * f -> is_prime n.
Proof.
  intros H Hn Hf. split; [exact Hn|]. intros d [e He].
  destruct (Nat.eq_dec d 1); [auto|]. destruct (Nat.eq_dec e 1) as [->|]; [right; lia|].
  destruct (Nat.eq_dec d 0) as [->|]; [lia|]. destruct (Nat.eq_dec e 0) as [->|]; [lia|].
  exfalso. destruct (Nat.le_gt_cases f d).
  - destruct (Nat.le_gt_cases f e).
    + assert (f * f <= e * d) by (apply Nat.mul_le_mono; assumption). lia.
    + apply (H e); [lia|]. exists d. lia.
  - apply (H d); [lia|]. exists e. lia.
Qed.
Lemma rough_divisor_prime f n : rough f n -> 1 < f -> Nat.divide f n -> is_prime f.
Proof.
  intros H Hf Hd. split; [exact Hf|]. intros d Hdf.
  destruct (Nat.eq_dec d 1); [auto|]. right. destruct Hdf as [e He].
  destruct (Nat.eq_dec d f); [assumption|]. exfalso. destruct (Nat.eq_dec d 0) as [->|]; [lia|].
  destruct (Nat.eq_dec e 0) as [->|]; [lia|].
  apply (H d).
  - split; [lia|]. assert (d <= f) by (destruct e; lia). lia.
  - eapply Nat.divide_trans; [|exact Hd]. exists e. exact He.
Qed.

Lemma strip_ok fuel p : forall n acc, 1 < p -> 0 < n -> n < 2 ^ fuel -> 0 < fuel ->
  exists m k, strip fuel p n acc = Done (m, acc ++ repeat p k) /\ n = p ^ k * m /\ 0 < m /\ ~ Nat.divide p m.
Proof.
  induction fuel as [|g IH]; intros n acc Hp Hn Hf Hg; [lia|]. cbn [strip].
  destruct (Nat.eqb_spec (n mod p) 0) as [E|E].
  - assert (Hd : n = p * (n / p)) by (pose proof (Nat.div_mod n p); lia).
    assert (0 < n / p) by (destruct (n / p); lia).
    cbn [Nat.pow] in Hf.
    assert (n / p < 2 ^ g). { apply Nat.div_lt_upper_bound; [lia|]. nia. }
    assert (0 < g) by (destruct g; [cbn in *; lia|lia]).
    destruct (IH (n / p) (acc ++ [p]) Hp) as (m & k & Es & Hm & Hm0 & Hnd); try assumption.
    exists m, (S k). rewrite Es. split; [f_equal; f_equal; rewrite <- app_assoc; reflexivity|].
    split; [|auto]. cbn [Nat.pow]. rewrite Hd, Hm at 1. lia.
  - exists n, 0. cbn [repeat Nat.pow]. rewrite app_nil_r. split; [reflexivity|]. split; [lia|]. split; [exact Hn|].
    intros [e He]. apply E. rewrite He. apply Nat.mod_mul. lia.
Qed.

Record good (n0 f n : nat) (acc : list nat) : Prop := {
  g_pos : 0 < n; g_prod : product acc * n = n0; g_rough : rough f n;
  g_primes : Forall is_prime acc; g_sorted : Sorted le acc; g_le : Forall (fun q => q < f) acc }.

Lemma strip_good n0 f f' n acc fuel : good n0 f n acc -> 1 < f < f' -> (forall q, f < q < f' -> forall m, rough (S f) m -> 0 < m -> ~ Nat.divide q m) ->
  n < 2 ^ fuel -> 0 < fuel ->
  exists m acc', strip fuel f n acc = Done (m, acc') /\ good n0 f' m acc' /\ m <= n.
Proof.
  intros [H1 H2 H3 H4 H5 H6] Hf Hskip Hfu Hg.
  destruct (@strip_ok fuel f n acc) as (m & k & E & Hn & Hm & Hnd); try lia.
  exists m, (acc ++ repeat f k). split; [exact E|].
  assert (Hpk : 0 < f ^ k) by (apply Nat.neq_0_lt_0, Nat.pow_nonzero; lia).
  assert (Hdm : Nat.divide m n) by (exists (f ^ k); exact Hn).
  assert (Hr : rough (S f) m).
  { intros q Hq. destruct (Nat.eq_dec q f) as [->|]; [exact Hnd|]. intros Hd. apply (H3 q); [lia|].
    eapply Nat.divide_trans; eassumption. }
  assert (Hall : k = 0 \/ is_prime f).
  { destruct k as [|k]; [auto|]. right. apply (@rough_divisor_prime f n); [exact H3|lia|].
    exists (f ^ k * m). rewrite Hn. cbn [Nat.pow]. lia. }
  split; [|nia]. split.
  - exact Hm.
  - rewrite product_app, product_repeat. rewrite <- H2, Hn. lia.
  - intros q Hq. destruct (Nat.le_gt_cases q f); [apply Hr; lia|]. apply Hskip; [lia|exact Hr|exact Hm].
  - apply Forall_app. split; [exact H4|]. destruct Hall as [->|Hp]; [constructor|].
    apply Forall_forall. intros q Hq. apply repeat_spec in Hq. subst q. exact Hp.
  - apply sorted_app; [exact H5|apply repeat_sorted|]. intros x y Hx Hy. apply repeat_spec in Hy. subst y.
    rewrite Forall_forall in H6. specialize (H6 x Hx). lia.
  - apply Forall_app. split.
    + eapply Forall_impl; [|exact H6]. cbn. lia.
    + apply Forall_forall. intros q Hq. apply repeat_spec in Hq. lia.
Qed.

Lemma pow_big m : 3 <= m -> 2 * m + 1 < 2 ^ m.
Proof. induction 1; [cbn; lia|]. cbn [Nat.pow]. lia. Qed.
Lemma even_not_rough q m : rough 7 m -> 0 < m -> Nat.Even q -> 1 < q -> ~ Nat.divide q m.
Proof.
  intros H Hm [h Hq] H1 Hd. apply (H 2); [lia|]. eapply Nat.divide_trans; [|exact Hd]. exists h. lia.
Qed.
Lemma rough_weaken f g m : g <= f -> rough f m -> rough g m.
Proof. intros H Hr q Hq. apply Hr. lia. Qed.

Lemma fact_loop_good n0 : forall fuel i n acc, fuel + i = n0 + 2 -> n <= n0 ->
  (i = 0 \/ (5 + 2 * i) * (5 + 2 * i) <= n0) -> good n0 (7 + 2 * i) n acc ->
  exists f m acc', fact_loop fuel (7 + 2 * i) n acc = Done (m, acc') /\ good n0 f m acc' /\ m < f * f.
Proof.
  induction fuel as [|g IH]; intros i n acc Hi Hn Hit HG.
  - exfalso. cbn in Hi. destruct Hit as [->|Hit]; nia.
  - cbn [fact_loop]. destruct (Nat.leb_spec ((7 + 2 * i) * (7 + 2 * i)) n) as [Hle|Hgt].
    + assert (Hg : n < 2 ^ g).
      { assert (H1 : 2 * g >= n0) by nia. assert (H2 : 3 <= g) by nia. pose proof (pow_big H2). lia. }
      destruct (@strip_good n0 (7 + 2 * i) (7 + 2 * S i) n acc g HG) as (m & acc' & E & HG' & Hm).
      * lia.
      * intros q Hq m Hr Hm. apply even_not_rough; [|exact Hm|exists (4 + i); lia|lia].
        eapply rough_weaken; [|exact Hr]. lia.
      * exact Hg.
      * nia.
      * rewrite E. cbn [bind]. replace (7 + 2 * i + 2) with (7 + 2 * S i) by lia. apply IH; [lia|lia| |exact HG'].
        right. replace (5 + 2 * S i) with (7 + 2 * i) by lia. lia.
    + eexists _, _, _. split; [reflexivity|]. split; [exact HG|]. exact Hgt.
Qed.

Lemma good_init n : 0 < n -> good n 2 n [].
Proof. intros H. split; try constructor; cbn; try lia. intros q Hq. lia. Qed.

Lemma factorize_ok n : 0 < n -> exists l, factorize n = Done l /\ product l = n /\ Forall is_prime l /\ Sorted le l.
Proof.
  intros Hn. unfold factorize, factorize_fuel.
  assert (Hb : n < 2 ^ (S (S n))).
  { destruct (Nat.le_gt_cases 3 n); [pose proof (pow_big H); cbn [Nat.pow]; lia|]. destruct n as [|[|[|n]]]; cbn in *; lia. }
  destruct (@strip_good n 2 3 n [] (S (S n)) (good_init Hn)) as (n1 & a1 & E1 & G1 & L1); try lia.
  rewrite E1. cbn [bind].
  destruct (@strip_good n 3 5 n1 a1 (S (S n)) G1) as (n2 & a2 & E2 & G2 & L2); try lia.
  { intros q Hq m Hr Hm Hd. apply (Hr 2); [lia|]. eapply Nat.divide_trans; [|exact Hd]. exists 2. lia. }
  rewrite E2. cbn [bind].
  destruct (@strip_good n 5 7 n2 a2 (S (S n)) G2) as (n3 & a3 & E3 & G3 & L3); try lia.
  { intros q Hq m Hr Hm Hd. apply (Hr 2); [lia|]. eapply Nat.divide_trans; [|exact Hd]. exists 3. lia. }
  rewrite E3. cbn [bind].
  destruct (@fact_loop_good n (S (S n)) 0 n3 a3) as (f & m & a4 & E4 & G4 & Hm); try lia.
  { exact G3. }
  change (7 + 2 * 0) with 7 in E4. rewrite E4. cbn [bind]. destruct G4 as [H1 H2 H3 H4 H5 H6].
  eexists. split; [reflexivity|]. destruct (Nat.ltb_spec 1 m) as [Hlt|Hge].
  - split; [rewrite product_app; cbn; lia|]. split.
    + apply Forall_app. split; [exact H4|]. constructor; [|constructor]. eapply rough_prime; eassumption.
    + apply sorted_app; [exact H5|repeat constructor|]. intros x y Hx [<-|[]].
      rewrite Forall_forall in H6, H4. specialize (H6 x Hx). destruct (Nat.le_gt_cases f m); [lia|].
      exfalso. apply (H3 m); [lia|]. apply Nat.divide_refl.
  - assert (m = 1) by lia. subst m. split; [lia|]. auto.
Qed.
Lemma strip_0 fuel : forall p acc, 0 < p -> strip fuel p 0 acc = NoFuel.
Proof.
  induction fuel as [|g IH]; intros p acc Hp; cbn [strip]; [reflexivity|].
  rewrite Nat.mod_0_l by lia. cbn [Nat.eqb]. rewrite Nat.div_0_l by lia. apply IH. exact Hp.
Qed.
Lemma factorize_0 fuel : factorize_fuel fuel 0 = NoFuel.
Proof. unfold factorize_fuel. rewrite strip_0 by lia. reflexivity. Qed.

(* consequences for the mixed-radix dispatch *)
Lemma factorize_two n l : 0 < n -> factorize n = Done l ->
  forallb (fun f => (f =? 2) || (f =? 4)) l = is_pow2 n.
Proof.
  intros Hn E. destruct (factorize_ok Hn) as (l' & E' & Hp & Hpr & _). rewrite E' in E. injection E as ->.
  destruct (forallb _ l) eqn:Ef.
  - symmetry. apply is_pow2_iff. exists (length l). rewrite <- Hp. clear -Ef Hpr.
    induction l as [|q l IH]; [reflexivity|]. cbn [forallb] in Ef. apply andb_true_iff in Ef. destruct Ef as [Eq Ef].
    inversion Hpr as [|? ? Hq Hl]; subst. cbn [product fold_right length Nat.pow].
    fold (product l). rewrite (IH Hl Ef).
    apply orb_true_iff in Eq. destruct Eq as [Eq|Eq]; apply Nat.eqb_eq in Eq; subst q; [reflexivity|].
    exfalso. destruct Hq as [_ Hq]. destruct (Hq 2) as [?|?]; [exists 2; reflexivity| |]; lia.
  - destruct (is_pow2 n) eqn:Ep; [|reflexivity]. exfalso. apply is_pow2_iff in Ep. destruct Ep as [L HL].
    assert (Hall : forall q, In q l -> q = 2).
    { intros q Hq. rewrite Forall_forall in Hpr. specialize (Hpr q Hq).
      assert (Hd : Nat.divide q (2 ^ L)).
      { rewrite <- HL, <- Hp. clear -Hq. induction l as [|a l IH]; [destruct Hq|]. cbn [product fold_right]. fold (product l).
        destruct Hq as [->|Hq]; [exists (product l); lia|]. destruct (IH Hq) as [e He]. exists (a * e). rewrite He. lia. }
      clear -Hpr Hd. destruct Hpr as [H1 Hpr]. induction L as [|L IH].
      - cbn in Hd. destruct Hd as [e He]. destruct e; [lia|]. nia.
      - cbn [Nat.pow] in Hd. destruct (Nat.Even_or_Odd q) as [He|Ho].
        + destruct (Hpr 2); [destruct He as [h He]; exists h; lia|lia|lia].
        + apply IH. apply (Nat.gauss q 2); [exact Hd|].
          destruct Ho as [h Ho]. apply Nat.bezout_1_gcd. exists 1, h. lia. }
    clear -Ef Hall. induction l as [|a l IH]; [discriminate|]. cbn [forallb] in Ef.
    rewrite (Hall a) in Ef by (left; reflexivity). cbn in Ef. apply IH; [exact Ef|]. intros; apply Hall; right; assumption.
Qed.
Lemma factorize_four n l : 1 < n -> factorize n = Done l -> forallb (fun f => f =? 4) l = false.
Proof.
  intros Hn E. destruct (@factorize_ok n ltac:(lia)) as (l' & E' & Hp & Hpr & _). rewrite E' in E. injection E as ->.
  destruct l as [|a l]; [cbn in Hp; lia|]. cbn [forallb]. inversion Hpr as [|? ? Ha _]; subst.
  destruct (Nat.eqb_spec a 4) as [->|]; [|reflexivity]. exfalso. destruct Ha as [_ Ha].
  destruct (Ha 2); [exists 2; reflexivity| |]; lia.
Qed.

(* Properties of the benchmark support code. *)
From Coq Require Import String Ascii List Bool Arith ZArith Lia Permutation Sorted Reals Lra Psatz.
From Verif Require Import RX M_bench.
Import ListNotations.
Set Implicit Arguments.
Open Scope list_scope.
Open Scope nat_scope.

(* ------------------------------------------------------------------ C76 *)
(* bytes in use after a sequence of actions *)
Definition delta (e : event) : Z :=
  match e with EAdd _ n => Z.of_N n | EFree n => (- Z.of_N n)%Z | _ => 0%Z end.
Definition live (l : list event) : Z := fold_right (fun e a => (delta e + a)%Z) 0%Z l.
Definition is_alloc (e : event) : bool := match e with EAlloc _ _ => true | _ => false end.
Definition is_store (e : event) : bool := match e with EStoreA | EStoreC | EStoreP => true | _ => false end.

Lemma live_app a b : live (a ++ b) = (live a + live b)%Z.
Proof. induction a as [|e a IH]; cbn [app live fold_right]; [reflexivity|]. fold (live (a ++ b)). fold (live a). lia. Qed.
Lemma live_snoc a e : live (a ++ [e]) = (live a + delta e)%Z.
Proof. rewrite live_app. cbn. lia. Qed.
Lemma asteps_app a : forall b s, asteps s (a ++ b) = match asteps s a with Some s' => asteps s' b | None => None end.
Proof. induction a as [|e a IH]; intros b s; cbn [app asteps]; [reflexivity|]. destruct (astep s e); [apply IH|reflexivity]. Qed.
Lemma usize_id z : (0 <= z < 2 ^ 64)%Z -> usize z = z.
Proof. intros H. apply Z.mod_small. exact H. Qed.
Lemma snoc_split {A} (l : list A) e a b : l ++ [e] = a ++ b -> (b = [] /\ a = l ++ [e]) \/ exists b', l = a ++ b' /\ b = b' ++ [e].
Proof.
  intros H. destruct (@exists_last _ (a ++ b)) as (m & z & E). { rewrite <- H. destruct l; discriminate. }
  destruct b as [|y b] using rev_ind; [left; rewrite app_nil_r in H; auto|]. right.
  rewrite app_assoc in H. apply app_inj_tail in H. destruct H as [-> ->]. eauto.
Qed.
Definition pending (st : tstate) : option Z := match st with ToLoad n | ToCas n _ => Some n | _ => None end.
Definition pinv (tr : list event) (s : astate) : Prop :=
  a_cur s = live tr /\
  (exists h r, a_peaks s = h :: r /\ Forall (fun v => (v <= h)%Z) r /\ exists pre post, tr = pre ++ post /\ live pre = h) /\
  (forall t n, pending (a_thr s t) = Some n -> exists pre post, tr = pre ++ post /\ live pre = n) /\
  (forall t n v, a_thr s t = ToCas n v -> (v < n)%Z) /\
  (forall pre post, tr = pre ++ post -> (live pre <= hd 0 (a_peaks s))%Z \/ exists t n, pending (a_thr s t) = Some n /\ (live pre <= n)%Z).
Lemma at_thread_eq s t st : at_thread s t st t = st.
Proof. unfold at_thread. rewrite Nat.eqb_refl. reflexivity. Qed.
Lemma at_thread_ne s t st u : u <> t -> at_thread s t st u = a_thr s u.
Proof. intros H. unfold at_thread. destruct (Nat.eqb_spec u t); [contradiction|reflexivity]. Qed.
Lemma pinv_step tr e s s' : pinv tr s -> astep s e = Some s' -> is_store e = false -> (0 <= live (tr ++ [e]) < 2 ^ 64)%Z -> pinv (tr ++ [e]) s'.
Proof.
  intros (Hc & (h & r & Hp & Hr & Hh) & Hn & Hv & Hmax) E Hs HL. rewrite live_snoc in HL.
  assert (Hext : forall z, (exists pre post, tr = pre ++ post /\ live pre = z) -> exists pre post, tr ++ [e] = pre ++ post /\ live pre = z).
  { intros z (pre & post & -> & Hz). exists pre, (post ++ [e]). rewrite app_assoc. auto. }
  assert (Hnow : exists pre post, tr ++ [e] = pre ++ post /\ live pre = (live tr + delta e)%Z).
  { exists (tr ++ [e]), []. rewrite app_nil_r, live_snoc. auto. }
  assert (Hlast : forall i v, nth_error (a_peaks s) i = Some v -> (v <= h)%Z).
  { intros i v Hi. rewrite Hp in Hi. apply nth_error_In in Hi. destruct Hi as [->|Hi]; [lia|]. rewrite Forall_forall in Hr. apply Hr, Hi. }
  destruct e as [t n|t n|t i|t i|n| | |]; cbn [astep is_store delta] in *; try discriminate.
  - (* EAlloc *)
    destruct (a_thr s t) eqn:Et; try discriminate. injection E as <-. unfold pinv. cbn [a_cur a_peaks a_thr].
    split; [rewrite live_snoc; cbn; lia|]. split; [exists h, r; auto|].
    split; [|split].
    + intros u z Hu. destruct (Nat.eq_dec u t) as [->|Hne]; [rewrite at_thread_eq in Hu; discriminate|]. rewrite at_thread_ne in Hu by exact Hne. apply Hext, (Hn u), Hu.
    + intros u z v Hu. destruct (Nat.eq_dec u t) as [->|Hne]; [rewrite at_thread_eq in Hu; discriminate|]. rewrite at_thread_ne in Hu by exact Hne. apply (Hv u), Hu.
    + intros pre post Hpp.
      assert (Hold : exists pre' post', tr = pre' ++ post' /\ live pre' = live pre).
      { apply snoc_split in Hpp. destruct Hpp as [[_ ->]|(b' & -> & _)]; [|eauto]. exists tr, []. rewrite app_nil_r, live_snoc. cbn. split; [reflexivity|lia]. }
      destruct Hold as (pre' & post' & E1 & E2). rewrite <- E2. destruct (Hmax _ _ E1) as [H|(u & z & H1 & H2)]; [left; exact H|].
      right. exists u, z. rewrite at_thread_ne; [auto|]. intros ->. rewrite Et in H1. discriminate.
  - (* EAdd *)
    destruct (a_thr s t) as [|n'| |] eqn:Et; try discriminate. destruct (N.eqb_spec n n'); [|discriminate]. injection E as <-.
    rewrite Hc, usize_id by exact HL. unfold pinv. cbn [a_cur a_peaks a_thr]. split; [rewrite live_snoc; reflexivity|].
    split; [exists h, r; auto|]. split; [|split].
    + intros u z Hu. destruct (Nat.eq_dec u t) as [->|Hne].
      * rewrite at_thread_eq in Hu. injection Hu as <-. exact Hnow.
      * rewrite at_thread_ne in Hu by exact Hne. apply Hext, (Hn u), Hu.
    + intros u z v Hu. destruct (Nat.eq_dec u t) as [->|Hne]; [rewrite at_thread_eq in Hu; discriminate|]. rewrite at_thread_ne in Hu by exact Hne. apply (Hv u), Hu.
    + intros pre post Hpp. apply snoc_split in Hpp. destruct Hpp as [[_ ->]|(b' & E1 & _)].
      * right. exists t, (live tr + Z.of_N n)%Z. rewrite at_thread_eq, live_snoc. cbn. split; [reflexivity|lia].
      * destruct (Hmax _ _ E1) as [H|(u & z & H1 & H2)]; [left; exact H|].
        right. exists u, z. rewrite at_thread_ne; [auto|]. intros ->. rewrite Et in H1. discriminate.
  - (* ELoad *)
    destruct (a_thr s t) as [| |n|] eqn:Et; try discriminate. destruct (nth_error (a_peaks s) i) as [v|] eqn:Ei; [|discriminate].
    injection E as <-. specialize (Hlast _ _ Ei). unfold pinv. cbn [a_cur a_peaks a_thr]. split; [rewrite live_snoc; cbn; lia|].
    split; [exists h, r; auto|]. unfold test_peak. split; [|split].
    + intros u z Hu. destruct (Nat.eq_dec u t) as [->|Hne].
      * rewrite at_thread_eq in Hu. destruct (v <? n)%Z; [|discriminate]. apply Hext, (Hn t). rewrite Et. exact Hu.
      * rewrite at_thread_ne in Hu by exact Hne. apply Hext, (Hn u), Hu.
    + intros u z v' Hu. destruct (Nat.eq_dec u t) as [->|Hne].
      * rewrite at_thread_eq in Hu. destruct (Z.ltb_spec v n); [|discriminate]. injection Hu as <- <-. assumption.
      * rewrite at_thread_ne in Hu by exact Hne. apply (Hv u), Hu.
    + intros pre post Hpp.
      assert (Hold : exists pre' post', tr = pre' ++ post' /\ live pre' = live pre).
      { apply snoc_split in Hpp. destruct Hpp as [[_ ->]|(b' & -> & _)]; [|eauto]. exists tr, []. rewrite app_nil_r, live_snoc. cbn. split; [reflexivity|lia]. }
      destruct Hold as (pre' & post' & E1 & E2). rewrite <- E2. destruct (Hmax _ _ E1) as [H|(u & z & H1 & H2)]; [left; exact H|].
      destruct (Nat.eq_dec u t) as [->|Hne].
      * rewrite Et in H1. injection H1 as <-. destruct (Z.ltb_spec v n).
        -- right. exists t, n. rewrite at_thread_eq. auto.
        -- left. rewrite Hp. cbn [hd]. lia.
      * right. exists u, z. rewrite at_thread_ne by exact Hne. auto.
  - (* ECas *)
    destruct (a_thr s t) as [| | |n v] eqn:Et; try discriminate. destruct (nth_error (a_peaks s) i) as [v'|] eqn:Ei; [|discriminate].
    specialize (Hlast _ _ Ei).
    assert (Hold : forall pre post, tr ++ [ECas t i] = pre ++ post -> exists pre' post', tr = pre' ++ post' /\ live pre' = live pre).
    { intros pre post Hpp. apply snoc_split in Hpp. destruct Hpp as [[_ ->]|(b' & -> & _)]; [|eauto]. exists tr, []. rewrite app_nil_r, live_snoc. cbn. split; [reflexivity|lia]. }
    destruct (Z.eqb_spec v' v) as [->|Hvv].
    + destruct i as [|i]; [|discriminate]. injection E as <-. rewrite Hp in Ei. injection Ei as <-.
      pose proof (Hv t n h Et) as Hlt. unfold pinv. cbn [a_cur a_peaks a_thr]. split; [rewrite live_snoc; cbn; lia|].
      split; [|split; [|split]].
      * exists n, (a_peaks s). split; [reflexivity|]. rewrite Hp. split.
        -- constructor; [lia|]. eapply Forall_impl; [|exact Hr]. cbn. intros; lia.
        -- apply Hext, (Hn t). rewrite Et. reflexivity.
      * intros u z Hu. destruct (Nat.eq_dec u t) as [->|Hne]; [rewrite at_thread_eq in Hu; discriminate|]. rewrite at_thread_ne in Hu by exact Hne. apply Hext, (Hn u), Hu.
      * intros u z v' Hu. destruct (Nat.eq_dec u t) as [->|Hne]; [rewrite at_thread_eq in Hu; discriminate|]. rewrite at_thread_ne in Hu by exact Hne. apply (Hv u), Hu.
      * intros pre post Hpp. destruct (Hold _ _ Hpp) as (pre' & post' & E1 & E2). rewrite <- E2. cbn [hd].
        destruct (Hmax _ _ E1) as [H|(u & z & H1 & H2)]; [left; rewrite Hp in H; cbn [hd] in H; lia|].
        destruct (Nat.eq_dec u t) as [->|Hne].
        -- rewrite Et in H1. injection H1 as <-. left. lia.
        -- right. exists u, z. rewrite at_thread_ne by exact Hne. auto.
    + assert (E' : s' = mkA (a_allocs s) (a_cur s) (a_peaks s) (at_thread s t (test_peak n v'))) by (destruct i; congruence).
      subst s'. clear E. unfold pinv, test_peak. cbn [a_cur a_peaks a_thr]. split; [rewrite live_snoc; cbn; lia|].
      split; [exists h, r; auto|]. split; [|split].
      * intros u z Hu. destruct (Nat.eq_dec u t) as [->|Hne].
        -- rewrite at_thread_eq in Hu. destruct (v' <? n)%Z; [|discriminate]. apply Hext, (Hn t). rewrite Et. exact Hu.
        -- rewrite at_thread_ne in Hu by exact Hne. apply Hext, (Hn u), Hu.
      * intros u z v2 Hu. destruct (Nat.eq_dec u t) as [->|Hne].
        -- rewrite at_thread_eq in Hu. destruct (Z.ltb_spec v' n); [|discriminate]. injection Hu as <- <-. assumption.
        -- rewrite at_thread_ne in Hu by exact Hne. apply (Hv u), Hu.
      * intros pre post Hpp. destruct (Hold _ _ Hpp) as (pre' & post' & E1 & E2). rewrite <- E2.
        destruct (Hmax _ _ E1) as [H|(u & z & H1 & H2)]; [left; exact H|].
        destruct (Nat.eq_dec u t) as [->|Hne].
        -- rewrite Et in H1. injection H1 as <-. destruct (Z.ltb_spec v' n).
           ++ right. exists t, n. rewrite at_thread_eq. auto.
           ++ left. rewrite Hp. cbn [hd]. lia.
        -- right. exists u, z. rewrite at_thread_ne by exact Hne. auto.
  - (* EFree *)
    injection E as <-. unfold pinv. cbn [a_cur a_peaks a_thr]. rewrite Hc, live_snoc. cbn [delta].
    split; [rewrite usize_id; lia|]. split; [exists h, r; auto|]. split; [|split].
    + intros u z Hu. apply Hext, (Hn u), Hu.
    + exact Hv.
    + intros pre post Hpp. apply snoc_split in Hpp. destruct Hpp as [[_ ->]|(b' & E1 & _)]; [|eapply Hmax; exact E1].
      assert (E1 : tr = tr ++ []) by (rewrite app_nil_r; reflexivity). rewrite live_snoc. cbn [delta].
      destruct (Hmax _ _ E1) as [H|(u & z & H1 & H2)]; [left; lia|]. right. exists u, z. split; [exact H1|lia].
Qed.
Definition in_range (tr : list event) : Prop := forall pre post, tr = pre ++ post -> (0 <= live pre < 2 ^ 64)%Z.
Definition no_reset (tr : list event) : Prop := forall e, In e tr -> is_store e = false.
Lemma pinv_run tr s : asteps a_init tr = Some s -> no_reset tr -> in_range tr -> pinv tr s.
Proof.
  revert s. induction tr as [|e tr IH] using rev_ind; intros s E Hs Hr.
  - injection E as <-. unfold pinv, a_init. cbn [a_cur a_peaks a_thr]. split; [reflexivity|].
    split; [exists 0%Z, []; split; [reflexivity|]; split; [constructor|]; exists [], []; auto|].
    split; [discriminate|]. split; [discriminate|]. intros pre post H. symmetry in H. apply app_eq_nil in H. destruct H as [-> _]. left. cbn. lia.
  - rewrite asteps_app in E. destruct (asteps a_init tr) as [s1|] eqn:E1; [|discriminate]. cbn [asteps] in E.
    destruct (astep s1 e) as [s2|] eqn:E2; [|discriminate]. injection E as <-.
    apply (@pinv_step tr e s1 s2).
    + apply IH; [reflexivity| |].
      * intros e' He'. apply Hs, in_or_app. auto.
      * intros pre post ->. apply (Hr pre (post ++ [e])). rewrite app_assoc. reflexivity.
    + exact E2.
    + apply Hs, in_or_app. cbn. auto.
    + apply (Hr (tr ++ [e]) []). rewrite app_nil_r. reflexivity.
Qed.
Lemma allocs_run tr s : asteps a_init tr = Some s -> no_reset tr -> a_allocs s = usize (Z.of_nat (length (filter is_alloc tr))).
Proof.
  revert s. induction tr as [|e tr IH] using rev_ind; intros s E Hs; [injection E as <-; reflexivity|].
  rewrite asteps_app in E. destruct (asteps a_init tr) as [s1|] eqn:E1; [|discriminate]. cbn [asteps] in E.
  destruct (astep s1 e) as [s2|] eqn:E2; [|discriminate]. injection E as <-.
  assert (H1 : a_allocs s1 = usize (Z.of_nat (length (filter is_alloc tr)))).
  { apply IH; [reflexivity|]. intros e' He'. apply Hs, in_or_app. auto. }
  assert (H0 : is_store e = false) by (apply Hs, in_or_app; cbn; auto).
  rewrite filter_app, app_length. cbn [filter].
  destruct e as [t n|t n|t i|t i|n| | |]; cbn [astep is_store is_alloc length] in *; try discriminate.
  - destruct (a_thr s1 t); try discriminate. injection E2 as <-. cbn [a_allocs]. rewrite H1. unfold usize. rewrite Z.add_mod_idemp_l by lia. f_equal. lia.
  - destruct (a_thr s1 t); try discriminate. destruct (_ =? _)%N; [|discriminate]. injection E2 as <-. cbn [a_allocs]. rewrite Nat.add_0_r. exact H1.
  - destruct (a_thr s1 t); try discriminate. destruct (nth_error _ _); [|discriminate]. injection E2 as <-. cbn [a_allocs]. rewrite Nat.add_0_r. exact H1.
  - destruct (a_thr s1 t); try discriminate. destruct (nth_error _ _); [|discriminate]. rewrite Nat.add_0_r. destruct (_ =? _)%Z; [destruct i; [|discriminate]|]; injection E2 as <-; exact H1.
  - injection E2 as <-. rewrite Nat.add_0_r. exact H1.
Qed.
(* every interleaving of any number of threads, stale relaxed reads included: once no
   allocation is half-way, the reported peak is the largest number of bytes ever in use,
   and the reported count is the number of allocations *)
Theorem C76_peak : forall (tr : list event) (s : astate),
  asteps a_init tr = Some s -> no_reset tr -> in_range tr -> (forall t, a_thr s t = Idle) ->
  let '(n, peak) := alloc_stats s in
  n = usize (Z.of_nat (length (filter is_alloc tr))) /\
  (forall pre post, tr = pre ++ post -> (live pre <= peak)%Z) /\
  (exists pre post, tr = pre ++ post /\ live pre = peak).
Proof.
  intros tr s E Hs Hr Hi. unfold alloc_stats. destruct (pinv_run E Hs Hr) as (_ & (h & r & Hp & _ & Hh) & _ & _ & Hmax).
  split; [apply allocs_run; assumption|]. split.
  - intros pre post H. destruct (Hmax pre post H) as [H'|(t & n & H1 & _)]; [exact H'|]. rewrite Hi in H1. discriminate.
  - rewrite Hp. exact Hh.
Qed.
Print Assumptions C76_peak.
(* at every moment, also with allocations half-way, the peak is never above what was really in use *)
Theorem C76_never_above : forall (tr : list event) (s : astate),
  asteps a_init tr = Some s -> no_reset tr -> in_range tr ->
  exists pre post, tr = pre ++ post /\ live pre = snd (alloc_stats s).
Proof.
  intros tr s E Hs Hr. destruct (pinv_run E Hs Hr) as (_ & (h & r & Hp & _ & Hh) & _). cbn [alloc_stats snd]. rewrite Hp. exact Hh.
Qed.
Print Assumptions C76_never_above.
(* two threads racing: the second reads a stale peak, fails its exchange and gives way *)
Definition race : list event :=
  [EAlloc 1 100; EAlloc 2 30; EAdd 2 30; EAdd 1 100; ELoad 1 0; ELoad 2 0; ECas 1 0; EFree 30; ECas 2 0]%N.
Example C76_example : exists s, asteps a_init race = Some s /\ no_reset race /\ in_range race /\ (forall t, a_thr s t = Idle) /\ alloc_stats s = (2, 130)%Z.
Proof.
  eexists. split; [reflexivity|]. split; [intros e He; repeat (destruct He as [<-|He]; [reflexivity|]); destruct He|].
  split; [|split; [|reflexivity]].
  - intros pre post H. unfold race in H.
    repeat (destruct pre as [|? pre]; [cbn; lia|]; injection H as <- H).
    symmetry in H. apply app_eq_nil in H. destruct H as [-> _]. cbn. lia.
  - intros [|[|[|t]]]; reflexivity.
Qed.
(* false as used: reset_alloc sets the byte count to zero while blocks are live. Freeing one of
   them afterwards wraps the counter, and the next allocation is reported as a peak near 2^64 *)
Definition measured : list event :=
  [EAlloc 1 100; EAdd 1 100; ELoad 1 0; ECas 1 0; EStoreA; EStoreC; EStoreP;
   EFree 100; EAlloc 1 10; EAdd 1 10; ELoad 1 0; ECas 1 0]%N.
Theorem C76_reset_refuted : exists s, asteps a_init measured = Some s /\ (forall t, a_thr s t = Idle) /\
  alloc_stats s = (1, 2 ^ 64 - 90)%Z.
Proof.
  destruct (asteps a_init measured) as [s|] eqn:E; [|vm_compute in E; discriminate]. exists s. split; [reflexivity|].
  cbn [measured asteps astep a_init a_thr a_cur a_allocs a_peaks at_thread Nat.eqb N.eqb Pos.eqb nth_error] in E.
  vm_compute in E. injection E as <-. split; [intros [|[|t]]; reflexivity|]. vm_compute. reflexivity.
Qed.
Print Assumptions C76_reset_refuted.

(* ------------------------------------------------------------------ C77 *)
(* what the file must say about a record r, given the previous file and this run's records *)
Definition same_test {T} (a b : brec T) : Prop := b_lib a = b_lib b /\ b_tr a = b_tr b /\ b_size a = b_size b /\ b_mode a = b_mode b.
Definition same_group {T} (a b : brec T) : Prop := b_tr a = b_tr b /\ b_size a = b_size b.
Definition measured_same {T} (a b : brec T) : Prop := same_test a b /\ b_time a = b_time b /\ b_ops a = b_ops b /\ b_allocs a = b_allocs b /\ b_peak a = b_peak b.
(* p is the last record of that test in the previous file *)
Definition last_of {T} (prev : list (brec T)) (r p : brec T) : Prop :=
  exists a b, prev = a ++ p :: b /\ same_test p r /\ forall q, In q b -> ~ same_test q r.
Definition eps64 : R := (/ 4503599627370496)%R.

Section Any.
Context {T : Type} {F : Float T} {X : FloatX T}.
Lemma key4_spec (a b : brec T) : key4_eqb (key_of a) (key_of b) = true <-> same_test a b.
Proof.
  unfold key4_eqb, key_of, same_test. rewrite !andb_true_iff, !String.eqb_eq, Nat.eqb_eq. tauto.
Qed.
Lemma gkey_spec (a b : brec T) : gkey_eqb (gkey_of a) (gkey_of b) = true <-> same_group a b.
Proof. unfold gkey_eqb, gkey_of, same_group. cbn [fst snd]. rewrite andb_true_iff, String.eqb_eq, Nat.eqb_eq. tauto. Qed.
Lemma prev_map_app (a b : list (brec T)) m :
  fold_left (fun m r => (key_of r, b_time r) :: m) (a ++ b) m = fold_left (fun m r => (key_of r, b_time r) :: m) b (fold_left (fun m r => (key_of r, b_time r) :: m) a m).
Proof. apply fold_left_app. Qed.
Lemma prev_map_snoc (a : list (brec T)) r : prev_map (a ++ [r]) = (key_of r, b_time r) :: prev_map a.
Proof. unfold prev_map. rewrite fold_left_app. reflexivity. Qed.
Lemma prev_map_find (prev : list (brec T)) r :
  match mfind key4_eqb (prev_map prev) (key_of r) with
  | Some t => exists p, last_of prev r p /\ b_time p = t
  | None => forall p, In p prev -> ~ same_test p r
  end.
Proof.
  induction prev as [|p prev IH] using rev_ind; [intros p []|]. rewrite prev_map_snoc. cbn [mfind].
  destruct (key4_eqb (key_of p) (key_of r)) eqn:E.
  - exists p. split; [|reflexivity]. exists prev, []. split; [reflexivity|]. split; [apply key4_spec, E|]. intros q [].
  - assert (Hp : ~ same_test p r) by (intros H; apply key4_spec in H; congruence).
    destruct (mfind key4_eqb (prev_map prev) (key_of r)) as [t|].
    + destruct IH as (q & (a & b & -> & Hq & Hb) & Ht). exists q. split; [|exact Ht]. exists a, (b ++ [p]).
      split; [rewrite <- app_assoc; reflexivity|]. split; [exact Hq|]. intros z Hz. apply in_app_or in Hz.
      destruct Hz as [Hz|[<-|[]]]; [apply Hb, Hz|exact Hp].
    + intros q Hq. apply in_app_or in Hq. destruct Hq as [Hq|[<-|[]]]; [apply IH, Hq|exact Hp].
Qed.
Lemma last_of_fun (prev : list (brec T)) r p q : last_of prev r p -> last_of prev r q -> p = q.
Proof.
  intros (a & b & E1 & Hp & Hb) (a' & b' & E2 & Hq & Hb'). rewrite E1 in E2. clear E1.
  revert a' E2. induction a as [|x a IH]; intros [|y a'] E2; cbn [app] in E2; injection E2 as -> E2.
  - reflexivity.
  - exfalso. apply (Hb q); [|exact Hq]. rewrite E2. apply in_or_app. right. left. reflexivity.
  - exfalso. apply (Hb' p); [|exact Hp]. rewrite <- E2. apply in_or_app. right. left. reflexivity.
  - apply (IH a' E2).
Qed.
Lemma annotate_same m (r : brec T) : measured_same (annotate m r) r /\ b_best (annotate m r) = b_best r.
Proof. unfold annotate, measured_same, same_test. destruct (mfind _ _ _); cbn; auto 10. Qed.
Lemma mark_same m (r : brec T) : measured_same (mark_best m r) r /\ b_prev (mark_best m r) = b_prev r /\ b_change (mark_best m r) = b_change r.
Proof. unfold mark_best, measured_same, same_test. destruct (mfind _ _ _); [destruct (fltb _ _)|]; cbn; auto 10. Qed.
End Any.

Lemma Rltb_true a b : fltb a b = true <-> (a < b)%R.
Proof. cbn [fltb RX]. destruct (Rlt_dec a b); split; intros; try discriminate; try contradiction; auto. Qed.
Lemma Rltb_false a b : fltb a b = false <-> (b <= a)%R.
Proof. cbn [fltb RX]. destruct (Rlt_dec a b); split; intros; try discriminate; auto; lra. Qed.

(* the comparison *)
Definition ble (a b : brec R) : Prop :=
  String.compare (b_tr a) (b_tr b) = Lt \/
  (b_tr a = b_tr b /\ (b_size a < b_size b \/ (b_size a = b_size b /\ (b_time a <= b_time b)%R))).
Lemma bcmp_R (a b : brec R) : exists c, bcmp a b = Done c /\ (c <> Gt -> ble a b) /\ (c = Gt -> ble b a).
Proof.
  unfold bcmp, ble. destruct (String.compare (b_tr a) (b_tr b)) eqn:E.
  - apply String.compare_eq_iff in E. destruct (Nat.compare_spec (b_size a) (b_size b)) as [Es|Es|Es].
    + unfold partial_cmp. destruct (fltb (b_time a) (b_time b)) eqn:E1; [|destruct (feqb (b_time a) (b_time b)) eqn:E2; [|destruct (fltb (b_time b) (b_time a)) eqn:E3]].
      * apply Rltb_true in E1. exists Lt. split; [reflexivity|]. split; [intros _; right; split; [exact E|]; right; split; [exact Es|lra]|discriminate].
      * assert (b_time a = b_time b) by (cbn [feqb RX] in E2; destruct (Req_EM_T (b_time a) (b_time b)); [assumption|discriminate]).
        exists Eq. split; [reflexivity|]. split; [intros _; right; split; [exact E|]; right; split; [exact Es|lra]|discriminate].
      * apply Rltb_true in E3. exists Gt. split; [reflexivity|]. split; [congruence|]. intros _. right. split; [congruence|]. right. split; [congruence|lra].
      * exfalso. apply Rltb_false in E1. apply Rltb_false in E3. cbn [feqb RX] in E2. destruct (Req_EM_T (b_time a) (b_time b)); [discriminate|]. apply n. lra.
    + exists Lt. split; [reflexivity|]. split; [intros _; right; auto|discriminate].
    + exists Gt. split; [reflexivity|]. split; [congruence|]. intros _. right. split; [congruence|]. left. exact Es.
  - exists Lt. split; [reflexivity|]. split; [auto|discriminate].
  - exists Gt. split; [reflexivity|]. split; [congruence|]. intros _. left. rewrite String.compare_antisym, E. reflexivity.
Qed.

Lemma scmp_refl a : String.compare a a = Eq.
Proof. induction a as [|x a IH]; cbn [String.compare]; [reflexivity|]. unfold Ascii.compare. rewrite N.compare_refl. exact IH. Qed.
Lemma scmp_trans a : forall b c, String.compare a b = Lt -> String.compare b c = Lt -> String.compare a c = Lt.
Proof.
  induction a as [|x a IH]; intros [|y b] [|z c]; cbn [String.compare]; try discriminate; auto.
  unfold Ascii.compare. destruct (N.compare_spec (N_of_ascii x) (N_of_ascii y)) as [E1|E1|E1]; try discriminate;
  destruct (N.compare_spec (N_of_ascii y) (N_of_ascii z)) as [E2|E2|E2]; try discriminate; intros H1 H2.
  - destruct (N.compare_spec (N_of_ascii x) (N_of_ascii z)); [apply (IH b c H1 H2)|reflexivity|lia].
  - destruct (N.compare_spec (N_of_ascii x) (N_of_ascii z)); [lia|reflexivity|lia].
  - destruct (N.compare_spec (N_of_ascii x) (N_of_ascii z)); [lia|reflexivity|lia].
  - destruct (N.compare_spec (N_of_ascii x) (N_of_ascii z)); [lia|reflexivity|lia].
Qed.
Lemma ble_trans a b c : ble a b -> ble b c -> ble a c.
Proof.
  unfold ble. intros [H|(E & H)] [H'|(E' & H')].
  - left. exact (scmp_trans _ _ _ H H').
  - left. rewrite <- E'. exact H.
  - left. rewrite E. exact H'.
  - right. split; [congruence|]. destruct H as [H|[H1 H2]], H' as [H'|[H1' H2']]; [left; lia|left; lia|left; lia|right; split; [lia|lra]].
Qed.
Lemma insert_by_R x l : StronglySorted ble l -> exists l', insert_by x l = Done l' /\ Permutation (x :: l) l' /\ StronglySorted ble l'.
Proof.
  induction l as [|y l IH]; intros Hs; cbn [insert_by].
  - exists [x]. split; [reflexivity|]. split; [apply Permutation_refl|]. repeat constructor.
  - apply StronglySorted_inv in Hs. destruct Hs as [Hs Hy].
    destruct (bcmp_R x y) as (c & E & H1 & H2). rewrite E. cbn [bind].
    assert (HT : c <> Gt -> exists l', Done (x :: y :: l) = Done l' /\ Permutation (x :: y :: l) l' /\ StronglySorted ble l').
    { intros Hc. specialize (H1 Hc). eexists. split; [reflexivity|]. split; [apply Permutation_refl|].
      constructor; [constructor; assumption|]. constructor; [exact H1|]. rewrite Forall_forall in *. intros z Hz. apply (ble_trans H1), Hy, Hz. }
    destruct c; [apply HT; discriminate|apply HT; discriminate|]. specialize (H2 eq_refl).
    destruct (IH Hs) as (l' & El & Pl & Sl). rewrite El. cbn [bind]. eexists. split; [reflexivity|].
    split; [rewrite perm_swap; apply perm_skip, Pl|]. constructor; [exact Sl|].
    rewrite Forall_forall in *. intros z Hz. apply (Permutation_in _ (Permutation_sym Pl)) in Hz. destruct Hz as [<-|Hz]; [exact H2|apply Hy, Hz].
Qed.
Lemma sort_by_R l : exists l', sort_by l = Done l' /\ Permutation l l' /\ StronglySorted ble l'.
Proof.
  induction l as [|x l (l' & E & P & Hs)]; cbn [sort_by].
  - exists []. split; [reflexivity|]. split; [apply Permutation_refl|constructor].
  - rewrite E. cbn [bind]. destruct (insert_by_R x Hs) as (l2 & E2 & P2 & S2). exists l2. split; [exact E2|].
    split; [|exact S2]. apply (Permutation_trans (perm_skip x P) P2).
Qed.
(* the best map holds each group's minimum *)
Lemma best_map_find (l : list (brec R)) r :
  match mfind gkey_eqb (best_map l) (gkey_of r) with
  | Some b => (exists q, In q l /\ same_group q r /\ b_time q = b) /\ forall q, In q l -> same_group q r -> (b <= b_time q)%R
  | None => forall q, In q l -> ~ same_group q r
  end.
Proof.
  revert r. induction l as [|x l IH] using rev_ind; intros r; [intros q []|].
  unfold best_map in *. rewrite fold_left_app. cbn [fold_left]. set (m := fold_left _ l []) in *.
  assert (Hsym : forall a b : brec R, same_group a b -> gkey_of a = gkey_of b) by (unfold same_group, gkey_of; intros a b [-> ->]; reflexivity).
  assert (Hnew : match mfind gkey_eqb m (gkey_of x) with None => True | Some b => (b_time x < b)%R end ->
     match mfind gkey_eqb ((gkey_of x, b_time x) :: m) (gkey_of r) with
     | Some b => (exists q, In q (l ++ [x]) /\ same_group q r /\ b_time q = b) /\ forall q, In q (l ++ [x]) -> same_group q r -> (b <= b_time q)%R
     | None => forall q, In q (l ++ [x]) -> ~ same_group q r end).
  { intros Hlt. cbn [mfind]. destruct (gkey_eqb (gkey_of x) (gkey_of r)) eqn:Eg.
    - apply gkey_spec in Eg. split.
      + exists x. split; [apply in_or_app; cbn; auto|]. auto.
      + intros q Hq Hqr. apply in_app_or in Hq. destruct Hq as [Hq|[<-|[]]]; [|lra].
        pose proof (IH x) as Hx. destruct (mfind gkey_eqb m (gkey_of x)) as [b|].
        * destruct Hx as [_ Hx]. specialize (Hx q Hq). assert (same_group q x) by (unfold same_group in *; intuition congruence). specialize (Hx H). lra.
        * exfalso. apply (Hx q Hq). unfold same_group in *; intuition congruence.
    - assert (Hx : ~ same_group x r) by (intros H; apply gkey_spec in H; congruence).
      pose proof (IH r) as Hr. destruct (mfind gkey_eqb m (gkey_of r)) as [b|].
      + destruct Hr as [(q & H1 & H2 & H3) Hm]. split; [exists q; split; [apply in_or_app; auto|auto]|].
        intros z Hz Hzr. apply in_app_or in Hz. destruct Hz as [Hz|[<-|[]]]; [apply Hm; assumption|contradiction].
      + intros z Hz. apply in_app_or in Hz. destruct Hz as [Hz|[<-|[]]]; [apply Hr, Hz|exact Hx]. }
  pose proof (IH x) as Hx. destruct (mfind gkey_eqb m (gkey_of x)) as [b|] eqn:Eb; [|apply Hnew, I].
  destruct (fltb (b_time x) b) eqn:El; [apply Hnew, Rltb_true, El|]. apply Rltb_false in El.
  pose proof (IH r) as Hr. destruct (mfind gkey_eqb m (gkey_of r)) as [b'|] eqn:Eb'.
  - destruct Hr as [(q & H1 & H2 & H3) Hm]. split; [exists q; split; [apply in_or_app; auto|auto]|].
    intros z Hz Hzr. apply in_app_or in Hz. destruct Hz as [Hz|[<-|[]]]; [apply Hm; assumption|].
    rewrite (Hsym _ _ Hzr) in Eb. rewrite Eb in Eb'. injection Eb' as <-. exact El.
  - intros z Hz Hzr. apply in_app_or in Hz. destruct Hz as [Hz|[<-|[]]]; [apply (Hr z Hz Hzr)|].
    rewrite (Hsym _ _ Hzr) in Eb. congruence.
Qed.
Definition prev_list {T} (prev : option (list (brec T))) : list (brec T) := match prev with Some l => l | None => [] end.
Definition fresh {T} (r : brec T) : Prop := b_prev r = None /\ b_change r = None /\ b_best r = false.
Lemma Forall2_map_r {A B} (P : A -> B -> Prop) f l : (forall x, In x l -> P x (f x)) -> Forall2 P l (map f l).
Proof. induction l as [|x l IH]; intros H; cbn [map]; constructor; [apply H; left; reflexivity|apply IH; intros; apply H; right; assumption]. Qed.
Lemma eps64_lit : flit (1 # 4503599627370496) = eps64.
Proof. cbn [flit RF RFloat_of]. unfold Q2R, eps64. cbn [Qnum Qden]. lra. Qed.
Lemma mfind_prev (prev : option (list (brec R))) (r : brec R) :
  mfind key4_eqb (match prev with Some p => prev_map p | None => [] end) (key_of r) = mfind key4_eqb (prev_map (prev_list prev)) (key_of r).
Proof. destruct prev; reflexivity. Qed.
(* every record of the run appears once with its own measurements, in order of transform,
   size and time; the change is the percentage against the last record of the same test in
   the previous file; `best` marks exactly the records not slower (up to EPSILON) than any of their group *)
Theorem C77_report : forall (prev : option (list (brec R))) (results : list (brec R)), (forall r, In r results -> fresh r) ->
  exists out, save_results prev results = Done out /\ StronglySorted ble out /\
  exists out0, Permutation out0 out /\ Forall2 (fun r o => measured_same o r /\
    (forall p, last_of (prev_list prev) r p -> b_prev o = Some (b_time p) /\
       (b_time p <> 0%R -> b_change o = Some (100 * (1 - b_time r / b_time p))%R)) /\
    ((forall p, In p (prev_list prev) -> ~ same_test p r) -> b_prev o = None /\ b_change o = None) /\
    (b_best o = true <-> forall q, In q results -> same_group q r -> (b_time r - b_time q < eps64)%R)) results out0.
Proof.
  intros prev results Hf. unfold save_results. set (pm := match prev with Some p => prev_map p | None => [] end).
  set (ann := map (annotate pm) results).
  destruct (sort_by_R (map (mark_best (best_map ann)) ann)) as (out & E & P & Hs). exists out. split; [exact E|]. split; [exact Hs|].
  eexists. split; [exact P|]. unfold ann at 2. rewrite map_map. apply Forall2_map_r. intros r Hr.
  destruct (Hf r Hr) as (F1 & F2 & F3).
  destruct (annotate_same pm r) as [(A1 & A2 & A3 & A4 & A5) A6]. destruct (mark_same (best_map ann) (annotate pm r)) as [(M1 & M2 & M3 & M4 & M5) [M6 M7]].
  assert (Hann : match mfind key4_eqb (prev_map (prev_list prev)) (key_of r) with
     | Some pt => b_prev (annotate pm r) = Some pt /\ b_change (annotate pm r) = Some ((pt - b_time r) / pt * 100)%R
     | None => b_prev (annotate pm r) = None /\ b_change (annotate pm r) = None end).
  { unfold annotate, pm. rewrite mfind_prev. destruct (mfind _ _ _) as [pt|]; [|auto]. cbn [b_prev b_change]. split; [reflexivity|].
    cbn [fmul fdiv fsub flit RF RFloat_of]. do 2 f_equal. unfold Q2R. cbn. lra. }
  pose proof (prev_map_find (prev_list prev) r) as Hpm.
  split; [|split; [|split]].
  - unfold measured_same, same_test in *. intuition congruence.
  - intros p Hp. destruct (mfind _ _ _) as [pt|].
    + destruct Hpm as (q & Hq & Ht). rewrite (last_of_fun Hp Hq), Ht, M6, M7. destruct Hann as [-> ->]. split; [reflexivity|].
      intros Hz. f_equal. field. exact Hz.
    + exfalso. destruct Hp as (a & b & Ea & Hp & _). apply (Hpm p); [rewrite Ea; apply in_or_app; right; left; reflexivity|exact Hp].
  - intros Hn. destruct (mfind _ _ _) as [pt|].
    + exfalso. destruct Hpm as (q & (a & b & Ea & Hq & _) & _). apply (Hn q); [rewrite Ea; apply in_or_app; right; left; reflexivity|exact Hq].
    + rewrite M6, M7. exact Hann.
  - assert (Hin : forall q, In q ann <-> exists q0, In q0 results /\ q = annotate pm q0).
    { intros q. unfold ann. rewrite in_map_iff. split; intros (q0 & H1 & H2); exists q0; auto. }
    pose proof (best_map_find ann (annotate pm r)) as Hb. unfold mark_best.
    destruct (mfind gkey_eqb (best_map ann) (gkey_of (annotate pm r))) as [b|].
    + destruct Hb as [(q & Hq & Hg & Ht) Hmin].
      assert (Hbr : (b <= b_time r)%R) by (rewrite <- A2; apply Hmin; [apply Hin; eauto|split; reflexivity]).
      assert (Habs : fabs (fsub (b_time (annotate pm r)) b) = (b_time r - b)%R) by (rewrite A2; cbn [fabs RX fsub RF RFloat_of]; apply Rabs_pos_eq; lra).
      rewrite Habs, eps64_lit. destruct (fltb (b_time r - b)%R eps64) eqn:El.
      * apply Rltb_true in El. cbn [b_best]. split; [|reflexivity]. intros _ z Hz Hzr.
        destruct (annotate_same pm z) as [(Z1 & Z2 & _) _].
        assert (b <= b_time (annotate pm z))%R by (apply Hmin; [apply Hin; eauto|unfold same_group, same_test in *; intuition congruence]). lra.
      * apply Rltb_false in El. rewrite A6, F3. split; [discriminate|]. intros H. exfalso.
        apply Hin in Hq. destruct Hq as (q0 & Hq0 & ->). destruct (annotate_same pm q0) as [(Z1 & Z2 & _) _].
        assert (same_group q0 r) by (unfold same_group, same_test in *; intuition congruence). specialize (H q0 Hq0 H0). lra.
    + exfalso. apply (Hb (annotate pm r)); [apply Hin; eauto|split; reflexivity].
Qed.
Print Assumptions C77_report.
Lemma group_min (l : list (brec R)) r : In r l -> exists m, In m l /\ same_group m r /\ forall q, In q l -> same_group q r -> (b_time m <= b_time q)%R.
Proof.
  intros Hr. pose proof (best_map_find l r) as H. destruct (mfind _ _ _) as [b|].
  - destruct H as [(q & H1 & H2 & H3) H4]. exists q. split; [exact H1|]. split; [exact H2|]. rewrite H3. exact H4.
  - exfalso. apply (H r Hr). split; reflexivity.
Qed.
Lemma Forall2_in_l {A B} (P : A -> B -> Prop) l m x : Forall2 P l m -> In x l -> exists y, In y m /\ P x y.
Proof. induction 1 as [|a b l m Hab _ IH]; intros Hx; [destruct Hx|]. destruct Hx as [->|Hx]; [exists b; cbn; auto|]. destruct IH as (y & Hy & HP); [assumption|]. exists y. cbn. auto. Qed.
(* every group has a record marked best *)
Theorem C77_best_exists : forall (prev : option (list (brec R))) (results out : list (brec R)) r,
  (forall r, In r results -> fresh r) -> save_results prev results = Done out -> In r results ->
  exists o, In o out /\ same_group o r /\ b_best o = true.
Proof.
  intros prev results out r Hf E Hr. destruct (@C77_report prev _ Hf) as (out' & E' & _ & out0 & P & H2).
  rewrite E in E'. injection E' as <-. destruct (@group_min _ _ Hr) as (m & Hm & Hmr & Hmin).
  destruct (@Forall2_in_l _ _ _ _ _ _ H2 Hm) as (o & Ho & (Hs & _) & _ & _ & Hb). exists o.
  split; [apply (Permutation_in _ P), Ho|]. split; [unfold same_group, same_test in *; intuition congruence|].
  apply Hb. intros q Hq Hqm. assert (same_group q r) by (unfold same_group in *; intuition congruence).
  specialize (Hmin q Hq H). unfold eps64. lra.
Qed.
Print Assumptions C77_best_exists.
(* two records of one group whose times cannot be compared (NaN) make the whole report panic *)
Theorem C77_nan_panics : forall (T : Type) (F : Float T) (X : FloatX T) (a b : brec T),
  same_group a b -> fltb (b_time a) (b_time b) = false -> feqb (b_time a) (b_time b) = false -> fltb (b_time b) (b_time a) = false ->
  save_results None [a; b] = Panic.
Proof.
  intros T F X a b [Hg1 Hg2] H1 H2 H3. unfold save_results. cbn [map]. change (annotate [] a) with a. change (annotate [] b) with b.
  set (m := best_map [a; b]). destruct (mark_same m a) as [((_ & A2 & A3 & _) & A5 & _) _]. destruct (mark_same m b) as [((_ & B2 & B3 & _) & B5 & _) _].
  cbn [sort_by insert_by bind]. unfold bcmp. rewrite A2, A3, A5, B2, B3, B5, Hg1, Hg2.
  rewrite scmp_refl.   rewrite Nat.compare_refl. unfold partial_cmp. rewrite H1, H2, H3. reflexivity.
Qed.
Print Assumptions C77_nan_panics.
Local Open Scope string_scope.
Definition rec_ex (l m : string) (t : R) : brec R := mkB l "Complex" 1024 m t t 0 0 None None false.
(* false that `best` names one winner: equal times are both marked *)
Theorem C77_one_best_refuted : exists (results : list (brec R)) a b l, (forall r, In r results -> fresh r) /\
  save_results None results = Done (a :: b :: l) /\ same_group a b /\ b_lib a <> b_lib b /\ b_best a = true /\ b_best b = true.
Proof.
  set (rs := [rec_ex "kofft" "Single" 5; rec_ex "rustfft" "Single" 5]).
  assert (Hf : forall r, In r rs -> fresh r) by (intros r [<-|[<-|[]]]; repeat split).
  destruct (@C77_report None _ Hf) as (out & E & _ & out0 & P & H2). exists rs.
  inversion H2 as [|r1 o1 ? m1 Ha H2']; subst. inversion H2' as [|r2 o2 ? m2 Hb H2'']; subst. inversion H2''; subst. clear H2 H2' H2''.
  destruct Ha as (((L1 & T1 & S1 & _) & _) & _ & _ & B1). destruct Hb as (((L2 & T2 & S2 & _) & _) & _ & _ & B2). cbn in L1, L2, T1, T2, S1, S2.
  assert (B1' : b_best o1 = true) by (apply B1; intros q [<-|[<-|[]]] _; unfold eps64; cbn; lra).
  assert (B2' : b_best o2 = true) by (apply B2; intros q [<-|[<-|[]]] _; unfold eps64; cbn; lra).
  apply Permutation_length_2_inv in P. destruct P as [-> | ->]; eexists _, _, []; (split; [exact Hf|]; split; [exact E|]).
  - split; [split; congruence|]. rewrite L1, L2. split; [discriminate|auto].
  - split; [split; congruence|]. rewrite L1, L2. split; [discriminate|auto].
Qed.
Print Assumptions C77_one_best_refuted.
Example C77_example : (forall r, In r [rec_ex "kofft" "Single" 5; rec_ex "rustfft" "Single" 7] -> fresh r) /\
  last_of (prev_list (Some [rec_ex "kofft" "Single" 9; rec_ex "kofft" "Single" 8])) (rec_ex "kofft" "Single" 5) (rec_ex "kofft" "Single" 8).
Proof.
  split; [intros r [<-|[<-|[]]]; repeat split|]. exists [rec_ex "kofft" "Single" 9], []. split; [reflexivity|].
  split; [repeat split|]. intros q [].
Qed.
(* a float type whose only value is not comparable to itself, as NaN is *)
Definition nanF : Float unit := {| fzero := tt; fone := tt; fadd := fun _ _ => tt; fsub := fun _ _ => tt; fmul := fun _ _ => tt; fdiv := fun _ _ => tt;
  fneg := fun _ => tt; fmul_add := fun _ _ _ => tt; fcos := fun _ => tt; fsin := fun _ => tt; fsin_cos := fun _ => (tt, tt); fpi := tt; fofnat := fun _ => tt;
  fas := fun _ => tt; freparse := fun _ => tt; flit := fun _ => tt; fk707 := tt; fk924 := tt; fk383 := tt |}.
Definition nanX : FloatX unit := {| fsqrt := fun _ => tt; fln := fun _ => tt; flog10 := fun _ => tt; fpowf := fun _ _ => tt; fabs := fun _ => tt;
  fltb := fun _ _ => false; fleb := fun _ _ => false; feqb := fun _ _ => false; ffloor := fun _ => 0; ffloorf := fun _ => tt; fmaxf := fun _ _ => tt; fround_nat := fun _ => 0 |}.
Example C77_nan_example : @save_results unit nanF nanX None [mkB "kofft" "Real" 8 "Single" tt tt 0 0 None None false; mkB "x" "Real" 8 "Single" tt tt 0 0 None None false] = Panic.
Proof. apply C77_nan_panics; try reflexivity. split; reflexivity. Qed.

(* ------------------------------------------------------------------ C78 *)
Definition occurs_at (sub s : string) (i : nat) : Prop := exists u v, s = u ++ sub ++ v /\ String.length u = i.
Definition lf : string := String (ascii_of_nat 10) EmptyString.

Lemma sapp_assoc (a b c : string) : (a ++ b) ++ c = a ++ (b ++ c).
Proof. induction a as [|x a IH]; cbn; [reflexivity|]. rewrite IH. reflexivity. Qed.
Lemma sapp_nil_r (a : string) : a ++ "" = a.
Proof. induction a as [|x a IH]; cbn; [reflexivity|]. rewrite IH. reflexivity. Qed.
Lemma slen_app (a b : string) : String.length (a ++ b) = String.length a + String.length b.
Proof. induction a as [|x a IH]; cbn; [reflexivity|]. rewrite IH. reflexivity. Qed.
Lemma prefix_iff sub s : prefix sub s = true <-> exists v, s = sub ++ v.
Proof.
  revert s. induction sub as [|x sub IH]; intros s.
  - split; [intros _; exists s; reflexivity|intros _; destruct s; reflexivity].
  - destruct s as [|y s]; [split; [discriminate|intros [v H]; discriminate]|]. cbn [prefix].
    destruct (ascii_dec x y) as [->|Hne].
    + rewrite IH. split; intros [v H]; exists v; [rewrite H; reflexivity|injection H as H; exact H].
    + split; [discriminate|]. intros [v H]. injection H as H _. congruence.
Qed.
Lemma occurs_0 sub s : occurs_at sub s 0 <-> prefix sub s = true.
Proof.
  rewrite prefix_iff. split.
  - intros (u & v & E & Hu). destruct u; [|discriminate]. exists v. exact E.
  - intros [v ->]. exists "", v. auto.
Qed.
Lemma occurs_S sub x s i : occurs_at sub (String x s) (S i) <-> occurs_at sub s i.
Proof.
  split; intros (u & v & E & Hu).
  - destruct u as [|y u]; [discriminate|]. injection E as _ E. exists u, v. injection Hu as Hu. auto.
  - exists (String x u), v. rewrite E. cbn. auto.
Qed.
Lemma find_ok s sub : match find s sub with
  | Some i => occurs_at sub s i /\ forall j, occurs_at sub s j -> i <= j
  | None => forall j, ~ occurs_at sub s j end.
Proof.
  induction s as [|x s IH]; cbn [find]; destruct (prefix sub _) eqn:E.
  - split; [apply occurs_0, E|]. intros; lia.
  - intros [|j] H; [apply occurs_0 in H; congruence|]. destruct H as (u & v & E' & Hu). destruct u; discriminate.
  - split; [apply occurs_0, E|]. intros; lia.
  - destruct (find s sub) as [i|]; cbn [option_map].
    + destruct IH as [H1 H2]. split; [apply occurs_S, H1|]. intros [|j] H; [apply occurs_0 in H; congruence|].
      rewrite occurs_S in H. pose proof (H2 j H). lia.
    + intros [|j] H; [apply occurs_0 in H; congruence|]. rewrite occurs_S in H. apply (IH _ H).
Qed.
Lemma find_first s sub i : occurs_at sub s i -> (forall j, occurs_at sub s j -> i <= j) -> find s sub = Some i.
Proof.
  intros H1 H2. pose proof (find_ok s sub) as H. destruct (find s sub) as [k|]; [|exfalso; apply (H _ H1)].
  destruct H as [H3 H4]. f_equal. specialize (H2 _ H3). specialize (H4 _ H1). lia.
Qed.
Lemma take_app a b : take (String.length a) (a ++ b) = a.
Proof. induction a as [|x a IH]; cbn; [destruct b; reflexivity|]. rewrite IH. reflexivity. Qed.
Lemma drop_app a b : drop (String.length a) (a ++ b) = b.
Proof. induction a as [|x a IH]; cbn; [destruct b; reflexivity|]. exact IH. Qed.
Lemma sapp_inv (a a' b b' : string) : String.length a = String.length a' -> a ++ b = a' ++ b' -> a = a' /\ b = b'.
Proof.
  revert a'. induction a as [|x a IH]; intros [|y a']; cbn; try discriminate; [auto|]. intros HL H. injection HL as HL. injection H as -> H.
  destruct (IH a' HL H) as [-> ->]. auto.
Qed.
Lemma sapp_pre sub : forall s b v, s ++ b = sub ++ v -> String.length sub <= String.length s -> exists w, s = sub ++ w.
Proof.
  induction sub as [|y sub IH]; intros s b v E Hl; [exists s; reflexivity|]. destruct s as [|z s]; [cbn in Hl; lia|].
  cbn in E. injection E as -> E. destruct (IH s b v E) as [w ->]; [cbn in Hl; lia|]. exists w. reflexivity.
Qed.
Lemma occurs_app_le sub a b i : occurs_at sub (a ++ b) i -> i + String.length sub <= String.length a -> forall c, occurs_at sub (a ++ c) i.
Proof.
  revert i. induction a as [|x a IH]; intros i (u & v & E & Hu) Hl c.
  - cbn in Hl. assert (Hs : sub = "") by (destruct sub; [reflexivity|cbn in Hl; lia]). assert (u = "") by (destruct u; [reflexivity|cbn in Hu; lia]).
    subst. exists "", c. auto.
  - destruct i as [|i].
    + destruct u; [|discriminate]. destruct (@sapp_pre sub (String x a) b v E Hl) as [w Hw].
      exists "", (w ++ c). rewrite Hw, sapp_assoc. auto.
    + destruct u as [|y u]; [discriminate|]. cbn in E. injection E as _ E. change (String x a ++ c) with (String x (a ++ c)). apply occurs_S.
      apply (IH i); [exists u, v; injection Hu as Hu; auto|cbn in Hl; lia].
Qed.
Lemma occurs_app_ge sub a b i : String.length a <= i -> occurs_at sub (a ++ b) i <-> occurs_at sub b (i - String.length a).
Proof.
  revert i. induction a as [|x a IH]; intros i Hi; [cbn; rewrite Nat.sub_0_r; tauto|].
  destruct i as [|i]; [cbn in Hi; lia|]. cbn [append String.length Nat.sub]. rewrite occurs_S. apply IH. cbn in Hi. lia.
Qed.
(* a README with the two markers in order keeps everything outside them and gets the table between them *)
Theorem C78_splice : forall a b d table,
  let content := a ++ bench_start ++ b ++ bench_end ++ d in
  (forall i, occurs_at bench_start content i -> String.length a <= i) ->
  (forall i, occurs_at bench_end content i -> String.length (a ++ bench_start ++ b) <= i) ->
  update_readme content table = Some (a ++ bench_start ++ lf ++ table ++ bench_end ++ d).
Proof.
  intros a b d table content Hs He. unfold update_readme.
  rewrite (@find_first content bench_start (String.length a)); [|exists a, (b ++ bench_end ++ d); auto|exact Hs].
  rewrite (@find_first content bench_end (String.length (a ++ bench_start ++ b)));
    [|exists (a ++ bench_start ++ b), d; unfold content; rewrite !sapp_assoc; auto|exact He].
  rewrite <- slen_app. unfold content.
  replace (a ++ bench_start ++ b ++ bench_end ++ d) with ((a ++ bench_start) ++ (b ++ bench_end ++ d)) at 1 by (rewrite !sapp_assoc; reflexivity).
  rewrite take_app.
  replace (a ++ bench_start ++ b ++ bench_end ++ d) with ((a ++ bench_start ++ b) ++ (bench_end ++ d)) by (rewrite !sapp_assoc; reflexivity).
  rewrite drop_app, !sapp_assoc. reflexivity.
Qed.
Print Assumptions C78_splice.
(* without both markers nothing is written (and success is reported) *)
Theorem C78_no_markers : forall content table,
  (forall i, ~ occurs_at bench_start content i) \/ (forall i, ~ occurs_at bench_end content i) <-> update_readme content table = None.
Proof.
  intros content table. unfold update_readme. pose proof (find_ok content bench_start) as H1. pose proof (find_ok content bench_end) as H2.
  destruct (find content bench_start) as [s|].
  - destruct (find content bench_end) as [e|].
    + split; [|discriminate]. intros [H|H]; exfalso; [apply (H s), H1|apply (H e), H2].
    + split; auto.
  - split; auto.
Qed.
Print Assumptions C78_no_markers.
(* running it again replaces the table: nothing accumulates, provided the table has no end marker *)
Theorem C78_again : forall a b d table table2,
  let content := a ++ bench_start ++ b ++ bench_end ++ d in
  (forall i, occurs_at bench_start content i -> String.length a <= i) ->
  (forall i, occurs_at bench_end content i -> String.length (a ++ bench_start ++ b) <= i) ->
  (forall i, occurs_at bench_end (table ++ bench_end) i -> String.length table <= i) ->
  exists new, update_readme content table = Some new /\ update_readme new table2 = update_readme content table2.
Proof.
  intros a b d table table2 content Hs He Ht. exists (a ++ bench_start ++ lf ++ table ++ bench_end ++ d).
  split; [apply C78_splice; assumption|]. assert (E2 : update_readme content table2 = _) by (exact (@C78_splice a b d table2 Hs He)). rewrite E2. clear E2.
  replace (a ++ bench_start ++ lf ++ table ++ bench_end ++ d) with (a ++ bench_start ++ (lf ++ table) ++ bench_end ++ d) by (rewrite !sapp_assoc; reflexivity).
  apply C78_splice.
  - intros i Hi. destruct (Nat.le_gt_cases (String.length a) i) as [|Hlt]; [assumption|].
    apply (Hs i). unfold content. rewrite <- sapp_assoc in *. apply (@occurs_app_le _ _ _ _ Hi). rewrite slen_app. lia.
  - intros i Hi. rewrite !slen_app. change (String.length bench_start) with 20. change (String.length lf) with 1.
    destruct (Nat.le_gt_cases (String.length a + 20 + 1) i) as [Hge|Hlt].
    + rewrite occurs_app_ge in Hi by lia. rewrite occurs_app_ge in Hi by (change (String.length bench_start) with 20; lia).
      change (String.length bench_start) with 20 in Hi. rewrite sapp_assoc in Hi.
      rewrite occurs_app_ge in Hi by (change (String.length lf) with 1; lia). change (String.length lf) with 1 in Hi.
      set (j := i - String.length a - 20 - 1) in *.
      destruct (Nat.le_gt_cases (String.length table) j) as [Hj|Hj]; [lia|]. exfalso.
      rewrite <- sapp_assoc in Hi.
      assert (H : occurs_at bench_end ((table ++ bench_end) ++ "") j) by (apply (@occurs_app_le _ _ _ _ Hi); rewrite slen_app; lia).
      rewrite sapp_nil_r in H. apply Ht in H. lia.
    + exfalso. destruct (Nat.le_gt_cases (String.length a + 3) i) as [Hge2|Hlt2].
      * rewrite occurs_app_ge in Hi by lia. set (k := i - String.length a) in *. assert (Hk : 3 <= k < 21) by lia. clearbody k.
        do 21 (destruct k as [|k]; [try lia; apply occurs_0 in Hi; cbn in Hi; discriminate|
          cbn [bench_start append lf] in Hi; first [rewrite occurs_S in Hi | idtac]]). lia.
      * assert (H : occurs_at bench_end content i).
        { unfold content. rewrite <- sapp_assoc in *. apply (@occurs_app_le _ _ _ _ Hi). rewrite slen_app. change (String.length bench_start) with 20. change (String.length bench_end) with 18. lia. }
        apply He in H. rewrite !slen_app in H. change (String.length bench_start) with 20 in H. lia.
Qed.
Print Assumptions C78_again.
(* false when the table itself carries the end marker (a library or machine name would do):
   the old rows stay behind the new table and the file grows with every run *)
Theorem C78_marker_in_table_refuted : exists content table new new2,
  update_readme content table = Some new /\ update_readme new table = Some new2 /\ String.length new < String.length new2.
Proof.
  exists (bench_start ++ bench_end), ("| " ++ bench_end ++ " |" ++ lf). eexists _, _. split; [reflexivity|]. split; [reflexivity|]. cbn. lia.
Qed.
Print Assumptions C78_marker_in_table_refuted.
(* false when the markers are in the other order: the text between them is duplicated *)
Theorem C78_reversed_refuted : forall content table s e,
  occurs_at bench_start content s -> (forall i, occurs_at bench_start content i -> s <= i) ->
  occurs_at bench_end content e -> (forall i, occurs_at bench_end content i -> e <= i) -> e <= s ->
  exists new, update_readme content table = Some new /\ String.length content + String.length table < String.length new.
Proof.
  intros content table s e Hs Hs' He He' Hes. unfold update_readme. rewrite (find_first Hs Hs'), (find_first He He').
  eexists. split; [reflexivity|].
  assert (Ht : String.length (take (s + String.length bench_start) content) = s + String.length bench_start).
  { destruct Hs as (u & v & -> & <-). rewrite <- slen_app, <- sapp_assoc, take_app. reflexivity. }
  assert (Hd : String.length content = e + String.length (drop e content)).
  { destruct He as (u & v & -> & <-). rewrite drop_app, !slen_app. reflexivity. }
  rewrite !slen_app, Ht. change (String.length bench_start) with 20. change (String.length (String (ascii_of_nat 10) "")) with 1. lia.
Qed.
Print Assumptions C78_reversed_refuted.
Example C78_example : let content := "# Results" ++ lf ++ bench_start ++ "old" ++ bench_end ++ lf ++ "end" in
  (forall i, occurs_at bench_start content i -> String.length ("# Results" ++ lf) <= i) /\
  (forall i, occurs_at bench_end content i -> String.length (("# Results" ++ lf) ++ bench_start ++ "old") <= i) /\
  (forall i, occurs_at bench_end ("| kofft |" ++ lf ++ bench_end) i -> String.length ("| kofft |" ++ lf) <= i) /\
  update_readme content ("| kofft |" ++ lf) = Some ("# Results" ++ lf ++ bench_start ++ lf ++ "| kofft |" ++ lf ++ bench_end ++ lf ++ "end").
Proof.
  cbn zeta. split; [|split; [|split; [|reflexivity]]].
  - intros i Hi. pose proof (find_ok ("# Results" ++ lf ++ bench_start ++ "old" ++ bench_end ++ lf ++ "end") bench_start) as H. destruct H as [_ H]. apply (H i Hi).
  - intros i Hi. pose proof (find_ok ("# Results" ++ lf ++ bench_start ++ "old" ++ bench_end ++ lf ++ "end") bench_end) as H. destruct H as [_ H]. apply (H i Hi).
  - intros i Hi. pose proof (find_ok ("| kofft |" ++ lf ++ bench_end) bench_end) as H. destruct H as [_ H]. apply (H i Hi).
Qed.

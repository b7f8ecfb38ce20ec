(* Results of running Rust code, checked array access and loops.
   This file is not a model of a source file: it is the small execution
   vocabulary all model files (M_*.v) are written in.
     Done a   the code ran to completion with value a
     Panic    the code panicked (index out of bounds, assert!, unreachable!,
              unwrap on Err, arithmetic underflow in debug builds)
     NoFuel   the model's loop/recursion bound was exhausted; never a normal
              result, theorems always exclude it. *)
From Coq Require Export List Arith Lia Bool PeanoNat.
From Coq Require Import ZArith ZifyBool ZifyNat.
Export ListNotations.
Ltac Zify.zify_post_hook ::= Z.div_mod_to_equations.
Set Implicit Arguments.

Inductive exec (A : Type) : Type :=
| Done (a : A)
| Panic
| NoFuel.
Arguments Done {A} a.
Arguments Panic {A}.
Arguments NoFuel {A}.

Definition bind {A B} (e : exec A) (k : A -> exec B) : exec B :=
  match e with Done a => k a | Panic => Panic | NoFuel => NoFuel end.
Declare Scope exec_scope.
Notation "x <- e ;; k" := (bind e (fun x => k))
  (at level 61, e at next level, right associativity) : exec_scope.
Notation "' p <- e ;; k" := (bind e (fun p => k))
  (at level 61, p pattern, e at next level, right associativity) : exec_scope.
Open Scope exec_scope.

(* FftError, src/fft.rs 447-454. *)
Inductive ferr := EmptyInput | NonPowerOfTwoNoStd | MismatchedLengths
                | InvalidStride | InvalidHopSize | InvalidValue.
(* Result<(), FftError>: plain data, returned next to the mutated buffers. *)
Inductive rres := ROk | RErr (e : ferr).
(* Result<T, FftError> *)
Inductive result (A : Type) := Ok (a : A) | Err (e : ferr).
Arguments Ok {A} a.
Arguments Err {A} e.

(* slice indexing: v[i] *)
Definition get {A} (l : list A) (i : nat) : exec A :=
  match nth_error l i with Some a => Done a | None => Panic end.
Fixpoint upd {A} (l : list A) (i : nat) (v : A) : list A :=
  match l, i with
  | [], _ => []
  | _ :: t, 0 => v :: t
  | h :: t, S j => h :: upd t j v
  end.
(* v[i] = x *)
Definition set {A} (l : list A) (i : nat) (v : A) : exec (list A) :=
  if i <? length l then Done (upd l i v) else Panic.
(* &v[..n], &v[n..] *)
Definition slice_to {A} (l : list A) (n : nat) : exec (list A) :=
  if n <=? length l then Done (firstn n l) else Panic.
Definition slice_from {A} (l : list A) (n : nat) : exec (list A) :=
  if n <=? length l then Done (skipn n l) else Panic.
(* Vec::resize *)
Definition resize {A} (l : list A) (n : nat) (v : A) : list A :=
  firstn n l ++ repeat v (n - length l).
(* if v.len() < n { v.resize(n, zero) } *)
Definition grow {A} (l : list A) (n : nat) (v : A) : list A :=
  if length l <? n then resize l n v else l.

(* for i in lo..hi { s = body(i, s) } *)
Fixpoint for_n {S} (n i : nat) (body : nat -> S -> exec S) (s : S) : exec S :=
  match n with
  | 0 => Done s
  | Datatypes.S m => s' <- body i s ;; for_n m (Datatypes.S i) body s'
  end.
Definition for_range {S} (lo hi : nat) (body : nat -> S -> exec S) (s : S) : exec S :=
  for_n (hi - lo) lo body s.
(* while c(s) { s = body(s) } *)
Fixpoint while_ {S} (fuel : nat) (c : S -> bool) (body : S -> exec S) (s : S) : exec S :=
  match fuel with
  | 0 => NoFuel
  | Datatypes.S f => if c s then s' <- body s ;; while_ f c body s' else Done s
  end.

(* usize::is_power_of_two, usize::next_power_of_two (no overflow) *)
Definition is_pow2 (n : nat) : bool := 2 ^ Nat.log2 n =? n.
Definition next_pow2 (n : nat) : nat := 2 ^ Nat.log2_up n.

(* iter_mut().zip(b.iter()).for_each: overwrite the common prefix *)
Fixpoint zip_apply {A B} (f : A -> B -> A) (a : list A) (b : list B) : list A :=
  match a, b with
  | x :: a', y :: b' => f x y :: zip_apply f a' b'
  | _, _ => a
  end.
Fixpoint zip_with {A B C} (f : A -> B -> C) (a : list A) (b : list B) : list C :=
  match a, b with
  | x :: a', y :: b' => f x y :: zip_with f a' b'
  | _, _ => []
  end.

(* the list f 0, f 1, ..., f (n-1) *)
Definition tab {A} (n : nat) (f : nat -> A) : list A := map f (seq 0 n).

(* ------------------------------------------------------------------ *)
(* Lemmas *)

Lemma bind_Done {A B} (a : A) (k : A -> exec B) : bind (Done a) k = k a.
Proof. reflexivity. Qed.

Lemma bind_assoc {A B C} (e : exec A) (k : A -> exec B) (h : B -> exec C) :
  bind (bind e k) h = bind e (fun a => bind (k a) h).
Proof. destruct e; reflexivity. Qed.

Lemma for_n_inv {S} (P : nat -> S -> Prop) body n : forall lo s,
  P lo s ->
  (forall i s, lo <= i < lo + n -> P i s ->
     exists s', body i s = Done s' /\ P (Datatypes.S i) s') ->
  exists s', for_n n lo body s = Done s' /\ P (lo + n) s'.
Proof.
  induction n as [|n IH]; intros lo s H0 Hs; cbn [for_n].
  - exists s. rewrite Nat.add_0_r. auto.
  - destruct (Hs lo s) as (s1 & E1 & P1); [lia|exact H0|].
    rewrite E1. cbn [bind].
    destruct (IH (Datatypes.S lo) s1 P1) as (s2 & E2 & P2).
    { intros i s' Hi HP. apply Hs; [lia|exact HP]. }
    exists s2. split; [exact E2|]. replace (lo + Datatypes.S n) with (Datatypes.S lo + n) by lia.
    exact P2.
Qed.

Lemma for_inv {S} (P : nat -> S -> Prop) body lo hi s :
  lo <= hi ->
  P lo s ->
  (forall i s, lo <= i < hi -> P i s ->
     exists s', body i s = Done s' /\ P (Datatypes.S i) s') ->
  exists s', for_range lo hi body s = Done s' /\ P hi s'.
Proof.
  intros Hle H0 Hs. unfold for_range.
  destruct (@for_n_inv S P body (hi - lo) lo s H0) as (s' & E & HP).
  { intros i s0 Hi. apply Hs. lia. }
  exists s'. split; [exact E|]. replace hi with (lo + (hi - lo)) by lia. exact HP.
Qed.

Lemma for_range_empty {S} lo hi (body : nat -> S -> exec S) s :
  hi <= lo -> for_range lo hi body s = Done s.
Proof. intros H. unfold for_range. replace (hi - lo) with 0 by lia. reflexivity. Qed.

Lemma for_n_ext {S} (b1 b2 : nat -> S -> exec S) n : forall lo s,
  (forall i s, lo <= i < lo + n -> b1 i s = b2 i s) -> for_n n lo b1 s = for_n n lo b2 s.
Proof.
  induction n as [|n IH]; intros lo s H; cbn [for_n]; [reflexivity|].
  rewrite H by lia. destruct (b2 lo s); cbn [bind]; try reflexivity.
  apply IH. intros; apply H; lia.
Qed.

Lemma while_inv {S} (P : S -> Prop) (mu : S -> nat) c body fuel : forall s,
  P s -> mu s < fuel ->
  (forall s, P s -> c s = true -> exists s', body s = Done s' /\ P s' /\ mu s' < mu s) ->
  exists s', while_ fuel c body s = Done s' /\ P s' /\ c s' = false.
Proof.
  induction fuel as [|f IH]; intros s HP Hmu Hs; [lia|]. cbn [while_].
  destruct (c s) eqn:Ec.
  - destruct (Hs s HP Ec) as (s1 & E1 & P1 & M1). rewrite E1. cbn [bind].
    apply IH; [exact P1|lia|exact Hs].
  - exists s. auto.
Qed.

Lemma upd_length {A} (l : list A) i v : length (upd l i v) = length l.
Proof.
  revert i. induction l as [|h t IH]; intros [|i]; cbn [upd length]; auto.
Qed.

Lemma nth_upd {A} (l : list A) i j v d :
  i < length l -> nth j (upd l i v) d = if j =? i then v else nth j l d.
Proof.
  revert i j. induction l as [|h t IH]; intros [|i] [|j] H; cbn [upd nth length] in *; try lia.
  - reflexivity.
  - reflexivity.
  - reflexivity.
  - rewrite IH by lia. reflexivity.
Qed.

Lemma nth_error_upd {A} (l : list A) i j v :
  i < length l -> nth_error (upd l i v) j = if j =? i then Some v else nth_error l j.
Proof.
  revert i j. induction l as [|h t IH]; intros [|i] [|j] H; cbn [upd nth_error length] in *; try lia.
  - reflexivity.
  - reflexivity.
  - reflexivity.
  - rewrite IH by lia. reflexivity.
Qed.

Lemma upd_same {A} (l : list A) i d : upd l i (nth i l d) = l.
Proof.
  revert i. induction l as [|h t IH]; intros [|i]; cbn [upd nth]; f_equal; auto.
Qed.

Lemma get_nth {A} (l : list A) i d : i < length l -> get l i = Done (nth i l d).
Proof.
  intros H. unfold get. rewrite (nth_error_nth' l d H). reflexivity.
Qed.

Lemma get_panic {A} (l : list A) i : length l <= i -> get l i = Panic.
Proof.
  intros H. unfold get. apply nth_error_None in H. rewrite H. reflexivity.
Qed.

Lemma set_ok {A} (l : list A) i v : i < length l -> set l i v = Done (upd l i v).
Proof. intros H. unfold set. apply Nat.ltb_lt in H. rewrite H. reflexivity. Qed.

Lemma set_panic {A} (l : list A) i v : length l <= i -> set l i v = Panic.
Proof. intros H. unfold set. apply Nat.ltb_ge in H. rewrite H. reflexivity. Qed.

Lemma tab_length {A} n (f : nat -> A) : length (tab n f) = n.
Proof. unfold tab. rewrite map_length, seq_length. reflexivity. Qed.

Lemma nth_tab {A} n (f : nat -> A) i d : i < n -> nth i (tab n f) d = f i.
Proof.
  intros H. unfold tab.
  rewrite nth_indep with (d' := f 0) by (rewrite map_length, seq_length; lia).
  rewrite map_nth, seq_nth by lia. reflexivity.
Qed.

Lemma get_tab {A} n (f : nat -> A) i : i < n -> get (tab n f) i = Done (f i).
Proof.
  intros H. rewrite get_nth with (d := f 0) by (rewrite tab_length; lia).
  rewrite nth_tab by lia. reflexivity.
Qed.

Lemma tab_ext {A} n (f g : nat -> A) : (forall i, i < n -> f i = g i) -> tab n f = tab n g.
Proof.
  intros H. unfold tab. apply map_ext_in. intros a Ha. apply in_seq in Ha. apply H. lia.
Qed.

Lemma list_ext {A} (l1 l2 : list A) (d : A) :
  length l1 = length l2 -> (forall i, i < length l1 -> nth i l1 d = nth i l2 d) -> l1 = l2.
Proof. intros Hl H. apply nth_ext with (d := d) (d' := d); auto. Qed.

Lemma list_tab {A} (l : list A) d : l = tab (length l) (fun i => nth i l d).
Proof.
  apply list_ext with (d := d); [rewrite tab_length; reflexivity|].
  intros i Hi. rewrite nth_tab by exact Hi. reflexivity.
Qed.

Lemma tab_S {A} n (f : nat -> A) : tab (S n) f = tab n f ++ [f n].
Proof. unfold tab. rewrite seq_S, map_app. reflexivity. Qed.

Lemma tab_S_l {A} n (f : nat -> A) : tab (S n) f = f 0 :: tab n (fun i => f (S i)).
Proof.
  unfold tab. cbn [seq map]. f_equal. rewrite <- seq_shift, map_map. reflexivity.
Qed.

Lemma map_tab {A B} (g : A -> B) n f : map g (tab n f) = tab n (fun i => g (f i)).
Proof. unfold tab. rewrite map_map. reflexivity. Qed.

Lemma firstn_tab {A} n m (f : nat -> A) : n <= m -> firstn n (tab m f) = tab n f.
Proof.
  intros H. unfold tab. rewrite firstn_map. f_equal.
  replace m with (n + (m - n)) by lia. rewrite seq_app, firstn_app, seq_length.
  rewrite Nat.sub_diag. cbn [firstn]. rewrite app_nil_r, firstn_all2; [reflexivity|].
  rewrite seq_length. lia.
Qed.

Lemma tab_app {A} n m (f : nat -> A) : tab (n + m) f = tab n f ++ tab m (fun i => f (n + i)).
Proof.
  unfold tab. rewrite seq_app, map_app. f_equal. cbn [plus].
  rewrite <- (Nat.add_0_r n) at 1. generalize 0 as s. induction m as [|m IH]; intros s; cbn [seq map].
  - reflexivity.
  - f_equal. rewrite <- IH. f_equal. f_equal. lia.
Qed.

Lemma nth_skipn {A} n (l : list A) i d : nth i (skipn n l) d = nth (n + i) l d.
Proof.
  revert l. induction n as [|n IH]; intros l; cbn [skipn plus]; [reflexivity|].
  destruct l as [|h t]; [destruct i; reflexivity|]. cbn [nth]. apply IH.
Qed.

Lemma nth_firstn {A} n (l : list A) i d : i < n -> nth i (firstn n l) d = nth i l d.
Proof.
  revert l i. induction n as [|n IH]; intros l i H; [lia|].
  destruct l as [|h t]; [reflexivity|]. destruct i as [|i]; cbn [firstn nth]; [reflexivity|].
  apply IH. lia.
Qed.

(* the loop  for i in 0..n { a[i] = v(i) } *)
Lemma for_set {A} n (f : nat -> exec A) (g : nat -> A) (a : list A) :
  n <= length a -> (forall i, i < n -> f i = Done (g i)) ->
  for_range 0 n (fun i a => v <- f i ;; set a i v) a = Done (tab n g ++ skipn n a).
Proof.
  intros Hn Hf.
  destruct (@for_inv (list A) (fun i s => s = tab i g ++ skipn i a)
     (fun i a => v <- f i ;; set a i v) 0 n a) as (s' & E & HP).
  - lia.
  - reflexivity.
  - intros i s Hi ->. rewrite Hf by lia. cbn [bind].
    rewrite set_ok by (rewrite app_length, tab_length, skipn_length; lia).
    eexists; split; [reflexivity|].
    apply list_ext with (d := g 0).
    + rewrite upd_length, !app_length, !tab_length, !skipn_length. lia.
    + rewrite upd_length, app_length, tab_length, skipn_length. intros j Hj.
      rewrite nth_upd by (rewrite app_length, tab_length, skipn_length; lia).
      destruct (Nat.eqb_spec j i) as [->|Hne].
      * rewrite app_nth1 by (rewrite tab_length; lia). rewrite nth_tab by lia. reflexivity.
      * destruct (Nat.lt_ge_cases j i).
        -- rewrite !app_nth1 by (rewrite tab_length; lia). rewrite !nth_tab by lia. reflexivity.
        -- rewrite !app_nth2 by (rewrite tab_length; lia). rewrite !tab_length.
           rewrite !nth_skipn. f_equal. lia.
  - rewrite E, HP. reflexivity.
Qed.

Lemma grow_length {A} (l : list A) n v : length (grow l n v) = Nat.max n (length l).
Proof.
  unfold grow, resize. destruct (Nat.ltb_spec (length l) n).
  - rewrite app_length, firstn_length, repeat_length. lia.
  - lia.
Qed.

Lemma grow_id {A} (l : list A) n v : n <= length l -> grow l n v = l.
Proof. intros H. unfold grow. destruct (Nat.ltb_spec (length l) n); [lia|reflexivity]. Qed.

Lemma zip_apply_length {A B} (f : A -> B -> A) a b : length (zip_apply f a b) = length a.
Proof. revert b. induction a as [|x a IH]; intros [|y b]; cbn; auto. Qed.

Lemma nth_zip_apply {A B} (f : A -> B -> A) a b i da db :
  i < length a ->
  nth i (zip_apply f a b) da = if i <? length b then f (nth i a da) (nth i b db) else nth i a da.
Proof.
  revert b i. induction a as [|x a IH]; intros [|y b] [|i] H; cbn [zip_apply nth length] in *; try lia; try reflexivity.
  rewrite IH by lia. reflexivity.
Qed.

Lemma zip_with_length {A B C} (f : A -> B -> C) a b :
  length (zip_with f a b) = Nat.min (length a) (length b).
Proof. revert b. induction a as [|x a IH]; intros [|y b]; cbn; auto. Qed.

Lemma nth_zip_with {A B C} (f : A -> B -> C) a b i da db dc :
  i < length a -> i < length b -> nth i (zip_with f a b) dc = f (nth i a da) (nth i b db).
Proof.
  revert b i. induction a as [|x a IH]; intros [|y b] [|i] Ha Hb; cbn [zip_with nth length] in *; try lia; try reflexivity.
  apply IH; lia.
Qed.

(* powers of two *)
Lemma is_pow2_iff n : is_pow2 n = true <-> exists L, n = 2 ^ L.
Proof.
  unfold is_pow2. rewrite Nat.eqb_eq. split.
  - intros H. exists (Nat.log2 n). auto.
  - intros [L ->]. rewrite Nat.log2_pow2 by lia. reflexivity.
Qed.

Lemma is_pow2_pow L : is_pow2 (2 ^ L) = true.
Proof. apply is_pow2_iff. eauto. Qed.

Lemma next_pow2_ge n : n <= next_pow2 n.
Proof.
  unfold next_pow2. destruct (Nat.le_gt_cases n 1).
  - rewrite Nat.log2_up_eqn0 by lia. cbn. lia.
  - apply Nat.log2_up_spec. lia.
Qed.

Lemma next_pow2_pow2 n : is_pow2 (next_pow2 n) = true.
Proof. apply is_pow2_pow. Qed.

Lemma next_pow2_lt n : 1 <= n -> next_pow2 n < 2 * n.
Proof.
  intros H. unfold next_pow2. destruct (Nat.eq_dec n 1) as [->|].
  - cbn. lia.
  - destruct (Nat.log2_up_spec n) as [H1 H2]; [lia|].
    assert (0 < Nat.log2_up n) by (apply Nat.log2_up_pos; lia).
    destruct (Nat.log2_up n) as [|k]; [lia|]. cbn [Nat.pred] in H1.
    rewrite Nat.pow_succ_r'. lia.
Qed.

Lemma pow2_pos L : 0 < 2 ^ L.
Proof. apply Nat.neq_0_lt_0, Nat.pow_nonzero. lia. Qed.

(* (n & (n-1)) == 0 is the same test as is_power_of_two for n > 0 *)
Lemma land_pred_pow2 n : 0 < n -> (Nat.land n (n - 1) =? 0) = is_pow2 n.
Proof.
  intros Hn.
  destruct (is_pow2 n) eqn:E.
  - apply is_pow2_iff in E. destruct E as [L ->].
    apply Nat.eqb_eq. rewrite Nat.sub_1_r, <- Nat.ones_equiv.
    rewrite Nat.land_ones. apply Nat.mod_same. apply Nat.pow_nonzero. lia.
  - apply Nat.eqb_neq. intros H0.
    set (L := Nat.log2 n).
    assert (HL : 2 ^ L <= n < 2 ^ (S L)) by (unfold L; apply Nat.log2_spec; lia).
    assert (Hne : 2 ^ L <> n) by (intros C; unfold is_pow2 in E; apply Nat.eqb_neq in E; auto).
    assert (B : Nat.testbit (Nat.land n (n - 1)) L = true).
    { rewrite Nat.land_spec. apply andb_true_intro; split.
      - unfold L. apply Nat.bit_log2. lia.
      - assert (HLL : Nat.log2 (n - 1) = L).
        { apply Nat.log2_unique; [lia|]. lia. }
        rewrite <- HLL. apply Nat.bit_log2. pose proof (pow2_pos L). lia. }
    rewrite H0, Nat.bits_0 in B. discriminate.
Qed.

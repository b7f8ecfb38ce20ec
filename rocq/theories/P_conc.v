(* Property C96: the settings of the parallel transform used by many threads at once. *)
From Coq Require Import List String NArith Arith Bool Lia.
From Verif Require Import M_tune M_conc.
Import ListNotations.
Set Implicit Arguments.
Open Scope N_scope.

(* ---------- specification ---------- *)
(* states a process can be in, whatever its calls, its schedule, its environment changes and its setter calls *)
Definition reachable (W : N) (checks : bool) (calls : nat -> call) (s : state) : Prop := exists e l, steps (init W checks e calls) l s.
Definition over (th : thread) : Prop := match th with Run _ _ => False | _ => True end.
(* how often call t was scheduled *)
Definition accesses (t : nat) (l : list act) : nat := List.length (filter (fun a => match a with Access u => Nat.eqb u t | _ => false end) l).

(* ---------- proofs ---------- *)
Lemma upd_same L l c : upd L l c l = c.
Proof. unfold upd. destruct l; reflexivity. Qed.
Lemma lock_beq_spec x l : reflect (x = l) (lock_beq x l).
Proof. destruct (lock_beq x l) eqn:E; constructor; [apply internal_lock_dec_bl; exact E|]. intros ->. rewrite internal_lock_dec_lb in E; [discriminate|reflexivity]. Qed.
Lemma upd_other L l c x : x <> l -> upd L l c x = L x.
Proof. intros H. unfold upd. destruct (lock_beq_spec x l); [contradiction|reflexivity]. Qed.
Lemma steps_app s l s' l' s'' : steps s l s' -> steps s' l' s'' -> steps s (l ++ l') s''.
Proof. induction 1; intros H'; [exact H'|]. cbn. econstructor; eauto. Qed.

(* the locks a call is filling are the ones on its stack, in falling order *)
Definition rank (l : lock) : nat := match l with LBase => 1 | _ => 0 end.
Fixpoint ranked (b : nat) (p : prog) : Prop :=      (* waits only for locks of rank below b *)
  match p with
  | Ret _ | Crash => True
  | Fetch _ k => forall v, ranked b (k v)
  | Var _ k => forall v, ranked b (k v)
  | Any k => forall v, ranked b (k v)
  | Once l i k => (rank l < b)%nat /\ ranked (rank l) i /\ forall v, ranked b (k v)
  end.
Fixpoint stack_ranked (b : nat) (st : list (lock * (N -> prog))) : Prop :=
  match st with
  | [] => b = 2%nat
  | (l, k) :: st => rank l = b /\ exists b', (b < b')%nat /\ (forall v, ranked b' (k v)) /\ stack_ranked b' st
  end.
Definition thread_ranked (th : thread) : Prop := match th with Run p st => exists b, ranked b p /\ stack_ranked b st | _ => True end.
Definition holds (th : thread) (l : lock) : Prop := match th with Run _ st => In l (map fst st) | _ => False end.
Record inv (s : state) : Prop := {
  i_rank : forall t, thread_ranked (s_thr s t);
  i_hold : forall t l, holds (s_thr s t) l <-> s_lock s l = Filling t }.

Lemma stack_above b st l : stack_ranked b st -> In l (map fst st) -> (b <= rank l)%nat.
Proof.
  revert b. induction st as [|[x k] st IH]; intros b H I; [contradiction|]. destruct H as (E & b' & Hb & _ & H). destruct I as [<-|I]; [cbn; lia|]. specialize (IH _ H I). lia.
Qed.
Lemma unwind_in st : forall L l, In l (map fst st) -> unwind L st l = Empty.
Proof.
  induction st as [|[x k] st IH]; intros L l I; [contradiction|]. cbn [unwind]. destruct (in_dec lock_eq_dec l (map fst st)) as [J|J]; [apply IH; exact J|].
  destruct I as [<-|I]; [|contradiction]. cbn [fst] in *. clear IH. assert (K : forall st L, ~ In x (map fst st) -> unwind L st x = L x).
  { clear. induction st as [|[y k] st IH]; intros L H; [reflexivity|]. cbn [unwind]. rewrite IH by (intros I; apply H; right; exact I). apply upd_other. intros ->. apply H. left. reflexivity. }
  rewrite K by exact J. apply upd_same.
Qed.
Lemma unwind_out st : forall L l, ~ In l (map fst st) -> unwind L st l = L l.
Proof.
  induction st as [|[y k] st IH]; intros L l H; [reflexivity|]. cbn [unwind]. rewrite IH by (intros I; apply H; right; exact I). apply upd_other. intros ->. apply H. left. reflexivity.
Qed.

Lemma tstep_inv e r t L th L' th' : tstep e r t L th L' th' -> thread_ranked th -> (forall l, holds th l <-> L l = Filling t) ->
  thread_ranked th' /\ (forall l, holds th' l <-> L' l = Filling t) /\ (forall l u, u <> t -> L l = Filling u <-> L' l = Filling u).
Proof.
  intros S R H. destruct S as [L x k st|L name k st|L v k st|L l i k v st E|L l i k st E|L v l k st|L v|L st]; cbn [thread_ranked holds] in *.
  1,2,3: destruct R as (b & R & RS); split; [exists b; split; [apply R|exact RS]|split; [exact H|intros; reflexivity]].
  - destruct R as (b & (_ & _ & R) & RS). split; [exists b; split; [apply R|exact RS]|split; [exact H|intros; reflexivity]].
  - destruct R as (b & (Rb & Ri & R) & RS). split; [exists (rank l); split; [exact Ri|]; cbn; split; [reflexivity|exists b; auto]|]. split.
    + intros x. cbn [map fst In]. destruct (lock_eq_dec x l) as [->|N]; [rewrite upd_same; split; auto|]. rewrite upd_other by exact N. rewrite <- H. split; [intros [->|I]; [contradiction|exact I]|auto].
    + intros x u Hu. destruct (lock_eq_dec x l) as [->|N]; [rewrite upd_same, E; split; intros X; try discriminate; congruence|]. rewrite upd_other by exact N. reflexivity.
  - destruct R as (b & _ & Rb & b' & Hb & R & RS). split; [exists b'; split; [apply R|exact RS]|].
    assert (N : ~ In l (map fst st)). { intros I. pose proof (@stack_above _ _ _ RS I). lia. }
    assert (E : L l = Filling t) by (apply H; left; reflexivity). split.
    + intros x. destruct (lock_eq_dec x l) as [->|D]; [rewrite upd_same; split; [contradiction|discriminate]|]. rewrite upd_other by exact D. rewrite <- H. cbn. split; [auto|intros [X|X]; [congruence|exact X]].
    + intros x u Hu. destruct (lock_eq_dec x l) as [->|D]; [rewrite upd_same, E; split; intros X; try discriminate; congruence|]. rewrite upd_other by exact D. reflexivity.
  - split; [exact I|]. split; [exact H|intros; reflexivity].
  - split; [exact I|]. assert (K : forall l, ~ unwind L st l = Filling t).
    { intros l. destruct (in_dec lock_eq_dec l (map fst st)) as [J|J]; [rewrite unwind_in by exact J; discriminate|]. rewrite unwind_out by exact J. rewrite <- H. exact J. }
    split; [intros l; split; [contradiction|apply K]|]. intros l u Hu.
    destruct (in_dec lock_eq_dec l (map fst st)) as [J|J]; [rewrite unwind_in by exact J; apply H in J; rewrite J; split; intros X; try discriminate; congruence|]. rewrite unwind_out by exact J. reflexivity.
Qed.
Lemma step_inv s a s' : step s a s' -> inv s -> inv s'.
Proof.
  intros S [R H]. destruct S as [s t L' th' S|s name v|s x v]; [|split; assumption..].
  destruct (tstep_inv S (R t) (H t)) as (R' & H' & O). split; cbn [s_thr s_lock].
  - intros u. destruct (Nat.eqb_spec u t); [exact R'|apply R].
  - intros u l. destruct (Nat.eqb_spec u t) as [->|D]; [apply H'|]. rewrite H. apply O. exact D.
Qed.
Ltac rk := repeat match goal with
  | |- _ /\ _ => split
  | |- True => exact I
  | |- (_ < _)%nat => cbn; lia
  | |- forall _, _ => intros ?
  | |- ranked _ (if ?b then _ else _) => destruct b
  | |- ranked _ (match ?x with _ => _ end) => destruct x
  | |- ranked _ _ => progress cbn [ranked]
  end.
Lemma code_ranked W checks c : ranked 2 (code W checks c).
Proof. destruct c; unfold code, q_decide, q_forward, q_base, q_should, q_pick, q_threshold, q_cache, q_work, q_block, q_threads, q_calibrated; rk. Qed.
Lemma init_inv W checks e calls : inv (init W checks e calls).
Proof. split; cbn; [intros t; exists 2%nat; split; [apply code_ranked|reflexivity]|]. intros t l. split; [contradiction|discriminate]. Qed.
Lemma steps_inv s l s' : steps s l s' -> inv s -> inv s'.
Proof. induction 1; eauto using step_inv. Qed.
Lemma reach_inv W checks calls s : reachable W checks calls s -> inv s.
Proof. intros (e & l & S). exact (steps_inv S (init_inv W checks e calls)). Qed.

(* full locks stay as they are *)
Lemma tstep_full e r t L th L' th' l v : tstep e r t L th L' th' -> (forall l, holds th l -> L l = Filling t) -> L l = Full v -> L' l = Full v.
Proof.
  intros S H F. destruct S as [| | | |L x i k st E|L w x k st| |L st]; try exact F.
  - rewrite upd_other; [exact F|]. intros ->. congruence.
  - rewrite upd_other; [exact F|]. intros ->. specialize (H x (or_introl eq_refl)). congruence.
  - rewrite unwind_out; [exact F|]. intros I. specialize (H l I). congruence.
Qed.
Lemma steps_full s l s' x v : steps s l s' -> inv s -> s_lock s x = Full v -> s_lock s' x = Full v.
Proof.
  induction 1 as [s|s a s1 l s2 S1 S2 IH]; intros I F; [exact F|]. apply IH; [exact (step_inv S1 I)|]. destruct S1 as [s t L' th' S1| |]; [|exact F..].
  cbn [s_lock]. eapply tstep_full; [exact S1| |exact F]. intros y Hy. apply (i_hold I). exact Hy.
Qed.

(* what a call returns, given the values of the locks *)
Section Eval.
Variable r : reg -> N.
Variable V : lock -> N.
Fixpoint eval (p : prog) : option N :=
  match p with
  | Ret v => Some v
  | Fetch x k => eval (k (r x))
  | Once l _ k => eval (k (V l))
  | Crash | Var _ _ | Any _ => None
  end.
Fixpoint outer (p : prog) (st : list (lock * (N -> prog))) : option N :=
  match st with [] => eval p | (l, k) :: st => outer (k (V l)) st end.
End Eval.
Fixpoint direct (p : prog) : Prop :=       (* asks the environment only inside initialisers *)
  match p with
  | Ret _ | Crash => True
  | Fetch _ k => forall v, direct (k v)
  | Once _ _ k => forall v, direct (k v)
  | Var _ _ | Any _ => False
  end.
Fixpoint bottom (p : prog) (st : list (lock * (N -> prog))) : Prop :=
  match st with [] => direct p | (_, k) :: st => forall v, bottom (k v) st end.
Definition bottom_t (th : thread) : Prop := match th with Run p st => bottom p st | _ => True end.
Lemma bottom_change p p' x st : bottom p (x :: st) -> bottom p' (x :: st).
Proof. destruct x. exact (fun H => H). Qed.
Lemma tstep_bottom e r t L th L' th' : tstep e r t L th L' th' -> bottom_t th -> bottom_t th'.
Proof.
  intros S B. destruct S as [L x k st|L name k st|L v k st|L l i k v st E|L l i k st E|L v l k st|L v|L st]; cbn [bottom_t] in *; try exact I.
  - destruct st as [|[y k'] st]; [apply B|exact B].
  - destruct st as [|[y k'] st]; [contradiction B|exact B].
  - destruct st as [|[y k'] st]; [contradiction B|exact B].
  - destruct st as [|[y k'] st]; [apply B|exact B].
  - cbn [bottom]. intros v. destruct st as [|[y k'] st]; [apply B|exact B].
  - apply B.
Qed.
Definition value_t r V (th : thread) : option N := match th with Run p st => outer r V p st | Fin v => Some v | Dead => None end.
Lemma tstep_value e r V t L th L' th' : tstep e r t L th L' th' -> bottom_t th -> (forall l v, L' l = Full v -> V l = v) -> (forall l v, L l = Full v -> V l = v) -> th' <> Dead ->
  value_t r V th' = value_t r V th.
Proof.
  intros S B H' H D. destruct S as [L x k st|L name k st|L v k st|L l i k v st E|L l i k st E|L v l k st|L v|L st]; cbn [value_t bottom_t] in *.
  - destruct st as [|[y k'] st]; reflexivity.
  - destruct st as [|[y k'] st]; [contradiction B|reflexivity].
  - destruct st as [|[y k'] st]; [contradiction B|reflexivity].
  - destruct st as [|[y k'] st]; [|reflexivity]. cbn. rewrite (H _ _ E). reflexivity.
  - cbn [outer]. destruct st as [|[y k'] st]; reflexivity.
  - cbn [outer]. rewrite (H' l v (upd_same L l (Full v))). reflexivity.
  - reflexivity.
  - congruence.
Qed.
Definition no_setter (l : list act) : Prop := ~ In Setter l.
Lemma steps_value V s l s' t : steps s l s' -> no_setter l -> inv s -> bottom_t (s_thr s t) -> (forall x v, s_lock s' x = Full v -> V x = v) -> s_thr s' t <> Dead ->
  value_t (s_reg s) V (s_thr s' t) = value_t (s_reg s) V (s_thr s t).
Proof.
  induction 1 as [s|s a s1 l s2 S1 S2 IH]; intros N I B F D; [reflexivity|].
  assert (I1 : inv s1) by exact (step_inv S1 I). assert (N1 : no_setter l) by (intros X; apply N; right; exact X).
  assert (E : s_reg s1 = s_reg s /\ bottom_t (s_thr s1 t) /\ (s_thr s1 t <> Dead -> value_t (s_reg s) V (s_thr s1 t) = value_t (s_reg s) V (s_thr s t))).
  { destruct S1 as [s u L' th' S1|s name v|s x v]; [|split; [reflexivity|split; [exact B|reflexivity]]|exfalso; apply N; left; reflexivity].
    cbn [s_thr s_reg]. split; [reflexivity|]. destruct (Nat.eqb_spec t u) as [->|D']; [|split; [exact B|reflexivity]]. split; [exact (tstep_bottom S1 B)|]. intros D1.
    eapply tstep_value; [exact S1|exact B| | |exact D1].
    - intros x v Hx. apply F. eapply steps_full; [exact S2|exact I1|exact Hx].
    - intros x v Hx. apply F. eapply steps_full; [|exact I|exact Hx]. econstructor; [econstructor; exact S1|exact S2]. }
  destruct E as (Er & B1 & E). assert (D1 : s_thr s1 t <> Dead).
  { intros X. apply D. clear - S2 X. induction S2 as [s|s a s1 l s2 S1 S2 IH]; [exact X|]. apply IH. destruct S1 as [s u L' th' S1| |]; [|exact X..]. cbn [s_thr].
    destruct (Nat.eqb_spec t u) as [->|]; [|exact X]. rewrite X in S1. inversion S1. }
  rewrite <- (E D1). rewrite <- Er. apply IH; try assumption.
Qed.
Ltac dr := repeat match goal with
  | |- True => exact I
  | |- forall _, _ => intros ?
  | |- direct (if ?b then _ else _) => destruct b
  | |- direct (match ?x with _ => _ end) => destruct x
  | |- direct _ => first [exact I | progress cbn [direct]]
  end.
Lemma code_direct W checks c : direct (code W checks c).
Proof. destruct c; unfold code, q_decide, q_forward, q_base, q_should, q_pick, q_threshold, q_cache, q_work, q_block, q_threads, q_calibrated; dr. Qed.

(* ---------- theorems ---------- *)
(* a lock keeps the first value it gets, whatever happens afterwards *)
Theorem C96_once : forall W checks calls s l s' x v, reachable W checks calls s -> steps s l s' -> s_lock s x = Full v -> s_lock s' x = Full v.
Proof. intros W checks calls s l s' x v R S F. eapply steps_full; [exact S|exact (reach_inv R)|exact F]. Qed.
Print Assumptions C96_once.

(* Two calls of the same length that start at or after some moment and return without a setter being called in between make the same
   choice, in whatever order the accesses of all calls happen and however the environment changes meanwhile. *)
Theorem C96_agreement : forall W checks calls s l s' n i j a b,
  reachable W checks calls s -> s_thr s i = Run (code W checks (CDecide n)) [] -> s_thr s j = Run (code W checks (CDecide n)) [] ->
  steps s l s' -> ~ In Setter l -> s_thr s' i = Fin a -> s_thr s' j = Fin b -> a = b.
Proof.
  intros W checks calls s l s' n i j a b R Hi Hj S N Fa Fb. pose proof (reach_inv R) as I.
  set (V := fun x => match s_lock s' x with Full v => v | _ => 0 end).
  assert (F : forall x v, s_lock s' x = Full v -> V x = v) by (intros x v E; unfold V; rewrite E; reflexivity).
  pose proof (@steps_value V _ _ _ i S N I) as Ei. pose proof (@steps_value V _ _ _ j S N I) as Ej.
  rewrite Hi, Fa in Ei. rewrite Hj, Fb in Ej. cbn [value_t bottom_t] in Ei, Ej.
  assert (B : bottom (code W checks (CDecide n)) []) by apply code_direct.
  specialize (Ei B F ltac:(discriminate)). specialize (Ej B F ltac:(discriminate)). congruence.
Qed.
Print Assumptions C96_agreement.

(* no deadlock: while some call is not over, some call can go on *)
Theorem C96_progress : forall W checks calls s t, reachable W checks calls s -> ~ over (s_thr s t) -> exists u s', step s (Access u) s'.
Proof.
  intros W checks calls s t R. pose proof (reach_inv R) as [IR IH].
  assert (G : forall b t, (exists p st b', s_thr s t = Run p st /\ ranked b' p /\ stack_ranked b' st /\ (b' <= b)%nat) -> exists u s', step s (Access u) s').
  { induction b as [b IHb] using lt_wf_ind. intros u (p & st & b' & E & Rp & Rs & Hb).
    assert (K : (exists L' th', tstep (s_env s) (s_reg s) u (s_lock s) (s_thr s u) L' th') \/ exists l w, (rank l < b')%nat /\ s_lock s l = Filling w).
    { rewrite E. destruct p as [v| |x k|name k|k|l i k].
      - left. destruct st as [|[l k] st]; eexists _, _; constructor.
      - left. eexists _, _; constructor.
      - left. eexists _, _; constructor.
      - left. eexists _, _; constructor.
      - left. eexists _, _; apply t_any with (v := 0).
      - destruct (s_lock s l) as [|w|v] eqn:El; [left; eexists _, _; apply t_enter; exact El|right; exists l, w; split; [apply Rp|exact El]|left; eexists _, _; eapply t_full; exact El]. }
    destruct K as [(L' & th' & K)|(l & w & Hl & El)]; [exists u; eexists; constructor; exact K|].
    apply IH in El. specialize (IR w). unfold holds in El. destruct (s_thr s w) as [p' st'| |] eqn:Ew; [|contradiction..]. destruct IR as (c & Rp' & Rs').
    pose proof (@stack_above _ _ _ Rs' El) as Hc. apply (IHb (rank l)) with (t := w); [lia|]. exists p', st', c. auto. }
  intros H. specialize (IR t). destruct (s_thr s t) as [p st| |] eqn:E; [|exfalso; apply H; exact I..]. destruct IR as (b & Rp & Rs). apply (G b t). exists p, st, b. auto.
Qed.
Print Assumptions C96_progress.

(* every call ends after at most 43 accesses, so with C96_progress every schedule that never stops short completes all its calls *)
Fixpoint fits (p : prog) (m : nat) : Prop :=
  match p with
  | Ret _ | Crash => (1 <= m)%nat
  | Fetch _ k => exists a, (S a <= m)%nat /\ forall v, fits (k v) a
  | Var _ k => exists a, (S a <= m)%nat /\ forall v, fits (k v) a
  | Any k => exists a, (S a <= m)%nat /\ forall v, fits (k v) a
  | Once _ i k => exists a b, (S (a + b) <= m)%nat /\ fits i a /\ forall v, fits (k v) b
  end.
Fixpoint fits_st (st : list (lock * (N -> prog))) (m : nat) : Prop :=
  match st with [] => True | (_, k) :: st => exists a b, (a + b <= m)%nat /\ (forall v, fits (k v) a) /\ fits_st st b end.
Definition fits_t (th : thread) (m : nat) : Prop := match th with Run p st => exists a b, (a + b <= m)%nat /\ fits p a /\ fits_st st b | _ => True end.
Lemma tstep_fits e r t L th L' th' m : tstep e r t L th L' th' -> fits_t th m -> (1 <= m)%nat /\ fits_t th' (m - 1).
Proof.
  intros S F. destruct S as [L x k st|L name k st|L v k st|L l i k v st E|L l i k st E|L v l k st|L v|L st]; cbn [fits_t] in *; destruct F as (a & b & H & F & G); cbn [fits] in F.
  1,2,3: destruct F as (a' & Ha & F); split; [lia|]; exists a', b; split; [lia|]; split; [apply F|exact G].
  - destruct F as (a1 & a2 & Ha & _ & F). split; [lia|]. exists a2, b. split; [lia|]. split; [apply F|exact G].
  - destruct F as (a1 & a2 & Ha & Fi & F). split; [lia|]. exists a1, (a2 + b)%nat. split; [lia|]. split; [exact Fi|]. cbn. exists a2, b. auto.
  - destruct G as (b1 & b2 & Hb & Gk & G). split; [lia|]. exists b1, b2. split; [lia|]. split; [apply Gk|exact G].
  - split; [lia|exact I].
  - split; [lia|exact I].
Qed.
Lemma steps_fits s l s' t m : steps s l s' -> fits_t (s_thr s t) m -> (accesses t l <= m)%nat.
Proof.
  intros S. revert m. induction S as [s|s a s1 l s2 S1 S2 IH]; intros m F; [cbn; lia|].
  destruct S1 as [s u L' th' S1|s name v|s x v]; cbn [s_thr] in IH; try (apply IH; exact F).
  unfold accesses in *. cbn [filter]. destruct (Nat.eqb_spec u t) as [->|D].
  - destruct (@tstep_fits _ _ _ _ _ _ _ _ S1 F) as [Hm F']. rewrite Nat.eqb_refl in IH. specialize (IH _ F'). cbn [List.length]. lia.
  - destruct (Nat.eqb_spec t u) as [->|]; [contradiction|]. apply IH. exact F.
Qed.
Section Fits.
Variables (W : N) (checks : bool).
Lemma fits_threshold b k : (forall v, fits (k v) b) -> fits (q_threshold W k) (3 + b).
Proof. intros H. exists 2%nat, b. split; [lia|]. split; [|exact H]. exists 1%nat. split; [lia|]. intros v. cbn. lia. Qed.
Lemma fits_cache b k : (forall v, fits (k v) b) -> fits (q_cache W k) (3 + b).
Proof. intros H. exists 2%nat, b. split; [lia|]. split; [|exact H]. exists 1%nat. split; [lia|]. intros v. cbn. lia. Qed.
Lemma fits_work b k : (forall v, fits (k v) b) -> fits (q_work W k) (3 + b).
Proof. intros H. exists 2%nat, b. split; [lia|]. split; [|exact H]. exists 1%nat. split; [lia|]. intros v. cbn. lia. Qed.
Lemma fits_block b k : (forall v, fits (k v) b) -> fits (q_block W k) (3 + b).
Proof. intros H. exists 2%nat, b. split; [lia|]. split; [|exact H]. exists 1%nat. split; [lia|]. intros v. cbn. lia. Qed.
Lemma fits_threads b k : (forall v, fits (k v) b) -> fits (q_threads W k) (4 + b).
Proof.
  intros H. exists 3%nat, b. split; [lia|]. split; [|exact H]. exists 2%nat. split; [lia|].
  intros v. destruct v as [s|]; [destruct (parse_usize W s)|]; [cbn; lia|exists 1%nat; split; [lia|intros; cbn; lia]..].
Qed.
Lemma fits_calibrated b k : (forall v, fits (k v) b) -> fits (q_calibrated W checks k) (3 + b).
Proof.
  intros H. exists 2%nat, b. split; [lia|]. split; [|exact H]. exists 1%nat. split; [lia|]. intros v. cbv zeta. destruct (umul _ _ _ _) as [e|]; [|cbn; lia].
  destruct (_ =? 0); cbn; lia.
Qed.
Lemma fits_le p : forall m m', (m <= m')%nat -> fits p m -> fits p m'.
Proof.
  induction p as [v| |x k IH|x k IH|k IH|l i IHi k IH]; cbn; intros m m' H; [lia|lia|..].
  1,2,3: intros (a & Ha & F); exists a; split; [lia|exact F].
  intros (a & b & Ha & F). exists a, b. split; [lia|exact F].
Qed.
Lemma fits_pick x f b d k : (forall k b, (forall v, fits (k v) b) -> fits (f k) (d + b)) -> (forall v, fits (k v) b) -> fits (q_pick x f k) (1 + d + b).
Proof.
  intros Hf H. exists (d + b)%nat. split; [lia|]. intros v. destruct (negb (v =? 0)); [|apply Hf; exact H]. eapply fits_le; [|apply H]. lia.
Qed.
Lemma fits_base b k : (forall v, fits (k v) b) -> fits (q_base W checks k) (21 + b).
Proof.
  intros H. exists 20%nat, b. split; [lia|]. split; [|exact H]. apply (fits_threshold 17). intros thr. destruct (negb (thr =? 0)); [cbn; lia|].
  apply (fits_cache 14). intros bytes. apply (fits_work 11). intros work. apply (fits_calibrated 8). intros cal.
  apply (fits_block 5). intros block. apply (fits_threads 1). intros th. destruct (umul _ _ _ _); cbn; lia.
Qed.
Lemma fits_code c : fits (code W checks c) 43.
Proof.
  destruct c as [n|].
  - apply (fits_base 22). intros base. exists 21%nat. split; [lia|]. intros o. cbv zeta. destruct (o =? 0) eqn:Eo; cbn [negb]; [|rewrite Eo; cbn; lia].
    destruct (negb (base =? 0)); [cbn; lia|].
    apply (@fits_pick _ _ 17%nat 3%nat); [intros; apply fits_cache; assumption|]. intros bytes. apply (@fits_pick _ _ 13%nat 3%nat); [intros; apply fits_work; assumption|]. intros work.
    apply (fits_calibrated 10). intros cal. apply (@fits_pick _ _ 6%nat 3%nat); [intros; apply fits_block; assumption|]. intros block.
    apply (@fits_pick _ _ 1%nat 4%nat); [intros; apply fits_threads; assumption|]. intros th. destruct (umul _ _ _ _); cbn; lia.
  - eapply fits_le; [|apply (fits_base 1); intros; cbn; lia]. lia.
Qed.
End Fits.
Theorem C96_bounded : forall W checks e calls l s t, steps (init W checks e calls) l s -> (accesses t l <= 43)%nat.
Proof.
  intros W checks e calls l s t S. eapply steps_fits; [exact S|]. exists 43%nat, 0%nat. split; [lia|]. split; [apply fits_code|exact I].
Qed.
Print Assumptions C96_bounded.

(* ---------- one call alone behaves as M_tune.decide ---------- *)
Inductive tstar (e : string -> option string) (r : reg -> N) (t : nat) : (lock -> cell) -> thread -> (lock -> cell) -> thread -> Prop :=
  | ts_nil L th : tstar e r t L th L th
  | ts_cons L th L1 th1 L2 th2 : tstep e r t L th L1 th1 -> tstar e r t L1 th1 L2 th2 -> tstar e r t L th L2 th2.
Lemma tstar_app e r t L th L1 th1 L2 th2 : tstar e r t L th L1 th1 -> tstar e r t L1 th1 L2 th2 -> tstar e r t L th L2 th2.
Proof. induction 1; [auto|]. intros H'. econstructor; eauto. Qed.
Definition of_opt (o : option N) : cell := match o with Some v => Full v | None => Empty end.
Definition cells (p : proc) (l : lock) : cell :=
  of_opt match l with LThr => l_thr p | LCache => l_cache p | LWork => l_work p | LBlock => l_block p | LThreads => l_threads p | LCalib => l_calib p | LBase => l_base p end.
Definition overrides (p : proc) (x : reg) : N := match x with RThr => o_thr p | RCache => o_cache p | RWork => o_work p | RBlock => o_block p | RThreads => o_threads p end.
Section Seq.
Variables (W : N) (checks : bool) (cpus nanos : N) (p0 : proc) (t : nat) (B : option N).
Let e := env p0.
Let r := overrides p0.
(* p differs from p0 only in its locks; the cells hold p's locks except for LBase, which is c where p has B *)
Definition sim (L : lock -> cell) (c : cell) (p : proc) : Prop :=
  env p = e /\ (forall x, overrides p x = r x) /\ l_base p = B /\ (forall x, x <> LBase -> L x = cells p x) /\ L LBase = c.
Ltac sim_env L l Lk E H H3 :=
  destruct (Lk) as [v|] eqn:E;
  [eexists; split; [eapply ts_cons; [apply t_full; rewrite H3 by discriminate; unfold cells; rewrite E; reflexivity|apply ts_nil]|exact H]
  |eexists (upd (upd L l (Filling t)) l (Full _)); split;
   [eapply ts_cons; [apply t_enter; rewrite H3 by discriminate; unfold cells; rewrite E; reflexivity|]; eapply ts_cons; [apply t_var|]; eapply ts_cons; [apply t_fill|apply ts_nil]
   |]].
Ltac sim_done H1 H2 H3 H4 H5 :=
  split; [first [exact H1|reflexivity]|split; [intros x; rewrite <- H2; destruct x; reflexivity|split; [exact H3|split; [intros x Hx; destruct x; try congruence; cbn; try (rewrite H4 by discriminate); reflexivity|exact H5]]]].
Lemma sim_threshold L c p k st : sim L c p -> exists L', tstar e r t L (Run (q_threshold W k) st) L' (Run (k (snd (env_threshold W p))) st) /\ sim L' c (fst (env_threshold W p)).
Proof.
  intros H. pose proof H as (H1 & H2 & H3 & H4 & H5). unfold env_threshold, read. rewrite H1.
  sim_env L LThr (l_thr p) E H H4. cbn [fst]. sim_done H1 H2 H3 H4 H5.
Qed.
Lemma sim_cache L c p k st : sim L c p -> exists L', tstar e r t L (Run (q_cache W k) st) L' (Run (k (snd (env_cache_bytes W p))) st) /\ sim L' c (fst (env_cache_bytes W p)).
Proof.
  intros H. pose proof H as (H1 & H2 & H3 & H4 & H5). unfold env_cache_bytes, read. rewrite H1.
  sim_env L LCache (l_cache p) E H H4. cbn [fst]. sim_done H1 H2 H3 H4 H5.
Qed.
Lemma sim_work L c p k st : sim L c p -> exists L', tstar e r t L (Run (q_work W k) st) L' (Run (k (snd (env_per_core_work W p))) st) /\ sim L' c (fst (env_per_core_work W p)).
Proof.
  intros H. pose proof H as (H1 & H2 & H3 & H4 & H5). unfold env_per_core_work, read. rewrite H1.
  sim_env L LWork (l_work p) E H H4. cbn [fst]. sim_done H1 H2 H3 H4 H5.
Qed.
Lemma sim_block L c p k st : sim L c p -> exists L', tstar e r t L (Run (q_block W k) st) L' (Run (k (snd (env_block_size W p))) st) /\ sim L' c (fst (env_block_size W p)).
Proof.
  intros H. pose proof H as (H1 & H2 & H3 & H4 & H5). unfold env_block_size, read. rewrite H1.
  sim_env L LBlock (l_block p) E H H4. cbn [fst]. sim_done H1 H2 H3 H4 H5.
Qed.
Lemma sim_threads L c p k st : sim L c p -> exists L', tstar e r t L (Run (q_threads W k) st) L' (Run (k (snd (env_threads W cpus p))) st) /\ sim L' c (fst (env_threads W cpus p)).
Proof.
  intros H. pose proof H as (H1 & H2 & H3 & H4 & H5). unfold env_threads, read. rewrite H1.
  destruct (l_threads p) as [v|] eqn:E.
  - eexists; split; [eapply ts_cons; [apply t_full; rewrite H4 by discriminate; unfold cells; rewrite E; reflexivity|apply ts_nil]|exact H].
  - set (val := match e "KOFFT_PAR_FFT_THREADS" with Some v => match parse_usize W v with Some n => n | None => N.max cpus 1 end | None => N.max cpus 1 end).
    exists (upd (upd L LThreads (Filling t)) LThreads (Full val)). split.
    + eapply ts_cons; [apply t_enter; rewrite H4 by discriminate; unfold cells; rewrite E; reflexivity|]. eapply ts_cons; [apply t_var|]. unfold val. cbn [snd].
      destruct (e "KOFFT_PAR_FFT_THREADS") as [s|]; [destruct (parse_usize W s)|].
      * eapply ts_cons; [apply t_fill|apply ts_nil].
      * eapply ts_cons; [apply (t_any _ _ _ _ cpus)|]. eapply ts_cons; [apply t_fill|apply ts_nil].
      * eapply ts_cons; [apply (t_any _ _ _ _ cpus)|]. eapply ts_cons; [apply t_fill|apply ts_nil].
    + cbn [fst]. sim_done H1 H2 H3 H4 H5.
Qed.
Lemma unwind_ext st : forall L L' x, (L x = L' x) -> unwind L st x = unwind L' st x.
Proof.
  intros L L' x E. destruct (in_dec lock_eq_dec x (map fst st)) as [J|J]; [rewrite !unwind_in by exact J; reflexivity|rewrite !unwind_out by exact J; exact E].
Qed.
Lemma sim_calibrated L c p k st : sim L c p -> ~ In LCalib (map fst st) ->
  match snd (calibrated W checks nanos p) with
  | Some v => exists L', tstar e r t L (Run (q_calibrated W checks k) st) L' (Run (k v) st) /\ sim L' c (fst (calibrated W checks nanos p))
  | None => fst (calibrated W checks nanos p) = p /\ exists L', tstar e r t L (Run (q_calibrated W checks k) st) L' Dead /\ forall x, L' x = unwind L st x
  end.
Proof.
  intros H N. pose proof H as (H1 & H2 & H3 & H4 & H5). unfold calibrated. destruct (l_calib p) as [v|] eqn:E; cbn [fst snd].
  { eexists; split; [eapply ts_cons; [apply t_full; rewrite H4 by discriminate; unfold cells; rewrite E; reflexivity|apply ts_nil]|exact H]. }
  assert (E0 : L LCalib = Empty) by (rewrite H4 by discriminate; unfold cells; rewrite E; reflexivity).
  assert (C : forall L1, L1 = unwind (upd L LCalib (Filling t)) ((LCalib, k) :: st) -> forall x, L1 x = unwind L st x).
  { intros L1 -> x. cbn [unwind]. apply unwind_ext. destruct (lock_eq_dec x LCalib) as [->|D]; [rewrite upd_same, E0; reflexivity|rewrite !upd_other by exact D; reflexivity]. }
  set (el := N.max nanos 1 mod umax W).
  destruct (umul W checks (1048576 / 8) 1000000000) as [q|] eqn:U; [destruct (el =? 0) eqn:Z|]; cbn [fst snd].
  - split; [reflexivity|]. eexists. split; [|apply C; reflexivity]. eapply ts_cons; [apply t_enter; exact E0|]. eapply ts_cons; [apply (t_any _ _ _ _ nanos)|]. cbv zeta. rewrite U. fold el. rewrite Z.
    eapply ts_cons; [apply t_crash|apply ts_nil].
  - exists (upd (upd L LCalib (Filling t)) LCalib (Full (N.max (q / el) 4096))). split.
    + eapply ts_cons; [apply t_enter; exact E0|]. eapply ts_cons; [apply (t_any _ _ _ _ nanos)|]. cbv zeta. rewrite U. fold el. rewrite Z. eapply ts_cons; [apply t_fill|apply ts_nil].
    + sim_done H1 H2 H3 H4 H5.
  - split; [reflexivity|]. eexists. split; [|apply C; reflexivity]. eapply ts_cons; [apply t_enter; exact E0|]. eapply ts_cons; [apply (t_any _ _ _ _ nanos)|]. cbv zeta. rewrite U.
    eapply ts_cons; [apply t_crash|apply ts_nil].
Qed.
Lemma sim_all L p : sim L (of_opt B) p -> forall x, L x = cells p x.
Proof. intros (_ & _ & H3 & H4 & H5) x. destruct (lock_eq_dec x LBase) as [->|D]; [rewrite H5; unfold cells; rewrite H3; reflexivity|apply H4; exact D]. Qed.
Lemma sim_pick x (q : (N -> prog) -> prog) (f : proc -> proc * N) L c p k st :
  (forall L, sim L c p -> exists L', tstar e r t L (Run (q k) st) L' (Run (k (snd (f p))) st) /\ sim L' c (fst (f p))) ->
  sim L c p -> exists L', tstar e r t L (Run (q_pick x q k) st) L' (Run (k (snd (pick (overrides p x) f p))) st) /\ sim L' c (fst (pick (overrides p x) f p)).
Proof.
  intros Hf H. pose proof H as (H1 & H2 & H3 & H4 & H5). unfold q_pick, pick. rewrite H2. destruct (r x =? 0) eqn:E; cbn [negb fst snd].
  - destruct (Hf L H) as (L' & S & H'). exists L'. split; [|exact H']. eapply ts_cons; [apply t_load|]. cbv beta. rewrite E. cbn [negb]. exact S.
  - exists L. split; [|exact H]. eapply ts_cons; [apply t_load|]. cbv beta. rewrite E. cbn [negb]. apply ts_nil.
Qed.
Definition outcome (o : option bool) : thread := match o with Some b => Fin (N.b2n b) | None => Dead end.
Lemma sim_should n base L p : sim L (of_opt B) p -> exists L', tstar e r t L (Run (q_should W checks n base) []) L' (outcome (snd (should_parallelize W checks cpus nanos n base p))) /\
  forall x, L' x = cells (fst (should_parallelize W checks cpus nanos n base p)) x.
Proof.
  intros H. pose proof H as (H1 & H2 & H3 & H4 & H5). unfold q_should, should_parallelize. change (o_thr p) with (overrides p RThr). rewrite H2.
  set (th := if negb (r RThr =? 0) then r RThr else base).
  assert (G : exists L', tstar e r t L (Run (if negb (th =? 0) then Ret (N.b2n (th <=? n))
    else q_pick RCache (q_cache W) (fun bytes => q_pick RWork (q_work W) (fun work => q_calibrated W checks (fun cal =>
      q_pick RBlock (q_block W) (fun block => q_pick RThreads (q_threads W) (fun threads =>
        match umul W checks (N.max (bytes / 8) (N.max (N.max work cal) block)) threads with None => Crash | Some t => Ret (N.b2n (t <=? n)) end)))))) []) L'
    (outcome (snd (should_parallelize W checks cpus nanos n base p))) /\ forall x, L' x = cells (fst (should_parallelize W checks cpus nanos n base p)) x).
  2:{ destruct G as (L' & S & G). unfold should_parallelize in S, G. change (o_thr p) with (overrides p RThr) in S, G. rewrite H2 in S, G. exists L'. split; [|exact G]. eapply ts_cons; [apply t_load|]. exact S. }
  unfold should_parallelize. change (o_thr p) with (overrides p RThr). rewrite H2. fold th. destruct (negb (th =? 0)).
  { exists L. split; [eapply ts_cons; [apply t_ret|apply ts_nil]|apply sim_all; exact H]. }
  destruct (@sim_pick RCache (q_cache W) (env_cache_bytes W) L _ p (fun bytes => q_pick RWork (q_work W) (fun work => q_calibrated W checks (fun cal =>
      q_pick RBlock (q_block W) (fun block => q_pick RThreads (q_threads W) (fun threads =>
        match umul W checks (N.max (bytes / 8) (N.max (N.max work cal) block)) threads with None => Crash | Some t => Ret (N.b2n (t <=? n)) end))))) [] ltac:(intros; apply sim_cache; assumption) H) as (L1 & S1 & G1).
  change (overrides p RCache) with (o_cache p) in S1, G1. destruct (pick (o_cache p) (env_cache_bytes W) p) as [p1 bytes]. cbn [fst snd] in S1, G1.
  match type of S1 with tstar _ _ _ _ _ _ (Run (q_pick _ _ ?k) _) => destruct (@sim_pick RWork (q_work W) (env_per_core_work W) L1 _ p1 k [] ltac:(intros; apply sim_work; assumption) G1) as (L2 & S2 & G2) end.
  change (overrides p1 RWork) with (o_work p1) in S2, G2. destruct (pick (o_work p1) (env_per_core_work W) p1) as [p2 work]. cbn [fst snd] in S2, G2.
  match type of S2 with tstar _ _ _ _ _ _ (Run (q_calibrated _ _ ?k) _) => pose proof (@sim_calibrated L2 _ p2 k [] G2 ltac:(intros [])) as S3 end.
  destruct (calibrated W checks nanos p2) as [p3 [cal|]]; cbn [fst snd] in S3.
  2:{ destruct S3 as (E3 & L3 & S3 & G3). exists L3. split; [eapply tstar_app; [exact S1|]; eapply tstar_app; [exact S2|]; exact S3|]. cbn [fst]. intros x. rewrite G3, E3. cbn [unwind]. apply sim_all. exact G2. }
  destruct S3 as (L3 & S3 & G3).
  match type of S3 with tstar _ _ _ _ _ _ (Run (q_pick _ _ ?k) _) => destruct (@sim_pick RBlock (q_block W) (env_block_size W) L3 _ p3 k [] ltac:(intros; apply sim_block; assumption) G3) as (L4 & S4 & G4) end.
  change (overrides p3 RBlock) with (o_block p3) in S4, G4. destruct (pick (o_block p3) (env_block_size W) p3) as [p4 block]. cbn [fst snd] in S4, G4.
  match type of S4 with tstar _ _ _ _ _ _ (Run (q_pick _ _ ?k) _) => destruct (@sim_pick RThreads (q_threads W) (env_threads W cpus) L4 _ p4 k [] ltac:(intros; apply sim_threads; assumption) G4) as (L5 & S5 & G5) end.
  change (overrides p4 RThreads) with (o_threads p4) in S5, G5. destruct (pick (o_threads p4) (env_threads W cpus) p4) as [p5 threads]. cbn [fst snd] in S5, G5.
  exists L5. split.
  - do 5 (eapply tstar_app; [eassumption|]). destruct (umul _ _ _ _) as [m|]; cbn [snd outcome]; (eapply ts_cons; [constructor|apply ts_nil]).
  - intros x. rewrite (sim_all G5). destruct (umul _ _ _ _); reflexivity.
Qed.
End Seq.
Theorem C96_sequential : forall W checks cpus nanos n p t,
  exists L', tstar (env p) (overrides p) t (cells p) (Run (code W checks (CDecide n)) []) L' (outcome (snd (decide W checks cpus nanos n p))) /\
    forall x, L' x = cells (fst (decide W checks cpus nanos n p)) x.
Proof.
  intros W checks cpus nanos n p t. unfold decide, base_threshold. cbn [code]. unfold q_decide.
  destruct (l_base p) as [v|] eqn:E.
  { assert (H : sim p (Some v) (cells p) (of_opt (Some v)) p) by (repeat split; auto; unfold cells; rewrite E; reflexivity).
    destruct (@sim_should W checks cpus nanos p t (Some v) n v (cells p) p H) as (L' & S & G). exists L'. split; [|exact G].
    eapply ts_cons; [apply t_full; unfold cells; rewrite E; reflexivity|exact S]. }
  set (K := q_should W checks n).
  assert (H : sim p None (upd (cells p) LBase (Filling t)) (Filling t) p).
  { split; [reflexivity|split; [reflexivity|split; [exact E|split; [intros x Hx; apply upd_other; exact Hx|apply upd_same]]]]. }
  assert (E0 : cells p LBase = Empty) by (unfold cells; rewrite E; reflexivity).
  assert (F : forall L q v, sim p None L (Filling t) q -> sim p (Some v) (upd L LBase (Full v)) (of_opt (Some v)) (set_base q v)).
  { intros L q v (H1 & H2 & H3 & H4 & H5). split; [exact H1|split; [intros x; rewrite <- H2; destruct x; reflexivity|split; [reflexivity|split; [|apply upd_same]]]].
    intros x Hx. rewrite upd_other by exact Hx. rewrite H4 by exact Hx. destruct x; try reflexivity. congruence. }
  match goal with |- context [q_base W checks K] => unfold q_base end.
  match goal with |- context [Once LBase (q_threshold W ?k) K] => destruct (@sim_threshold W p t None _ _ p k [(LBase, K)] H) as (L1 & S1 & G1) end.
  destruct (env_threshold W p) as [p1 thr]. cbn [fst snd] in S1, G1. cbv beta in S1.
  destruct (negb (thr =? 0)) eqn:Z.
  { destruct (@sim_should W checks cpus nanos p t (Some thr) n thr _ _ (F _ _ thr G1)) as (L' & S & G). exists L'. split; [|exact G].
    eapply ts_cons; [apply t_enter; exact E0|]. eapply tstar_app; [exact S1|]. eapply ts_cons; [apply t_fill|exact S]. }
  match type of S1 with tstar _ _ _ _ _ _ (Run (q_cache _ ?k) _) => destruct (@sim_cache W p t None _ _ p1 k [(LBase, K)] G1) as (L2 & S2 & G2) end.
  destruct (env_cache_bytes W p1) as [p2 bytes]. cbn [fst snd] in S2, G2.
  match type of S2 with tstar _ _ _ _ _ _ (Run (q_work _ ?k) _) => destruct (@sim_work W p t None _ _ p2 k [(LBase, K)] G2) as (L3 & S3 & G3) end.
  destruct (env_per_core_work W p2) as [p3 work]. cbn [fst snd] in S3, G3.
  match type of S3 with tstar _ _ _ _ _ _ (Run (q_calibrated _ _ ?k) _) => pose proof (@sim_calibrated W checks nanos p t None _ _ p3 k [(LBase, K)] G3 ltac:(intros [X|[]]; discriminate)) as S4 end.
  assert (D : forall L q, sim p None L (Filling t) q -> forall x, unwind L [(LBase, K)] x = cells q x).
  { intros L q (H1 & H2 & H3 & H4 & H5) x. cbn [unwind]. destruct (lock_eq_dec x LBase) as [->|N]; [rewrite upd_same; unfold cells; rewrite H3; reflexivity|]. rewrite upd_other by exact N. apply H4. exact N. }
  destruct (calibrated W checks nanos p3) as [p4 [cal|]]; cbn [fst snd] in S4.
  2:{ destruct S4 as (E4 & L4 & S4 & G4). exists L4. split; [eapply ts_cons; [apply t_enter; exact E0|]; do 3 (eapply tstar_app; [eassumption|]); exact S4|]. cbn [fst]. intros x. rewrite G4, E4. apply D. exact G3. }
  destruct S4 as (L4 & S4 & G4).
  match type of S4 with tstar _ _ _ _ _ _ (Run (q_block _ ?k) _) => destruct (@sim_block W p t None _ _ p4 k [(LBase, K)] G4) as (L5 & S5 & G5) end.
  destruct (env_block_size W p4) as [p5 block]. cbn [fst snd] in S5, G5.
  match type of S5 with tstar _ _ _ _ _ _ (Run (q_threads _ ?k) _) => destruct (@sim_threads W cpus p t None _ _ p5 k [(LBase, K)] G5) as (L6 & S6 & G6) end.
  destruct (env_threads W cpus p5) as [p6 threads]. cbn [fst snd] in S6, G6.
  destruct (umul W checks (N.max (bytes / 8) (N.max (N.max work cal) block)) threads) as [v|] eqn:U.
  - destruct (@sim_should W checks cpus nanos p t (Some v) n v _ _ (F _ _ v G6)) as (L' & S & G). exists L'. split; [|exact G].
    eapply ts_cons; [apply t_enter; exact E0|]. do 6 (eapply tstar_app; [eassumption|]). eapply ts_cons; [apply t_fill|exact S].
  - eexists. split; [eapply ts_cons; [apply t_enter; exact E0|]; do 6 (eapply tstar_app; [eassumption|]); eapply ts_cons; [apply t_crash|apply ts_nil]|].
    cbn [fst]. apply D. exact G6.
Qed.
Print Assumptions C96_sequential.

(* ---------- concrete executions ---------- *)
(* one access, with the answer of num_cpus or the clock given *)
Definition tnext (e : string -> option string) (r : reg -> N) (t : nat) (any : N) (L : lock -> cell) (th : thread) : option ((lock -> cell) * thread) :=
  match th with
  | Run (Fetch x k) st => Some (L, Run (k (r x)) st)
  | Run (Var name k) st => Some (L, Run (k (e name)) st)
  | Run (Any k) st => Some (L, Run (k any) st)
  | Run (Once l i k) st => match L l with Full v => Some (L, Run (k v) st) | Empty => Some (upd L l (Filling t), Run i ((l, k) :: st)) | Filling _ => None end
  | Run (Ret v) ((l, k) :: st) => Some (upd L l (Full v), Run (k v) st)
  | Run (Ret v) [] => Some (L, Fin v)
  | Run Crash st => Some (unwind L st, Dead)
  | _ => None
  end.
Lemma tnext_ok e r t any L th L' th' : tnext e r t any L th = Some (L', th') -> tstep e r t L th L' th'.
Proof.
  destruct th as [p st| |]; cbn [tnext]; [|discriminate..]. destruct p as [v| |x k|name k|k|l i k].
  - destruct st as [|[l k] st]; intros [= <- <-]; constructor.
  - intros [= <- <-]; constructor.
  - intros [= <- <-]; constructor.
  - intros [= <- <-]; constructor.
  - intros [= <- <-]; constructor.
  - destruct (L l) eqn:E; intros [= <- <-]; [apply t_enter; exact E|apply t_full; exact E].
Qed.
Inductive order := Go (t : nat) (any : N) | Setv (name : string) (v : option string) | Setr (x : reg) (v : N).
Definition act_of (o : order) : act := match o with Go t _ => Access t | Setv _ _ => EnvChange | Setr _ _ => Setter end.
Definition next (s : state) (o : order) : option state :=
  match o with
  | Go t any => match tnext (s_env s) (s_reg s) t any (s_lock s) (s_thr s t) with
    | Some (L', th') => Some (mkState (s_env s) (s_reg s) L' (fun u => if Nat.eqb u t then th' else s_thr s u))
    | None => None
    end
  | Setv name v => Some (mkState (fun q => if String.eqb q name then v else s_env s q) (s_reg s) (s_lock s) (s_thr s))
  | Setr x v => Some (mkState (s_env s) (fun y => if reg_beq y x then v else s_reg s y) (s_lock s) (s_thr s))
  end.
Fixpoint play (s : state) (l : list order) : option state :=
  match l with [] => Some s | o :: l => match next s o with Some s' => play s' l | None => None end end.
Lemma play_ok l : forall s s', play s l = Some s' -> steps s (map act_of l) s'.
Proof.
  induction l as [|o l IH]; intros s s' H; cbn [play] in H; [injection H as <-; constructor|]. destruct (next s o) as [s1|] eqn:E; [|discriminate].
  cbn [map]. econstructor; [|apply IH; exact H]. destruct o as [t any|name v|x v]; cbn [next] in E.
  - destruct (tnext _ _ _ _ _ _) as [[L' th']|] eqn:E1; [|discriminate]. injection E as <-. cbn [act_of]. constructor. eapply tnext_ok. exact E1.
  - injection E as <-. constructor.
  - injection E as <-. constructor.
Qed.
Lemma play_other t l : forallb (fun o => match o with Go u _ => negb (Nat.eqb t u) | _ => true end) l = true -> forall s s', play s l = Some s' -> s_thr s' t = s_thr s t.
Proof.
  induction l as [|o l IH]; intros F s s' H; cbn [play forallb] in *; [injection H as <-; reflexivity|]. apply andb_prop in F. destruct F as [F1 F2].
  destruct (next s o) as [s1|] eqn:E; [|discriminate]. rewrite (IH F2 _ _ H). destruct o as [u any|name v|x v]; cbn [next] in E.
  - destruct (tnext _ _ _ _ _ _) as [[L' th']|]; [|discriminate]. injection E as <-. cbn [s_thr]. destruct (Nat.eqb t u); [discriminate F1|reflexivity].
  - injection E as <-. reflexivity.
  - injection E as <-. reflexivity.
Qed.
Lemma steps_one s a s' : steps s [a] s' -> step s a s'.
Proof. intros H. inversion H as [|? ? s1 ? ? H1 H2]; subst. inversion H2; subst. exact H1. Qed.
(* with all locks full a call alone has one result *)
Lemma alone e r t V p L' th : direct p -> forall L, (forall l, L l = Full (V l)) -> tstar e r t L (Run p []) L' th -> forall v, th = Fin v -> eval r V p = Some v.
Proof.
  intros D L HL S. remember (Run p []) as th0 eqn:E. revert p D E. induction S as [L th|L th0 L1 th1 L2 th2 S1 S2 IH]; intros p D -> v Hv; [discriminate|].
  inversion S1; subst; cbn [direct] in D; try contradiction.
  - cbn [eval]. apply (IH HL (k (r x)) (D _) eq_refl). reflexivity.
  - cbn [eval]. match goal with H : L1 _ = Full _ |- _ => rewrite HL in H; injection H as <- end. apply (IH HL (k (V l)) (D _) eq_refl). reflexivity.
  - match goal with H : L _ = Empty |- _ => rewrite HL in H; discriminate end.
  - inversion S2; subst; [reflexivity|]. match goal with H : tstep _ _ _ _ (Fin _) _ _ |- _ => inversion H end.
  - inversion S2; subst. match goal with H : tstep _ _ _ _ Dead _ _ |- _ => inversion H end.
Qed.

(* Settings are not read together.  All locks are full; one call chooses the parallel branch for 10000 samples while a second thread
   calls set_parallel_fft_block_size(16384) and then set_parallel_fft_threads(1); the same call alone would choose the sequential
   branch before, between and after the two setter calls. *)
Definition torn_env : string -> option string := fun q => if String.eqb q "KOFFT_PAR_FFT_THREADS" then Some "0"%string else None.
Definition torn_calls : nat -> call := fun t => match t with 0%nat => CDecide 10000 | _ => CForward end.
(* call 1 fills the locks (the copy takes 32 s, hence 4096 points), then block size 8192 and 2 threads are set *)
Definition torn_warm : list order := repeat (Go 1 32000000000) 21 ++ [Setr RBlock 8192; Setr RThreads 2].
Definition torn_state (l : list order) : state := match play (init 64 false torn_env torn_calls) l with Some s => s | None => init 64 false torn_env torn_calls end.
Theorem C96_settings_refuted : exists s1 s2 s3 s4 s5 l1 l2,
  reachable 64 false torn_calls s1 /\ s_thr s1 0%nat = Run (code 64 false (CDecide 10000)) [] /\
  steps s1 l1 s2 /\ ~ In Setter l1 /\ step s2 Setter s3 /\ step s3 Setter s4 /\ steps s4 l2 s5 /\ ~ In Setter l2 /\
  s_thr s5 0%nat = Fin 1 /\
  forall s, In s [s1; s3; s4] -> forall t L' v, tstar (s_env s) (s_reg s) t (s_lock s) (Run (code 64 false (CDecide 10000)) []) L' (Fin v) -> v = 0.
Proof.
  set (go := repeat (Go 0 0)).
  assert (P : forall l, play (init 64 false torn_env torn_calls) l = Some (torn_state l) -> forall l', play (init 64 false torn_env torn_calls) (l ++ l') = Some (torn_state (l ++ l')) -> steps (torn_state l) (map act_of l') (torn_state (l ++ l'))).
  { intros l E l' E'. apply play_ok. revert E'. generalize (torn_state (l ++ l')). revert E. generalize (torn_state l), (init 64 false torn_env torn_calls). clear.
    induction l as [|o l IH]; intros s s0 E s'; cbn [play app] in *; [injection E as <-; auto|]. destruct (next s0 o); [|discriminate]. apply IH. exact E. }
  assert (Q : forall l, match play (init 64 false torn_env torn_calls) l with Some _ => true | None => false end = true -> play (init 64 false torn_env torn_calls) l = Some (torn_state l)).
  { intros l. unfold torn_state. destruct (play _ l); [reflexivity|discriminate]. }
  exists (torn_state torn_warm), (torn_state (torn_warm ++ go 8%nat)), (torn_state (torn_warm ++ go 8%nat ++ [Setr RBlock 16384])),
    (torn_state (torn_warm ++ go 8%nat ++ [Setr RBlock 16384; Setr RThreads 1])), (torn_state (torn_warm ++ go 8%nat ++ [Setr RBlock 16384; Setr RThreads 1] ++ go 2%nat)), (map act_of (go 8%nat)), (map act_of (go 2%nat)).
  split. { exists torn_env, (map act_of torn_warm). apply play_ok. apply Q. vm_compute. reflexivity. }
  split; [exact (@play_other 0%nat torn_warm eq_refl _ _ (Q torn_warm ltac:(vm_compute; reflexivity)))|].
  split. { apply P; apply Q; vm_compute; reflexivity. }
  split. { cbn. intuition discriminate. }
  split. { pose proof (P (torn_warm ++ go 8%nat) ltac:(apply Q; vm_compute; reflexivity) [Setr RBlock 16384] ltac:(apply Q; vm_compute; reflexivity)) as S.
    rewrite <- app_assoc in S. exact (steps_one S). }
  split. { pose proof (P (torn_warm ++ go 8%nat ++ [Setr RBlock 16384]) ltac:(apply Q; vm_compute; reflexivity) [Setr RThreads 1] ltac:(apply Q; vm_compute; reflexivity)) as S.
    rewrite <- !app_assoc in S. exact (steps_one S). }
  split. { pose proof (P (torn_warm ++ go 8%nat ++ [Setr RBlock 16384; Setr RThreads 1]) ltac:(apply Q; vm_compute; reflexivity) (go 2%nat) ltac:(apply Q; vm_compute; reflexivity)) as S.
    rewrite <- !app_assoc in S. exact S. }
  split. { cbn. intuition discriminate. }
  split; [vm_compute; reflexivity|].
  intros s Hs t L' v S.
  assert (A : (forall l, s_lock s l = Full (match s_lock s l with Full v => v | _ => 0 end)) /\ eval (s_reg s) (fun l => match s_lock s l with Full v => v | _ => 0 end) (code 64 false (CDecide 10000)) = Some 0).
  { destruct Hs as [<-|[<-|[<-|[]]]]; (split; [intros l; destruct l; vm_compute; reflexivity|vm_compute; reflexivity]). }
  destruct A as [A1 A2]. pose proof (@alone _ _ _ _ _ _ _ (code_direct 64 false (CDecide 10000)) _ A1 S v eq_refl) as E. rewrite E in A2. injection A2 as ->. reflexivity.
Qed.
Print Assumptions C96_settings_refuted.

(* two calls interleaved access by access, with the environment changed in between: both wait for and use the same values *)
Definition pair_calls : nat -> call := fun t => match t with 0%nat | 1%nat => CDecide 300000 | _ => CForward end.
Example C96_interleaved : exists s, reachable 64 false pair_calls s /\ s_thr s 0%nat = Fin 0 /\ s_thr s 1%nat = Fin 0 /\ s_lock s LBase = Full 1048576.
Proof.
  set (l := [Go 0 0; Go 0 0; Setv "KOFFT_PAR_FFT_THRESHOLD" (Some "1048576"%string); Go 0 0; Go 0 0; Setv "KOFFT_PAR_FFT_THRESHOLD" None; Go 0 0; Go 1 0; Go 0 0; Go 1 0; Go 1 0; Go 0 0]).
  assert (A : match play (init 64 false (fun _ => None) pair_calls) l with Some s => match s_thr s 0%nat, s_thr s 1%nat, s_lock s LBase with Fin a, Fin b, Full v => Some (a, b, v) | _, _, _ => None end | None => None end = Some (0, 0, 1048576))
    by (vm_compute; reflexivity).
  destruct (play (init 64 false (fun _ => None) pair_calls) l) as [s|] eqn:E; [|discriminate A]. exists s.
  split; [exists (fun _ => None), (map act_of l); apply play_ok; exact E|].
  clear E. destruct (s_thr s 0%nat); try discriminate A. destruct (s_thr s 1%nat); try discriminate A. destruct (s_lock s LBase); try discriminate A. injection A as -> -> ->. repeat split.
Qed.

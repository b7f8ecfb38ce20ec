(* Any-arithmetic facts about strategies, plans and batches: which parts of a
   result can depend on the planner state. *)
From Coq Require Import ZArith ZifyBool ZifyNat.
From Verif Require Export L_obj2 L_fact.
Ltac Zify.zify_post_hook ::= Z.div_mod_to_equations.
Set Implicit Arguments.

(* buffer and result of a call, without the object state *)
Definition out {S A} (e : exec (S * A * rres)) : exec (A * rres) := '(_, y, r) <- e ;; Done (y, r).
Definition out2 {S A B} (e : exec (S * A * B * rres)) : exec (A * B * rres) := '(_, y, z, r) <- e ;; Done (y, z, r).

Inductive erel {A B} (R : A -> B -> Prop) : exec A -> exec B -> Prop :=
| erel_done a b : R a b -> erel R (Done a) (Done b)
| erel_panic : erel R Panic Panic
| erel_nofuel : erel R NoFuel NoFuel.
Lemma erel_bind {A B A' B'} (R : A -> B -> Prop) (R' : A' -> B' -> Prop) e1 e2 k1 k2 :
  erel R e1 e2 -> (forall a b, R a b -> erel R' (k1 a) (k2 b)) -> erel R' (bind e1 k1) (bind e2 k2).
Proof. intros [a b H| |] Hk; cbn [bind]; [apply Hk; exact H|constructor|constructor]. Qed.
Lemma erel_eq {A} (e : exec A) : erel eq e e.
Proof. destruct e; constructor. reflexivity. Qed.
Lemma while_sim {S S'} (R : S -> S' -> Prop) fuel c1 c2 b1 b2 :
  (forall s t, R s t -> c1 s = c2 t) -> (forall s t, R s t -> c1 s = true -> erel R (b1 s) (b2 t)) ->
  forall s t, R s t -> erel R (while_ fuel c1 b1 s) (while_ fuel c2 b2 t).
Proof.
  intros Hc Hb. induction fuel as [|f IH]; intros s t H; cbn [while_]; [constructor|].
  rewrite <- (Hc s t H). destruct (c1 s) eqn:E; [|constructor; exact H].
  eapply erel_bind; [apply Hb; assumption|]. exact IH.
Qed.

Section Plan.
Context {T : Type} {F : Float T}.
Variable c : cfg.
Local Notation cx := (cx T).

Lemma fft_indep p q x : Inv c p -> Inv c q -> ready c p (length x) -> ready c q (length x) ->
  out (fft c p x) = out (fft c q x).
Proof.
  intros Hp Hq Rp Rq.
  destruct (fft_cases x Hp) as [[H E]|[(H & H2 & E)|(H & H2 & p1 & y & E & _ & _ & Hy)]];
  destruct (fft_cases x Hq) as [[H' E']|[(H' & H2' & E')|(H' & H2' & p1' & y' & E' & _ & _ & Hy')]]; try lia; try congruence; rewrite E, E'; try reflexivity.
  cbn. rewrite (Hy Rp), (Hy' Rq). reflexivity.
Qed.
Lemma ifft_indep p q x : Inv c p -> Inv c q -> ready c p (length x) -> ready c q (length x) ->
  out (ifft c p x) = out (ifft c q x).
Proof.
  intros Hp Hq Rp Rq.
  destruct (ifft_cases x Hp) as [[H E]|[(H & H2 & E)|(H & H2 & p1 & y & E & _ & _ & Hy)]];
  destruct (ifft_cases x Hq) as [[H' E']|[(H' & H2' & E')|(H' & H2' & p1' & y' & E' & _ & _ & Hy')]]; try lia; try congruence; rewrite E, E'; try reflexivity.
  cbn. rewrite (Hy Rp), (Hy' Rq). reflexivity.
Qed.
Lemma ready_fits (p : planner T) n : is_pow2 n = true -> ready c p n -> fits c p n.
Proof. intros H. unfold ready. rewrite H. auto. Qed.
Lemma stockham_indep p q x : length x <> 1 -> Inv c p -> Inv c q -> ready c p (length x) -> ready c q (length x) ->
  out (stockham_fft c p x) = out (stockham_fft c q x).
Proof.
  intros H1 Hp Hq Rp Rq. destruct (Nat.eq_dec (length x) 0) as [E0|E0].
  { unfold stockham_fft, stockham_. rewrite E0. reflexivity. }
  destruct (is_pow2 (length x)) eqn:E.
  - destruct (@stockham_cases T F c p x Hp) as (p' & E1 & _); [lia|exact E|].
    destruct (@stockham_cases T F c q x Hq) as (q' & E2 & _); [lia|exact E|].
    rewrite E1, E2. cbn. rewrite !pow2_out_fits by (apply ready_fits; assumption). reflexivity.
  - rewrite !stockham_nonpow2 by (assumption || lia). apply fft_indep; assumption.
Qed.
Lemma radix4_indep p q x : Inv c p -> Inv c q -> ready c p (length x) -> ready c q (length x) ->
  out (fft_radix4 c p x) = out (fft_radix4 c q x).
Proof.
  intros Hp Hq Rp Rq. unfold fft_radix4. destruct (negb (is_pow2 (length x)) || negb (Nat.even (Nat.log2 (length x)))).
  { apply fft_indep; assumption. }
  set (n := length x). destruct (rev_permute 2 x) as [x'| |]; cbn [bind]; try reflexivity.
  match goal with |- out (bind (while_ ?f ?cc ?b (4, p, x')) _) = _ => set (cond := cc); set (body := b) end.
  assert (H : erel (fun '(l1, p1, x1) '(l2, p2, x2) => l1 = l2 /\ x1 = x2 /\ cache_ok p1 /\ cache_ok p2)
     (while_ (S n) cond body (4, p, x')) (while_ (S n) cond body (4, q, x'))).
  { apply while_sim.
    - intros [[l1 p1] x1] [[l2 p2] x2] (-> & -> & _). reflexivity.
    - intros [[l1 p1] x1] [[l2 p2] x2] (-> & -> & C1 & C2) _. unfold body.
      eapply erel_bind with (R := fun '(p1, x1) '(p2, x2) => x1 = x2 /\ cache_ok p1 /\ cache_ok p2).
      2:{ intros [q1 y1] [q2 y2] (-> & D1 & D2). constructor. auto. }
      destruct (l2 =? 4).
      + eapply erel_bind; [apply erel_eq|]. intros [i y] b <-. constructor. auto.
      + rewrite (get_twiddles_ok c l2 C1), (get_twiddles_ok c l2 C2).
        eapply erel_bind; [apply erel_eq|]. intros s1 b <-.
        eapply erel_bind; [apply erel_eq|]. intros s2 b <-.
        eapply erel_bind; [apply erel_eq|]. intros s3 b <-.
        eapply erel_bind; [apply erel_eq|]. intros [i y] b <-. constructor.
        split; [reflexivity|]. split; intros k t; cbn; apply cache_after_ok; assumption.
    - repeat split; try reflexivity; [apply Hp|apply Hq]. }
  revert H. generalize (while_ (S n) cond body (4, p, x')). generalize (while_ (S n) cond body (4, q, x')). intros e1 e2 H.
  destruct H as [[[l1 p1] x1] [[l2 p2] x2] (-> & -> & _)| |]; reflexivity.
Qed.
Lemma strategy_indep s p q x : Inv c p -> Inv c q -> ready c p (length x) -> ready c q (length x) ->
  out (fft_with_strategy c s p x) = out (fft_with_strategy c s q x).
Proof.
  intros Hp Hq Rp Rq. unfold fft_with_strategy. destruct (Nat.eqb_spec (length x) 0); [reflexivity|].
  destruct (Nat.eqb_spec (length x) 1); [reflexivity|].
  destruct (match s with Auto => plan_strategy (length x) | _ => s end).
  - apply fft_indep; assumption.
  - destruct (c_std c); [apply radix4_indep|apply fft_indep]; assumption.
  - apply stockham_indep; assumption.
  - apply fft_indep; assumption.
Qed.
Lemma split_simd_indep p q a b : c_kind c <> OtherT -> length a = length b ->
  Inv c p -> Inv c q -> ready c p (length a) -> ready c q (length a) ->
  out2 (fft_split_simd c p a b) = out2 (fft_split_simd c q a b).
Proof.
  intros Hk Hl Hp Hq Rp Rq.
  destruct (split_simd_via a b Hp Hl) as [[H E]|[(H & H2 & E)|(H & H2 & p1 & y & E & _ & _ & Hy)]];
  destruct (split_simd_via a b Hq Hl) as [[H' E']|[(H' & H2' & E')|(H' & H2' & p1' & y' & E' & _ & _ & Hy')]]; try lia; try congruence; rewrite E, E'; try reflexivity.
  cbn. rewrite (Hy Hk (or_introl Rp)), (Hy' Hk (or_introl Rq)). reflexivity.
Qed.
Lemma split_default_indep (op : fft_ty (T := T)) p q a b : out (op p (zipc a b)) = out (op q (zipc a b)) ->
  out2 (split_default op p a b) = out2 (split_default op q a b).
Proof.
  intros H. unfold split_default. destruct (negb _); [reflexivity|].
  destruct (op p (zipc a b)) as [[[p1 y] r]| |], (op q (zipc a b)) as [[[q1 y'] r']| |]; cbn in H; try discriminate; try reflexivity.
  injection H as <- <-. cbn [bind]. destruct r; [|reflexivity]. destruct (for_range _ _ _ _) as [[u v]| |]; reflexivity.
Qed.
Lemma fft_split_indep p q a b : Inv c p -> Inv c q -> ready c p (length a) -> ready c q (length a) ->
  out2 (fft_split c p a b) = out2 (fft_split c q a b).
Proof.
  intros Hp Hq Rp Rq. unfold fft_split. destruct (Nat.eqb_spec (length a) (length b)) as [E|E]; cbn [negb]; [|reflexivity].
  assert (Lz : length (zipc a b) = length a) by (rewrite zipc_length; lia).
  destruct (c_kind c) eqn:Ek; try (apply split_simd_indep; try assumption; congruence).
  apply split_default_indep. apply fft_indep; rewrite ?Lz; assumption.
Qed.
Lemma ifft_split_indep p q a b : Inv c p -> Inv c q -> ready c p (length a) -> ready c q (length a) ->
  out2 (ifft_split c p a b) = out2 (ifft_split c q a b).
Proof.
  intros Hp Hq Rp Rq. unfold ifft_split. destruct (Nat.eqb_spec (length a) (length b)) as [E|E]; cbn [negb]; [|reflexivity].
  assert (Lz : length (zipc a b) = length a) by (rewrite zipc_length; lia).
  assert (Hs : c_kind c <> OtherT -> out2 (fft_split_simd c p a (map fneg b)) = out2 (fft_split_simd c q a (map fneg b))).
  { intros Hk. apply split_simd_indep; try assumption. rewrite map_length. exact E. }
  assert (G : forall e1 e2 : exec (planner T * list T * list T * rres), out2 e1 = out2 e2 ->
    out2 ('(p, re_, im_, r) <- e1 ;;
         match r with
         | RErr e => Done (p, re_, im_, RErr e)
         | ROk => Done (p, map (fun r => fmul r (fdiv fone (fas (length re_)))) re_, map (fun i => fmul (fneg i) (fdiv fone (fas (length re_)))) im_, ROk)
         end) =
    out2 ('(p, re_, im_, r) <- e2 ;;
         match r with
         | RErr e => Done (p, re_, im_, RErr e)
         | ROk => Done (p, map (fun r => fmul r (fdiv fone (fas (length re_)))) re_, map (fun i => fmul (fneg i) (fdiv fone (fas (length re_)))) im_, ROk)
         end)).
  { intros [[[[p1 u] v] r]| |] [[[[q1 u'] v'] r']| |] H; cbn in H; try discriminate; try reflexivity.
    injection H as <- <- <-. cbn. destruct r; reflexivity. }
  destruct (c_kind c) eqn:Ek; try (apply G, Hs; congruence).
  apply split_default_indep. apply ifft_indep; rewrite ?Lz; assumption.
Qed.

(* ---------- plans ---------- *)
Inductive pcall :=
| PFft (x : list cx) | PIfft (x : list cx) | POop (x y : list cx) | PIOop (x y : list cx)
| PSplit (a b : list T) | PISplit (a b : list T).
Definition plan_call (pn : plan T) (k : pcall) : exec (plan T) :=
  match k with
  | PFft x => '(pn, _, _) <- plan_fft c pn x ;; Done pn
  | PIfft x => '(pn, _, _) <- plan_ifft c pn x ;; Done pn
  | POop x y => '(pn, _, _) <- plan_oop (plan_fft c) pn x y ;; Done pn
  | PIOop x y => '(pn, _, _) <- plan_oop (plan_ifft c) pn x y ;; Done pn
  | PSplit a b => '(pn, _, _, _) <- plan_split (fft_split c) pn a b ;; Done pn
  | PISplit a b => '(pn, _, _, _) <- plan_split (ifft_split c) pn a b ;; Done pn
  end.
Fixpoint plan_calls (pn : plan T) (ks : list pcall) : exec (plan T) :=
  match ks with
  | [] => Done pn
  | k :: t => pn <- plan_call pn k ;; plan_calls pn t
  end.
Definition plan_inv n s (pn : plan T) : Prop :=
  plan_n pn = n /\ plan_strat pn = s /\ Inv c (plan_pl pn) /\
  length (pl_sre (plan_pl pn)) <= padded n /\ length (pl_bscratch (plan_pl pn)) <= padded n.
Lemma plan_inv_new n s : plan_inv n s (plan_new n s).
Proof. split; [reflexivity|]. split; [reflexivity|]. split; [apply Inv_new|]. cbn; lia. Qed.
Lemma plan_inv_ready n s pn : plan_inv n s pn -> ready c (plan_pl pn) n.
Proof. intros (_ & _ & _ & H1 & H2). apply ready_size; assumption. Qed.
Lemma plan_inv_step n s pn p' : plan_inv n s pn -> step_ok c (plan_pl pn) p' n -> plan_inv n s (mkPlan n s p').
Proof.
  intros (_ & _ & _ & H1 & H2) [HI HN]. destruct (HN (padded n) H1 H2 (le_n _)) as [A B]. repeat split; try assumption; apply HI.
Qed.
Lemma plan_eta n s pn : plan_inv n s pn -> pn = mkPlan n s (plan_pl pn).
Proof. intros (<- & <- & _). destruct pn; reflexivity. Qed.
Lemma plan_fft_inv n s pn x pn' y r : plan_inv n s pn -> plan_fft c pn x = Done (pn', y, r) -> plan_inv n s pn' /\ length y = length x.
Proof.
  intros HP E. unfold plan_fft in E. destruct (Nat.eqb_spec (length x) (plan_n pn)) as [El|El]; cbn [negb] in E.
  2:{ injection E as <- <- <-. auto. }
  assert (Hn : plan_n pn = n) by apply HP. assert (Hs : plan_strat pn = s) by apply HP.
  assert (G : ('(p, y, r) <- fft_with_strategy c (plan_strat pn) (plan_pl pn) x ;;
      Done (mkPlan (plan_n pn) (plan_strat pn) p, y, r)) = Done (pn', y, r) -> plan_inv n s pn' /\ length y = length x).
  { intros G. inv_bind G. destruct v as [[p1 y1] r1]. injection G as <- <- <-.
    destruct (@strategy_preserves T F c (plan_strat pn) _ _ _ _ _ ltac:(apply HP) E0) as [St Ll].
    split; [|exact Ll]. rewrite Hn, Hs. eapply plan_inv_step; [exact HP|]. rewrite <- Hn, <- El. exact St. }
  destruct (c_kind c), (plan_strat pn); try (apply G; exact E);
    inv_bind E; destruct v as [[p1 y1] r1]; injection E as <- <- <-; (split; [exact HP|]);
    eapply (@stockham_preserves T F c); try exact E0; apply Inv_new.
Qed.
Lemma plan_ifft_inv n s pn x pn' y r : plan_inv n s pn -> plan_ifft c pn x = Done (pn', y, r) -> plan_inv n s pn' /\ length y = length x.
Proof.
  intros HP E. unfold plan_ifft in E. destruct (Nat.eqb_spec (length x) (plan_n pn)) as [El|El]; cbn [negb] in E.
  2:{ injection E as <- <- <-. auto. }
  inv_bind E. destruct v as [[pn1 y1] r1]. destruct (@plan_fft_inv n s _ _ _ _ _ HP E0) as [HP1 L1]. rewrite map_length in L1.
  destruct r1; injection E as <- <- <-; (split; [exact HP1|]); rewrite ?map_length; exact L1.
Qed.
Lemma plan_call_inv n s pn k pn' : plan_inv n s pn -> plan_call pn k = Done pn' -> plan_inv n s pn'.
Proof.
  intros HP E. assert (Hn : plan_n pn = n) by apply HP. assert (Hs : plan_strat pn = s) by apply HP.
  assert (G2 : forall op a b, (forall p a b p' a' b' r, Inv c p -> op p a b = Done (p', a', b', r) -> step_ok c p p' (length a)) ->
     ('(pn, _, _, _) <- plan_split op pn a b ;; Done pn) = Done pn' -> plan_inv n s pn').
  { intros op a b Hop G. inv_bind G. destruct v as [[[pn1 a1] b1] r1]. injection G as <-. unfold plan_split in E0.
    destruct (_ || _) eqn:Eb in E0; [injection E0 as <- <- <- <-; exact HP|]. inv_bind E0. destruct v as [[[p1 a2] b2] r2].
    injection E0 as <- <- <- <-. rewrite Hn, Hs. eapply plan_inv_step; [exact HP|].
    apply orb_false_iff in Eb. destruct Eb as [Eb _]. apply negb_false_iff, Nat.eqb_eq in Eb. rewrite <- Hn, <- Eb.
    eapply Hop; [apply HP|exact E1]. }
  assert (G1 : forall op x y, (forall pn x pn' y r, plan_inv n s pn -> op pn x = Done (pn', y, r) -> plan_inv n s pn' /\ length y = length x) ->
     ('(pn, _, _) <- plan_oop op pn x y ;; Done pn) = Done pn' -> plan_inv n s pn').
  { intros op x y Hop G. inv_bind G. destruct v as [[pn1 y1] r1]. injection G as <-. unfold plan_oop in E0.
    destruct (_ || _) in E0; [injection E0 as <- <- <-; exact HP|]. eapply Hop; [exact HP|exact E0]. }
  destruct k as [x|x|x y|x y|a b|a b]; cbn [plan_call] in E.
  - inv_bind E. destruct v as [[pn1 y1] r1]. injection E as <-. eapply plan_fft_inv; eassumption.
  - inv_bind E. destruct v as [[pn1 y1] r1]. injection E as <-. eapply plan_ifft_inv; eassumption.
  - eapply G1; [|exact E]. intros *. apply plan_fft_inv.
  - eapply G1; [|exact E]. intros *. apply plan_ifft_inv.
  - eapply G2; [|exact E]. apply fft_split_preserves.
  - eapply G2; [|exact E]. apply ifft_split_preserves.
Qed.
Lemma plan_calls_inv n s ks : forall pn pn', plan_inv n s pn -> plan_calls pn ks = Done pn' -> plan_inv n s pn'.
Proof.
  induction ks as [|k t IH]; intros pn pn' HP E; cbn [plan_calls] in E; [injection E as <-; exact HP|].
  inv_bind E. eapply IH; [|exact E]. eapply plan_call_inv; eassumption.
Qed.
Lemma out_mkplan n s (e1 e2 : exec (planner T * list cx * rres)) : out e1 = out e2 ->
  out ('(p, y, r) <- e1 ;; Done (mkPlan n s p, y, r)) = out ('(p, y, r) <- e2 ;; Done (mkPlan n s p, y, r)).
Proof.
  destruct e1 as [[[p1 y1] r1]| |], e2 as [[[p2 y2] r2]| |]; cbn; intros H; try discriminate; try reflexivity. exact H.
Qed.
Lemma out2_mkplan n s (e1 e2 : exec (planner T * list T * list T * rres)) : out2 e1 = out2 e2 ->
  out2 ('(p, y, z, r) <- e1 ;; Done (mkPlan n s p, y, z, r)) = out2 ('(p, y, z, r) <- e2 ;; Done (mkPlan n s p, y, z, r)).
Proof.
  destruct e1 as [[[[p1 y1] z1] r1]| |], e2 as [[[[p2 y2] z2] r2]| |]; cbn; intros H; try discriminate; try reflexivity. exact H.
Qed.
Lemma plan_fft_indep n s pn x : plan_inv n s pn -> out (plan_fft c pn x) = out (plan_fft c (plan_new n s) x).
Proof.
  intros HP. pose proof (plan_inv_ready HP) as HR. rewrite (plan_eta HP) in *. destruct pn as [n' s' p]. cbn [plan_pl] in *.
  unfold plan_fft. cbn [plan_n plan_strat plan_pl plan_new]. destruct (Nat.eqb_spec (length x) n) as [El|El]; cbn [negb]; [|reflexivity].
  assert (Hi : out (fft_with_strategy c s p x) = out (fft_with_strategy c s new_planner x)).
  { apply strategy_indep; rewrite ?El; try assumption; [apply HP|apply Inv_new|apply ready_new]. }
  pose proof (@out_mkplan n s _ _ Hi) as G.
  destruct (c_kind c), s; try exact G; destruct (stockham_fft c new_planner x) as [[[p1 y1] r1]| |]; reflexivity.
Qed.
Lemma plan_ifft_indep n s pn x : plan_inv n s pn -> out (plan_ifft c pn x) = out (plan_ifft c (plan_new n s) x).
Proof.
  intros HP. pose proof (@plan_fft_indep n s pn (map cconj x) HP) as H.
  unfold plan_ifft. assert (Hn : plan_n pn = n) by apply HP. rewrite Hn. cbn [plan_n plan_new].
  destruct (negb _); [reflexivity|].
  destruct (plan_fft c pn (map cconj x)) as [[[p1 y1] r1]| |], (plan_fft c (plan_new n s) (map cconj x)) as [[[p2 y2] r2]| |];
    cbn in H; try discriminate; try reflexivity. injection H as <- <-. cbn [bind]. destruct r1; reflexivity.
Qed.
Lemma plan_oop_indep n s pn op x y : plan_inv n s pn -> out (op pn x) = out (op (plan_new n s) x) ->
  out (plan_oop op pn x y) = out (plan_oop op (plan_new n s) x y).
Proof.
  intros HP H. unfold plan_oop. assert (Hn : plan_n pn = n) by apply HP. rewrite Hn. cbn [plan_n plan_new].
  destruct (_ || _); [reflexivity|]. exact H.
Qed.
Lemma plan_split_indep n s pn op a b : plan_inv n s pn ->
  (forall p q, Inv c p -> Inv c q -> ready c p (length a) -> ready c q (length a) -> out2 (op p a b) = out2 (op q a b)) ->
  out2 (plan_split op pn a b) = out2 (plan_split op (plan_new n s) a b).
Proof.
  intros HP H. pose proof (plan_inv_ready HP) as HR. unfold plan_split. assert (Hn : plan_n pn = n) by apply HP. assert (Hs : plan_strat pn = s) by apply HP.
  rewrite Hn, Hs. cbn [plan_n plan_strat plan_new plan_pl].
  destruct (Nat.eqb_spec (length a) n) as [El|El]; cbn [negb orb]; [|reflexivity]. destruct (negb _); [reflexivity|].
  apply out2_mkplan. apply H; rewrite ?El; try assumption; [apply HP|apply Inv_new|apply ready_new].
Qed.

(* ---------- radix 4, concrete sizes ---------- *)
Lemma list_4 {A} (x : list A) : length x = 4 -> exists a b d e, x = [a; b; d; e].
Proof. destruct x as [|a [|b [|d [|e [|]]]]]; intros H; try discriminate. eauto. Qed.
Lemma radix4_4 p a b d e : fft_radix4 c p [a; b; d; e] =
  (let '(x0, x1, x2, x3) := butterfly4 c a b d e in Done (p, [x0; x1; x2; x3], ROk)).
Proof. reflexivity. Qed.
(* the four first-stage groups of a 16-point radix-4 transform, in the order the
   digit reversal of 1461-1473 leaves them *)
Definition r4_16 (x0 x1 x2 x3 x4 x5 x6 x7 x8 x9 x10 x11 x12 x13 x14 x15 s1 s2 s3 : cx) : list cx :=
  let '(a0, a1, a2, a3) := butterfly4 c x0 x4 x2 x5 in
  let '(b0, b1, b2, b3) := butterfly4 c x1 x3 x6 x7 in
  let '(d0, d1, d2, d3) := butterfly4 c x8 x9 x10 x11 in
  let '(e0, e1, e2, e3) := butterfly4 c x12 x13 x14 x15 in
  let m := cmul c in let o := mkcx fone fzero in
  let '(y0, y4, y8, y12) := butterfly4 c a0 (m b0 o) (m d0 o) (m e0 o) in
  let '(y1, y5, y9, y13) := butterfly4 c a1 (m b1 (m o s1)) (m d1 (m o s2)) (m e1 (m o s3)) in
  let '(y2, y6, y10, y14) := butterfly4 c a2 (m b2 (m (m o s1) s1)) (m d2 (m (m o s2) s2)) (m e2 (m (m o s3) s3)) in
  let '(y3, y7, y11, y15) := butterfly4 c a3 (m b3 (m (m (m o s1) s1) s1)) (m d3 (m (m (m o s2) s2) s2)) (m e3 (m (m (m o s3) s3) s3)) in
  [y0; y1; y2; y3; y4; y5; y6; y7; y8; y9; y10; y11; y12; y13; y14; y15].
Lemma rev_permute_16 (x0 x1 x2 x3 x4 x5 x6 x7 x8 x9 x10 x11 x12 x13 x14 x15 : cx) :
  rev_permute 2 [x0; x1; x2; x3; x4; x5; x6; x7; x8; x9; x10; x11; x12; x13; x14; x15] =
  Done [x0; x4; x2; x5; x1; x3; x6; x7; x8; x9; x10; x11; x12; x13; x14; x15].
Proof. vm_compute. reflexivity. Qed.
End Plan.
Arguments pcall : clear implicits.

Lemma while_S {S} f cd (b : S -> exec S) s : while_ (Datatypes.S f) cd b s = if cd s then s' <- b s ;; while_ f cd b s' else Done s.
Proof. reflexivity. Qed.
Lemma radix4_16 {T : Type} {F : Float T} (c : cfg) p x0 x1 x2 x3 x4 x5 x6 x7 x8 x9 x10 x11 x12 x13 x14 x15 : cache_ok p ->
  exists p', fft_radix4 c p [x0; x1; x2; x3; x4; x5; x6; x7; x8; x9; x10; x11; x12; x13; x14; x15] =
   Done (p', r4_16 c x0 x1 x2 x3 x4 x5 x6 x7 x8 x9 x10 x11 x12 x13 x14 x15
         (nthc (twf c 16) 1) (nthc (twf c 16) 2) (nthc (twf c 16) 3), ROk).
Proof.
  intros Hc. unfold fft_radix4. change (length [x0; x1; x2; x3; x4; x5; x6; x7; x8; x9; x10; x11; x12; x13; x14; x15]) with 16.
  change (is_pow2 16) with true. change (Nat.even (Nat.log2 16)) with true.
  change (negb true || negb true) with false. cbn iota. rewrite rev_permute_16, bind_Done.
  match goal with |- context [while_ 17 ?cc ?b (4, p, ?l)] => set (cond := cc); set (body := b) end.
  assert (Ht : length (twf c 16) = 8) by apply twf_length.
  rewrite while_S. change (cond (4, p, [x0; x4; x2; x5; x1; x3; x6; x7; x8; x9; x10; x11; x12; x13; x14; x15])) with true. cbn iota.
  destruct (butterfly4 c x0 x4 x2 x5) as [[[a0 a1] a2] a3] eqn:Ea.
  destruct (butterfly4 c x1 x3 x6 x7) as [[[b0 b1] b2] b3] eqn:Eb.
  destruct (butterfly4 c x8 x9 x10 x11) as [[[d0 d1] d2] d3] eqn:Ed.
  destruct (butterfly4 c x12 x13 x14 x15) as [[[e0 e1] e2] e3] eqn:Ee.
  assert (E1 : body (4, p, [x0; x4; x2; x5; x1; x3; x6; x7; x8; x9; x10; x11; x12; x13; x14; x15]) =
    Done (16, p, [a0; a1; a2; a3; b0; b1; b2; b3; d0; d1; d2; d3; e0; e1; e2; e3])).
  { unfold body. injection Ea as <- <- <- <-. injection Eb as <- <- <- <-. injection Ed as <- <- <- <-. injection Ee as <- <- <- <-.
    cbv -[cadd csub cmul]. reflexivity. }
  rewrite E1, bind_Done, while_S. change (cond (16, p, [a0; a1; a2; a3; b0; b1; b2; b3; d0; d1; d2; d3; e0; e1; e2; e3])) with true. cbn iota.
  unfold body at 1. change (16 =? 4) with false. cbn iota. rewrite (get_twiddles_ok c 16 Hc).
  rewrite !get_nth with (d := czero) by (rewrite Ht; lia). rewrite !bind_Done.
  fold (nthc (twf c 16) 1). fold (nthc (twf c 16) 2). fold (nthc (twf c 16) 3).
  generalize (nthc (twf c 16) 1) (nthc (twf c 16) 2) (nthc (twf c 16) 3). intros s1 s2 s3.
  rewrite while_S. change (0 <? 16) with true. cbn iota. unfold r4_16. rewrite Ea, Eb, Ed, Ee.
  eexists. clear. subst body cond. cbv -[cadd csub cmul with_cache cache_after]. reflexivity.
Qed.

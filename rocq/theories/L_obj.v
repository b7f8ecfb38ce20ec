(* Any-arithmetic facts about whole objects: every public operation preserves
   the planner invariant; size bounds; inverse transform; histories. *)
From Coq Require Import ZArith ZifyBool ZifyNat.
From Verif Require Export L_fft.
Ltac Zify.zify_post_hook ::= Z.div_mod_to_equations.
Set Implicit Arguments.

Lemma bind_inv {A B} (e : exec A) (k : A -> exec B) b : bind e k = Done b -> exists a, e = Done a /\ k a = Done b.
Proof. destruct e; cbn; try discriminate. eauto. Qed.
Lemma while_done {S} (P : S -> Prop) fuel c body : (forall s s', P s -> c s = true -> body s = Done s' -> P s') ->
  forall s s', P s -> while_ fuel c body s = Done s' -> P s' /\ c s' = false.
Proof.
  intros H. induction fuel as [|f IH]; intros s s' HP E; cbn [while_] in E; [discriminate|].
  destruct (c s) eqn:Ec.
  - apply bind_inv in E. destruct E as (s1 & E1 & E2). eapply IH; [|exact E2]. eauto.
  - injection E as <-. auto.
Qed.
Lemma for_n_done {S} (P : S -> Prop) n body : forall i s s', (forall i s s', P s -> body i s = Done s' -> P s') ->
  P s -> for_n n i body s = Done s' -> P s'.
Proof.
  induction n as [|n IH]; intros i s s' H HP E; cbn [for_n] in E; [injection E as <-; exact HP|].
  apply bind_inv in E. destruct E as (s1 & E1 & E2). eapply IH; [exact H| |exact E2]. eauto.
Qed.
Lemma for_range_done {S} (P : S -> Prop) lo hi body s s' : (forall i s s', P s -> body i s = Done s' -> P s') ->
  P s -> for_range lo hi body s = Done s' -> P s'.
Proof. apply for_n_done. Qed.
Lemma set_length {A} (l : list A) i v l' : set l i v = Done l' -> length l' = length l.
Proof. unfold set. destruct (_ <? _); [|discriminate]. intros H. injection H as <-. apply upd_length. Qed.

Ltac inv_bind H :=
  let a := fresh "v" in let E := fresh "E" in
  apply bind_inv in H; destruct H as (a & E & H).

Section Obj.
Context {T : Type} {F : Float T}.
Variable c : cfg.
Local Notation cx := (cx T).

Definition supported (n : nat) : bool := c_std c || is_pow2 n.
Lemma supported_cases n : supported n = true <-> (c_std c = true \/ is_pow2 n = true).
Proof. apply orb_true_iff. Qed.

(* p' is a possible successor of p after transforming n points *)
Definition step_ok (p p' : planner T) (n : nat) : Prop :=
  Inv c p' /\ forall N, length (pl_sre p) <= N -> length (pl_bscratch p) <= N -> padded n <= N ->
     length (pl_sre p') <= N /\ length (pl_bscratch p') <= N.
Definition preserves (op : fft_ty) : Prop := forall p x p' y r,
  Inv c p -> op p x = Done (p', y, r) -> step_ok p p' (length x) /\ length y = length x.
Lemma step_refl p n : Inv c p -> step_ok p p n.
Proof. intros H. split; auto. Qed.
Lemma step_trans p p' p'' n : step_ok p p' n -> step_ok p' p'' n -> step_ok p p'' n.
Proof.
  intros [_ H1] [I2 H2]. split; [exact I2|]. intros N Ha Hb Hc. destruct (H1 N Ha Hb Hc). apply H2; assumption.
Qed.

Lemma fft_cases p x : Inv c p ->
  (length x = 0 /\ fft c p x = Done (p, x, RErr EmptyInput)) \/
  (0 < length x /\ supported (length x) = false /\ fft c p x = Done (p, x, RErr NonPowerOfTwoNoStd)) \/
  (0 < length x /\ supported (length x) = true /\ exists p' y, fft c p x = Done (p', y, ROk) /\ step_ok p p' (length x) /\
     length y = length x /\ (ready c p (length x) -> y = fft_fresh c x)).
Proof.
  intros HI. destruct (Nat.eq_dec (length x) 0) as [E|E].
  - left. destruct x; [|discriminate]. split; reflexivity.
  - right. destruct (supported (length x)) eqn:Es.
    + right. split; [lia|]. split; [reflexivity|].
      destruct (@fft_ok T F c p x HI ltac:(lia)) as (p' & y & Ef & HI' & Hl & Hr & Hb); [apply supported_cases; exact Es|].
      exists p', y. repeat split; auto; try apply HI'; apply Hb; assumption.
    + left. split; [lia|]. split; [reflexivity|]. unfold supported in Es. apply orb_false_iff in Es.
      apply fft_nostd; [apply Es|lia|apply Es].
Qed.
Lemma fft_preserves : preserves (fft c).
Proof.
  intros p x p' y r HI E. destruct (@fft_cases p x HI) as [[H1 H2]|[(H1 & H2 & H3)|(H1 & H2 & q & z & H3 & H4 & H5 & H6)]].
  - rewrite H2 in E. injection E as <- <- <-. split; [apply step_refl; exact HI|reflexivity].
  - rewrite H3 in E. injection E as <- <- <-. split; [apply step_refl; exact HI|reflexivity].
  - rewrite H3 in E. injection E as <- <- <-. auto.
Qed.

(* ---------- inverse ---------- *)
Definition ifft_fresh (x : list cx) : list cx :=
  if length x =? 1 then x
  else map (fun v => cscale (fdiv fone (fofnat (length x))) (cconj v)) (fft_fresh c (map cconj x)).
Lemma ifft_cases p x : Inv c p ->
  (length x = 0 /\ ifft c p x = Done (p, x, RErr EmptyInput)) \/
  (0 < length x /\ supported (length x) = false /\ ifft c p x = Done (p, map cconj x, RErr NonPowerOfTwoNoStd)) \/
  (0 < length x /\ supported (length x) = true /\ exists p' y, ifft c p x = Done (p', y, ROk) /\ step_ok p p' (length x) /\
     length y = length x /\ (ready c p (length x) -> y = ifft_fresh x)).
Proof.
  intros HI. unfold ifft, ifft_fresh. destruct (Nat.eqb_spec (length x) 0) as [E|E]; [left; auto|]. right.
  destruct (Nat.eqb_spec (length x) 1) as [E1|E1].
  - right. split; [lia|]. rewrite E1. split; [unfold supported; apply orb_true_r|].
    exists p, x. repeat split; auto; apply HI.
  - destruct (@fft_cases p (map cconj x) HI) as [[H1 H2]|[(H1 & H2 & H3)|(H1 & H2 & q & z & H3 & H4 & H5 & H6)]];
    rewrite map_length in *; [lia| |].
    + left. rewrite H3. cbn [bind]. auto.
    + right. split; [lia|]. split; [exact H2|]. rewrite H3. cbn [bind]. eexists _, _. split; [reflexivity|].
      split; [exact H4|]. split; [rewrite map_length; exact H5|]. intros Hr. rewrite (H6 Hr). reflexivity.
Qed.
Lemma ifft_preserves : preserves (ifft c).
Proof.
  intros p x p' y r HI E. destruct (@ifft_cases p x HI) as [[H1 H2]|[(H1 & H2 & H3)|(H1 & H2 & q & z & H3 & H4 & H5 & H6)]].
  - rewrite H2 in E. injection E as <- <- <-. split; [apply step_refl; exact HI|reflexivity].
  - rewrite H3 in E. injection E as <- <- <-. split; [apply step_refl; exact HI|apply map_length].
  - rewrite H3 in E. injection E as <- <- <-. auto.
Qed.

(* ---------- Stockham entry ---------- *)
Lemma padded_pow2 n : is_pow2 n = true -> padded n = n.
Proof. unfold padded. intros ->. reflexivity. Qed.
Lemma stockham_cases p x : Inv c p -> 1 < length x -> is_pow2 (length x) = true ->
  exists p', stockham_fft c p x = Done (p', pow2_out c (pl_sre p) (pl_sim p) x, ROk) /\ step_ok p p' (length x).
Proof.
  intros HI Hn Hp. unfold stockham_fft. destruct (Nat.le_gt_cases (length x) 16) as [H|H].
  - unfold stockham_. rewrite Hp. destruct (Nat.eqb_spec (length x) 0); [lia|]. cbn [negb].
    destruct (Nat.leb_spec (length x) 16); [|lia].
    destruct (@small_kernel_ok T F c p x Hp ltac:(lia)) as [E _]. exists p. rewrite E.
    split; [|apply step_refl; exact HI]. do 3 f_equal. unfold pow2_out, pow2fft.
    destruct (Nat.leb_spec (length x) 16); [|lia]. destruct (Nat.leb_spec (length x) 1); [lia|]. reflexivity.
  - destruct (@stockham_ok T F c (fft c) p x HI Hp H) as (p' & E & HI' & Hb & _ & Hs & _).
    exists p'. split; [exact E|]. split; [exact HI'|]. intros N H1 H2 H3. rewrite padded_pow2 in H3 by exact Hp.
    rewrite Hb, Hs. lia.
Qed.
Lemma stockham_nonpow2 p x : 0 < length x -> is_pow2 (length x) = false -> stockham_fft c p x = fft c p x.
Proof.
  intros Hn Hp. unfold stockham_fft, stockham_. rewrite Hp. destruct (Nat.eqb_spec (length x) 0); [lia|]. reflexivity.
Qed.
Lemma stockham_preserves : preserves (stockham_fft c).
Proof.
  intros p x p' y r HI E. destruct (Nat.eq_dec (length x) 0) as [E0|E0].
  - destruct x; [|discriminate]. injection E as <- <- <-. split; [apply step_refl; exact HI|reflexivity].
  - destruct (is_pow2 (length x)) eqn:Hp.
    + destruct (Nat.eq_dec (length x) 1) as [E1|E1].
      * unfold stockham_fft, stockham_, small_kernel in E. rewrite E1 in E. discriminate.
      * destruct (@stockham_cases p x HI ltac:(lia) Hp) as (q & Eq & Hs). rewrite Eq in E. injection E as <- <- <-.
        split; [exact Hs|]. apply pow2_out_length; [apply HI|exact Hp].
    + rewrite stockham_nonpow2 in E by (auto; lia). eapply fft_preserves; eassumption.
Qed.

(* ---------- radix 4 ---------- *)
Lemma get_twiddles_step p n k : Inv c p -> step_ok p (fst (get_twiddles c p n)) k.
Proof.
  intros HI. pose proof HI as (Hc & Hb & H3 & H4 & H5). rewrite (get_twiddles_ok c n Hc). cbn [fst].
  split; [|intros N; cbn; auto].
  split; [intros q t; cbn [pl_cache with_cache]; apply cache_after_ok; exact Hc|]. split; [exact Hb|]. auto.
Qed.
Lemma swap_length {A} (l l' : list A) i j : swap l i j = Done l' -> length l' = length l.
Proof.
  unfold swap. intros H. inv_bind H. inv_bind H. inv_bind H. apply set_length in E1, H. congruence.
Qed.
Lemma rev_permute_length s (x y : list cx) : rev_permute s x = Done y -> length y = length x.
Proof.
  unfold rev_permute. intros H. inv_bind H. destruct v as [j z]. injection H as <-.
  apply (@for_range_done _ (fun s => length (snd s) = length x)) in E; [exact E| |reflexivity].
  intros i [a l] [a' l'] Hl E'. cbn [snd] in *. inv_bind E'. inv_bind E'. injection E' as <- <-.
  destruct (i <? v); [apply swap_length in E1; congruence|]. injection E1 as <-. exact Hl.
Qed.
Lemma r4_bf_length len i j w1 w2 w3 (x y : list cx) : r4_bf c len i j w1 w2 w3 x = Done y -> length y = length x.
Proof.
  unfold r4_bf. intros H. do 4 inv_bind H. destruct (butterfly4 _ _ _ _ _) as [[[x0 x1] x2] x3].
  do 3 inv_bind H. apply set_length in E3, E4, E5, H. congruence.
Qed.
Lemma r4_bf4_length i (x y : list cx) : r4_bf4 c i x = Done y -> length y = length x.
Proof.
  unfold r4_bf4. intros H. do 4 inv_bind H. destruct (butterfly4 _ _ _ _ _) as [[[x0 x1] x2] x3].
  do 3 inv_bind H. apply set_length in E3, E4, E5, H. congruence.
Qed.
Lemma r4_block_length len i s1 s2 s3 (x y : list cx) : r4_block c len i s1 s2 s3 x = Done y -> length y = length x.
Proof.
  unfold r4_block. intros H. inv_bind H. destruct v as [[[a b] d] z]. injection H as <-.
  apply (@for_range_done _ (fun s => length (snd s) = length x)) in E; [exact E| |reflexivity].
  intros k [[[? ?] ?] l] [[[? ?] ?] l'] Hl E'. cbn [snd] in *. inv_bind E'. apply r4_bf_length in E0.
  injection E' as _ _ _ <-. congruence.
Qed.
Lemma radix4_preserves : preserves (fft_radix4 c).
Proof.
  intros p x p' y r HI E. unfold fft_radix4 in E.
  destruct (_ || _); [eapply fft_preserves; eassumption|].
  inv_bind E. rename v into x1. pose proof (rev_permute_length _ _ E0) as Hl1.
  inv_bind E. destruct v as [[len q] z]. injection E as <- <- <-.
  apply (@while_done _ (fun s => step_ok p (snd (fst s)) (length x) /\ length (snd s) = length x)) in E1.
  - exact (proj1 E1).
  - intros [[l q1] z1] [[l' q2] z2] [Hs Hl] _ Eb. cbn [fst snd] in *. inv_bind Eb. destruct v as [q3 z3].
    injection Eb as _ <- <-. destruct (l =? 4).
    + inv_bind E. destruct v as [i z4]. injection E as <- <-. split; [exact Hs|].
      apply (@while_done _ (fun s => length (snd s) = length x)) in E2; [exact (proj1 E2)| |exact Hl].
      intros [i1 y1] [i2 y2] Hy _ E'. cbn [snd] in *. inv_bind E'. apply r4_bf4_length in E. injection E' as _ <-. congruence.
    + destruct (get_twiddles c q1 l) as [q4 tw] eqn:Et. do 3 inv_bind E. inv_bind E. destruct v2 as [i z4].
      injection E as <- <-. split.
      * eapply step_trans; [exact Hs|]. replace q4 with (fst (get_twiddles c q1 l)) by (rewrite Et; reflexivity).
        apply get_twiddles_step. apply Hs.
      * apply (@while_done _ (fun s => length (snd s) = length x)) in E5; [exact (proj1 E5)| |exact Hl].
        intros [i1 y1] [i2 y2] Hy _ E'. cbn [snd] in *. inv_bind E'. apply r4_block_length in E. injection E' as _ <-. congruence.
  - cbn [fst snd]. split; [apply step_refl; exact HI|exact Hl1].
Qed.
Lemma strategy_preserves s : preserves (fft_with_strategy c s).
Proof.
  intros p x p' y r HI E. unfold fft_with_strategy in E.
  destruct (length x =? 0); [injection E as <- <- <-; split; [apply step_refl; exact HI|reflexivity]|].
  destruct (length x =? 1); [injection E as <- <- <-; split; [apply step_refl; exact HI|reflexivity]|].
  destruct (match s with Auto => plan_strategy (length x) | _ => s end).
  - eapply fft_preserves; eassumption.
  - destruct (c_std c); [eapply radix4_preserves; eassumption|eapply fft_preserves; eassumption].
  - eapply stockham_preserves; eassumption.
  - eapply fft_preserves; eassumption.
Qed.
Lemma mixed_tw_preserves : preserves (fft_mixed_radix_with_twiddles c).
Proof.
  intros p x p' y r HI E. unfold fft_mixed_radix_with_twiddles in E. inv_bind E.
  destruct (forallb _ _); [destruct (forallb _ _); eapply stockham_preserves; eassumption|eapply fft_preserves; eassumption].
Qed.
Lemma mixed_preserves : preserves (fft_mixed_radix c).
Proof.
  intros p x p' y r HI E. unfold fft_mixed_radix in E.
  destruct (length x =? 0); [injection E as <- <- <-; split; [apply step_refl; exact HI|reflexivity]|].
  destruct (length x =? 1); [injection E as <- <- <-; split; [apply step_refl; exact HI|reflexivity]|].
  inv_bind E. destruct (forallb _ _); [|eapply fft_preserves; eassumption].
  destruct (_ && _); [eapply radix4_preserves; eassumption|eapply stockham_preserves; eassumption].
Qed.

(* ---------- split entry points ---------- *)
Lemma unzip_loop (buf : list cx) (a b : list T) : length buf = length a -> length a = length b ->
  for_range 0 (length a) (fun i '(a, b) =>
     v <- get buf i ;; a <- set a i (re v) ;; b <- set b i (im v) ;; Done (a, b)) (a, b)
   = Done (map re buf, map im buf).
Proof.
  intros H1 H2.
  destruct (@for_inv (list T * list T) (fun i s => fst s = firstn i (map re buf) ++ skipn i a /\ snd s = firstn i (map im buf) ++ skipn i b)
     (fun i '(a, b) => v <- get buf i ;; a <- set a i (re v) ;; b <- set b i (im v) ;; Done (a, b)) 0 (length a) (a, b))
    as ([a' b'] & E & Ha & Hb); cbn [fst snd] in *.
  - lia.
  - split; reflexivity.
  - intros i [a1 b1] Hi [E1 E2]. cbn [fst snd] in *. rewrite get_nth with (d := czero) by lia. cbn [bind].
    assert (L1 : length a1 = length a) by (rewrite E1, app_length, firstn_length, skipn_length, map_length; lia).
    assert (L2 : length b1 = length a) by (rewrite E2, app_length, firstn_length, skipn_length, map_length; lia).
    rewrite set_ok by lia. cbn [bind]. rewrite set_ok by lia. cbn [bind].
    eexists; split; [reflexivity|]. cbn [fst snd]. split.
    + apply list_ext with (d := re czero).
      * rewrite upd_length, app_length, firstn_length, skipn_length, map_length. lia.
      * rewrite upd_length. intros j Hj. rewrite nth_upd by lia. rewrite E1.
        destruct (Nat.eqb_spec j i) as [->|Hne].
        -- rewrite app_nth1 by (rewrite firstn_length, map_length; lia). rewrite nth_firstn by lia. rewrite map_nth. reflexivity.
        -- destruct (Nat.lt_ge_cases j i).
           ++ rewrite !app_nth1 by (rewrite firstn_length, map_length; lia). rewrite !nth_firstn by lia. reflexivity.
           ++ rewrite !app_nth2 by (rewrite firstn_length, map_length; lia). rewrite !firstn_length, map_length, !nth_skipn.
              f_equal. lia.
    + apply list_ext with (d := im czero).
      * rewrite upd_length, app_length, firstn_length, skipn_length, map_length. lia.
      * rewrite upd_length. intros j Hj. rewrite nth_upd by lia. rewrite E2.
        destruct (Nat.eqb_spec j i) as [->|Hne].
        -- rewrite app_nth1 by (rewrite firstn_length, map_length; lia). rewrite nth_firstn by lia. rewrite map_nth. reflexivity.
        -- destruct (Nat.lt_ge_cases j i).
           ++ rewrite !app_nth1 by (rewrite firstn_length, map_length; lia). rewrite !nth_firstn by lia. reflexivity.
           ++ rewrite !app_nth2 by (rewrite firstn_length, map_length; lia). rewrite !firstn_length, map_length, !nth_skipn.
              f_equal. lia.
  - rewrite E, Ha, Hb. rewrite !firstn_all2, !skipn_all2, !app_nil_r by (rewrite ?map_length; lia). reflexivity.
Qed.

(* all the split transform does: via the interleaved one for small or
   non-power-of-two lengths, directly otherwise *)
Lemma split_simd_via p a b : Inv c p -> length a = length b ->
  (length a = 0 /\ fft_split_simd c p a b = Done (p, a, b, RErr EmptyInput)) \/
  (0 < length a /\ supported (length a) = false /\ fft_split_simd c p a b = Done (p, a, b, RErr NonPowerOfTwoNoStd)) \/
  (0 < length a /\ supported (length a) = true /\ exists p' y, fft_split_simd c p a b = Done (p', map re y, map im y, ROk) /\
     step_ok p p' (length a) /\ length y = length a /\
     (c_kind c <> OtherT -> ready c p (length a) \/ (is_pow2 (length a) = true) -> y = fft_fresh c (zipc a b))).
Proof.
  intros HI Hab. unfold fft_split_simd, fft_split_simd_ at 1 2.
  assert (Hz : length (zipc a b) = length a) by (rewrite zipc_length; lia).
  destruct (Nat.eqb_spec (length a) 0); [left; auto|]. right.
  destruct (negb (is_pow2 (length a)) || (length a <=? 16)) eqn:Eb.
  - destruct (@fft_cases p (zipc a b) HI) as [[H1 H2]|[(H1 & H2 & H3)|(H1 & H2 & q & z & H3 & H4 & H5 & H6)]]; rewrite Hz in *; [lia| |].
    + left. rewrite H3. auto.
    + right. split; [lia|]. split; [exact H2|]. exists q, z. unfold fft_split_simd_. rewrite Eb.
      destruct (Nat.eqb_spec (length a) 0); [lia|]. rewrite H3. cbn [bind]. rewrite unzip_loop by lia. cbn [bind].
      split; [reflexivity|]. split; [exact H4|]. split; [exact H5|]. intros _ [Hr|Hr]; [exact (H6 Hr)|].
      apply H6. unfold ready, fits. rewrite Hr in *. left. cbn in Eb. lia.
  - right. apply orb_false_iff in Eb. destruct Eb as [Ep El]. apply negb_false_iff in Ep. apply Nat.leb_gt in El.
    split; [lia|]. split; [unfold supported; rewrite Ep; apply orb_true_r|].
    pose proof Ep as Ep'. apply is_pow2_iff in Ep'. destruct Ep' as [L HL].
    destruct (@fft_split_simd_ok T F c (fft c) p a b L) as (r & i & E); [apply HI|lia|lia|lia|].
    eexists _, (stkp c cmul_plain (zipc a b)). split; [exact E|]. split.
    + pose proof HI as (Hc & Hbl & H3 & H4 & H5). split; [|intros N; cbn; auto].
      split; [intros q t; cbn [pl_cache with_cache with_sscratch]; apply cache_after_ok; exact Hc|]. split; [exact Hbl|]. auto.
    + split; [rewrite stkp_length; exact Hz|]. intros Hk _. unfold fft_fresh, pow2fft, mulk. rewrite Hz, Ep.
      destruct (Nat.leb_spec (length a) 1); [lia|]. destruct (Nat.leb_spec (length a) 16); [lia|].
      destruct (c_kind c); [reflexivity|reflexivity|congruence].
Qed.

(* ---------- histories ---------- *)
(* One public call on a ScalarFftImpl object. *)
Inductive call :=
| CFft (x : list cx) | CIfft (x : list cx) | CStockham (x : list cx)
| CStrategy (s : strategy) (x : list cx) | CRadix4 (x : list cx)
| CMixed (x : list cx) | CMixedTw (x : list cx)
| CSplit (re_ im_ : list T) | CISplit (re_ im_ : list T)
| CStrided (x : list cx) (stride : nat) (scratch : list cx)
| CIStrided (x : list cx) (stride : nat) (scratch : list cx)
| CStridedAlloc (x : list cx) (stride : nat) | CIStridedAlloc (x : list cx) (stride : nat)
| COop (x : list cx) (is_ : nat) (y : list cx) (os : nat)
| CIOop (x : list cx) (is_ : nat) (y : list cx) (os : nat).
Definition forget {A} (e : exec (planner T * A * rres)) : exec (planner T) :=
  '(p, _, _) <- e ;; Done p.
Definition run_call (p : planner T) (k : call) : exec (planner T) :=
  match k with
  | CFft x => forget (fft c p x)
  | CIfft x => forget (ifft c p x)
  | CStockham x => forget (stockham_fft c p x)
  | CStrategy s x => forget (fft_with_strategy c s p x)
  | CRadix4 x => forget (fft_radix4 c p x)
  | CMixed x => forget (fft_mixed_radix c p x)
  | CMixedTw x => forget (fft_mixed_radix_with_twiddles c p x)
  | CSplit a b => '(p, _, _, _) <- fft_split c p a b ;; Done p
  | CISplit a b => '(p, _, _, _) <- ifft_split c p a b ;; Done p
  | CStrided x s scr => '(p, _, _, _) <- fft_strided c p x s scr ;; Done p
  | CIStrided x s scr => '(p, _, _, _) <- ifft_strided c p x s scr ;; Done p
  | CStridedAlloc x s => forget (fft_strided_alloc c p x s)
  | CIStridedAlloc x s => forget (ifft_strided_alloc c p x s)
  | COop x i y o => forget (fft_out_of_place_strided c p x i y o)
  | CIOop x i y o => forget (ifft_out_of_place_strided c p x i y o)
  end.
Fixpoint run_calls (p : planner T) (ks : list call) : exec (planner T) :=
  match ks with
  | [] => Done p
  | k :: t => p <- run_call p k ;; run_calls p t
  end.
(* number of points a call transforms *)
Definition call_size (k : call) : nat :=
  match k with
  | CFft x | CIfft x | CStockham x | CStrategy _ x | CRadix4 x | CMixed x | CMixedTw x => length x
  | CSplit a _ | CISplit a _ => length a
  | CStrided _ _ scr | CIStrided _ _ scr => length scr
  | CStridedAlloc x s | CIStridedAlloc x s => if s =? 0 then 0 else length x / s
  | COop x i _ _ | CIOop x i _ _ => if i =? 0 then 0 else length x / i
  end.
(* an object obtained from ScalarFftImpl::default() by calls that returned *)
Definition reachable (p : planner T) : Prop := exists ks, run_calls new_planner ks = Done p.

Lemma with_scratch_step p p' s n : step_ok p p' n -> step_ok p (with_scratch p' s) n.
Proof. intros [(H1 & H2 & H3 & H4 & H5) H]. split; [|exact H]. repeat split; assumption. Qed.
Lemma with_scratch_Inv p s : Inv c p -> Inv c (with_scratch p s).
Proof. intros (H1 & H2 & H3 & H4 & H5). repeat split; assumption. Qed.
Lemma with_scratch_step_l p p' s n : step_ok (with_scratch p s) p' n -> step_ok p p' n.
Proof. intros H; exact H. Qed.
Lemma strided_preserves op : preserves op -> forall p x s scr p' x' scr' r, Inv c p ->
  strided op p x s scr = Done (p', x', scr', r) -> step_ok p p' (length scr) /\ length x' = length x /\ length scr' = length scr.
Proof.
  intros Hop p x s scr p' x' scr' r HI E. unfold strided in E.
  destruct (s =? 0); [injection E as <- <- <- <-; split; [apply step_refl; exact HI|auto]|].
  destruct (length scr =? 0); [injection E as <- <- <- <-; split; [apply step_refl; exact HI|auto]|].
  destruct (_ <? _); [injection E as <- <- <- <-; split; [apply step_refl; exact HI|auto]|].
  inv_bind E. apply (@for_range_done _ (fun l => length l = length scr)) in E0; [| |reflexivity].
  2:{ intros i l l' Hl E'. inv_bind E'. apply set_length in E'. congruence. }
  inv_bind E. destruct v0 as [[q y] [|e]].
  - apply Hop in E1; [|exact HI]. rewrite E0 in E1. inv_bind E.
    apply (@for_range_done _ (fun l => length l = length x)) in E2; [| |reflexivity].
    2:{ intros i l l' Hl E'. inv_bind E'. apply set_length in E'. congruence. }
    injection E as <- <- <- <-. split; [apply E1|]. split; [exact E2|]. destruct E1 as [_ E1]. congruence.
  - apply Hop in E1; [|exact HI]. rewrite E0 in E1. injection E as <- <- <- <-. split; [apply E1|]. split; [auto|]. destruct E1. congruence.
Qed.
Lemma strided_alloc_preserves op : preserves op -> forall p x s p' x' r, Inv c p ->
  strided_alloc op p x s = Done (p', x', r) -> step_ok p p' (if s =? 0 then 0 else length x / s).
Proof.
  intros Hop p x s p' x' r HI E. unfold strided_alloc in E.
  set (n := if s =? 0 then 0 else length x / s) in *.
  inv_bind E. inv_bind E. destruct v0 as [[[q x1] part] r1]. injection E as <- <- <-.
  apply with_scratch_step. apply strided_preserves in E1; [|exact Hop|apply with_scratch_Inv; exact HI].
  unfold slice_to in E0. destruct (Nat.leb_spec n (length (grow (pl_scratch p) n czero))); [|discriminate].
  injection E0 as <-. rewrite firstn_length, Nat.min_l in E1 by lia. exact (proj1 E1).
Qed.
Lemma oop_preserves op : preserves op -> forall p x i y o p' y' r, Inv c p ->
  oop_strided op p x i y o = Done (p', y', r) -> step_ok p p' (if i =? 0 then 0 else length x / i).
Proof.
  intros Hop p x i y o p' y' r HI E. unfold oop_strided in E.
  destruct (Nat.eqb_spec i 0) as [Ei|Ei]; cbn [orb] in E; [injection E as <- <- <-; apply step_refl; exact HI|].
  destruct (o =? 0); [injection E as <- <- <-; apply step_refl; exact HI|].
  destruct (_ || _); [injection E as <- <- <-; apply step_refl; exact HI|].
  set (n := length x / i) in *.
  destruct (negb _); [injection E as <- <- <-; apply step_refl; exact HI|].
  inv_bind E. apply (@for_range_done _ (fun l => length l = length (grow (pl_scratch p) n czero))) in E0; [| |reflexivity].
  2:{ intros k l l' Hl E'. inv_bind E'. apply set_length in E'. congruence. }
  inv_bind E. unfold slice_to in E1. destruct (Nat.leb_spec n (length v)); [|discriminate]. injection E1 as <-.
  inv_bind E. destruct v0 as [[q z] [|e]].
  - apply Hop in E1; [|apply with_scratch_Inv; exact HI]. rewrite firstn_length, Nat.min_l in E1 by lia.
    inv_bind E. injection E as <- <- <-. apply with_scratch_step. exact (proj1 E1).
  - apply Hop in E1; [|apply with_scratch_Inv; exact HI]. rewrite firstn_length, Nat.min_l in E1 by lia.
    injection E as <- <- <-. exact (proj1 E1).
Qed.
Lemma split_default_preserves op : preserves op -> forall p a b p' a' b' r, Inv c p -> length a = length b ->
  split_default op p a b = Done (p', a', b', r) -> step_ok p p' (length a).
Proof.
  intros Hop p a b p' a' b' r HI Hab E. unfold split_default in E.
  destruct (negb _); [injection E as <- <- <- <-; apply step_refl; exact HI|].
  inv_bind E. destruct v as [[q z] [|e]].
  - apply Hop in E0; [|exact HI]. inv_bind E. destruct v as [a1 b1]. injection E as <- <- <- <-.
    rewrite zipc_length, <- Hab, Nat.min_id in E0. apply E0.
  - apply Hop in E0; [|exact HI]. injection E as <- <- <- <-.
    rewrite zipc_length, <- Hab, Nat.min_id in E0. apply E0.
Qed.
Lemma split_simd_preserves p a b p' a' b' r : Inv c p -> length a = length b ->
  fft_split_simd c p a b = Done (p', a', b', r) -> step_ok p p' (length a) /\ length a' = length a.
Proof.
  intros HI Hab E. destruct (@split_simd_via p a b HI Hab) as [[_ H]|[(_ & _ & H)|(_ & _ & q & y & H & Hs & Hl & _)]]; rewrite H in E;
    injection E as <- <- <- <-.
  - split; [apply step_refl; exact HI|reflexivity].
  - split; [apply step_refl; exact HI|reflexivity].
  - split; [exact Hs|]. rewrite map_length. exact Hl.
Qed.
Lemma fft_split_preserves p a b p' a' b' r : Inv c p ->
  fft_split c p a b = Done (p', a', b', r) -> step_ok p p' (length a).
Proof.
  intros HI E. unfold fft_split in E. destruct (Nat.eqb_spec (length a) (length b)) as [Hab|]; cbn [negb] in E.
  - destruct (c_kind c).
    + eapply split_simd_preserves; eassumption.
    + eapply split_simd_preserves; eassumption.
    + eapply split_default_preserves; [apply fft_preserves|exact HI|exact Hab|exact E].
  - injection E as <- <- <- <-. apply step_refl. exact HI.
Qed.
Lemma ifft_split_preserves p a b p' a' b' r : Inv c p ->
  ifft_split c p a b = Done (p', a', b', r) -> step_ok p p' (length a).
Proof.
  intros HI E. unfold ifft_split in E. destruct (Nat.eqb_spec (length a) (length b)) as [Hab|]; cbn [negb] in E.
  - assert (Hgo : ('(p0, re_, im_, r0) <- fft_split_simd c p a (map fneg b) ;;
         match r0 with
         | RErr e => Done (p0, re_, im_, RErr e)
         | ROk => Done (p0, map (fun r => fmul r (fdiv fone (fas (length re_)))) re_,
                        map (fun i => fmul (fneg i) (fdiv fone (fas (length re_)))) im_, ROk)
         end) = Done (p', a', b', r) -> step_ok p p' (length a)).
    { intros E'. inv_bind E'. destruct v as [[[q a1] b1] [|e]]; injection E' as <- <- <- <-;
      (eapply split_simd_preserves; [exact HI| |exact E0]; rewrite map_length; exact Hab). }
    destruct (c_kind c).
    + exact (Hgo E).
    + exact (Hgo E).
    + eapply split_default_preserves; [apply ifft_preserves|exact HI|exact Hab|exact E].
  - injection E as <- <- <- <-. apply step_refl. exact HI.
Qed.
Lemma forget_inv {A} (e : exec (planner T * A * rres)) p : forget e = Done p -> exists a r, e = Done (p, a, r).
Proof. unfold forget. intros H. inv_bind H. destruct v as [[q a] r]. injection H as <-. eauto. Qed.
Lemma run_call_step p k p' : Inv c p -> run_call p k = Done p' -> step_ok p p' (call_size k).
Proof.
  intros HI E. destruct k; cbn [run_call call_size] in *;
    try (apply forget_inv in E; destruct E as (y0 & r & E)).
  - eapply fft_preserves; eassumption.
  - eapply ifft_preserves; eassumption.
  - eapply stockham_preserves; eassumption.
  - eapply strategy_preserves; eassumption.
  - eapply radix4_preserves; eassumption.
  - eapply mixed_preserves; eassumption.
  - eapply mixed_tw_preserves; eassumption.
  - inv_bind E. destruct v as [[[q a] b] r]. injection E as <-. eapply fft_split_preserves; eassumption.
  - inv_bind E. destruct v as [[[q a] b] r]. injection E as <-. eapply ifft_split_preserves; eassumption.
  - inv_bind E. destruct v as [[[q a] b] r]. injection E as <-.
    eapply (strided_preserves fft_preserves); [exact HI|exact E0].
  - inv_bind E. destruct v as [[[q a] b] r]. injection E as <-.
    eapply (strided_preserves ifft_preserves); [exact HI|exact E0].
  - eapply (strided_alloc_preserves fft_preserves); [exact HI|exact E].
  - eapply (strided_alloc_preserves ifft_preserves); [exact HI|exact E].
  - eapply (oop_preserves fft_preserves); [exact HI|exact E].
  - eapply (oop_preserves ifft_preserves); [exact HI|exact E].
Qed.
Lemma run_calls_Inv ks : forall p p', Inv c p -> run_calls p ks = Done p' -> Inv c p'.
Proof.
  induction ks as [|k ks IH]; intros p p' HI E; cbn [run_calls] in E; [injection E as <-; exact HI|].
  inv_bind E. apply run_call_step in E0; [|exact HI]. eapply IH; [apply E0|exact E].
Qed.
Lemma run_calls_sizes ks N : forall p p', Inv c p -> run_calls p ks = Done p' ->
  (forall k, In k ks -> padded (call_size k) <= N) ->
  length (pl_sre p) <= N -> length (pl_bscratch p) <= N -> length (pl_sre p') <= N /\ length (pl_bscratch p') <= N.
Proof.
  induction ks as [|k ks IH]; intros p p' HI E Hk H1 H2; cbn [run_calls] in E; [injection E as <-; auto|].
  inv_bind E. apply run_call_step in E0; [|exact HI]. destruct E0 as [HI' Hb].
  destruct (Hb N H1 H2) as [H1' H2']; [apply Hk; left; reflexivity|].
  eapply IH; eauto. intros k' Hin. apply Hk. right. exact Hin.
Qed.
Lemma reachable_Inv p : reachable p -> Inv c p.
Proof. intros [ks E]. eapply run_calls_Inv; [apply Inv_new|exact E]. Qed.
Lemma reachable_new : reachable new_planner.
Proof. exists []. reflexivity. Qed.
Lemma history_ready ks p n : run_calls new_planner ks = Done p ->
  (forall k, In k ks -> padded (call_size k) <= padded n) -> ready c p n.
Proof.
  intros E H. destruct (@run_calls_sizes ks (padded n) new_planner p (@Inv_new T F c) E H) as [H1 H2]; cbn; try lia.
  apply ready_size; assumption.
Qed.
End Obj.
Arguments call : clear implicits.

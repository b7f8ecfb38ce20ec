(* Property C46: the planned DCT-II. *)
From Coq Require Import Reals Lra ZArith Lia.
From Verif Require Import L_trig L_prov P_entry P_rfft P_trig.
Set Implicit Arguments.
Open Scope nat_scope.

(* a DctPlanner after any sequence of plans and calls of their closures *)
Inductive dreach {T} {F : Float T} (c : cfg) : dplanner T -> Prop :=
| dr_new : dreach c (dp_new c)
| dr_plan v p len calls p' rs : dreach c p -> plan_dct2 c v p len calls = Done (p', rs) -> dreach c p'.

Section Any.
Context {T : Type} {F : Float T}.
Variable c : cfg.
Definition cos_table (n : nat) : list T := tab n (fun k => fcos (quarter n k)).
Definition dinv (p : dplanner T) : Prop :=
  (forall n t, assoc n (dp_cache p) = Some t -> t = cos_table n) /\ rreach c (dp_rfft p).
Lemma cos_table_ok p n : dinv p -> exists p', get_cos_table p n = (p', cos_table n) /\ dinv p'.
Proof.
  intros [H1 H2]. unfold get_cos_table. destruct (assoc n (dp_cache p)) as [t|] eqn:E.
  - exists p. rewrite (H1 n t E). split; [reflexivity|split; assumption].
  - eexists. split; [reflexivity|]. split; [|exact H2]. cbn [dp_cache assoc]. intros m t. destruct (Nat.eqb_spec m n) as [->|]; [|apply H1].
    intros K. injection K as <-. reflexivity.
Qed.
Lemma with_table_inv v p x out cos p' out' r : dinv p -> dct2_with_table c v p x out cos = Done (p', out', r) -> dinv p'.
Proof.
  intros [H1 H2] H. unfold dct2_with_table in H. destruct (negb (length out =? length x)); [injection H as <- <- <-; split; assumption|].
  destruct (slice_to (grow (dp_buf p) (2 * length x) fzero) (2 * length x)) as [buf| |] eqn:Eb; cbn [bind] in H; try discriminate H.
  destruct (for_range 0 (length x) _ buf) as [buf'| |] eqn:Ef; cbn [bind] in H; try discriminate H.
  destruct (slice_to (grow (dp_spec p) (length x + 1) czero) (length x + 1)) as [spec| |] eqn:Es; cbn [bind] in H; try discriminate H.
  destruct (prfft c (fft c) v (dp_rfft p) new_planner buf' spec) as [[[[rp s] sp] r0]| |] eqn:Er; cbn [bind] in H; try discriminate H.
  assert (R : rreach c rp) by (eapply rr_pfft; [exact H2|exact Er]).
  destruct r0 as [|e].
  - match type of H with bind ?e _ = _ => destruct e; cbn [bind] in H; try discriminate H end. injection H as <- <- <-. split; assumption.
  - injection H as <- <- <-. split; assumption.
Qed.
Lemma calls_inv v cos calls : forall p p' rs, dinv p -> dct_calls c v p cos calls = Done (p', rs) -> dinv p'.
Proof.
  induction calls as [|[x out] calls IH]; intros p p' rs Hp H; cbn [dct_calls] in H; [injection H as <- <-; exact Hp|].
  destruct (dct2_with_table c v p x out cos) as [[[p1 o1] r1]| |] eqn:E; cbn [bind] in H; try discriminate H.
  destruct (dct_calls c v p1 cos calls) as [[p2 rs2]| |] eqn:E2; cbn [bind] in H; try discriminate H.
  injection H as <- <-. eapply IH; [|exact E2]. eapply with_table_inv; [exact Hp|exact E].
Qed.
Lemma dreach_inv p : dreach c p -> dinv p.
Proof.
  induction 1 as [|v p len calls p' rs Hp IH H].
  - split; [cbn; discriminate|apply rr_new].
  - unfold plan_dct2 in H. destruct (@cos_table_ok p len IH) as (p1 & E & H1). rewrite E in H. eapply calls_inv; [exact H1|exact H].
Qed.
(* the input followed by its mirror image *)
Definition mirrored (x : list T) : list T := x ++ rev x.
Lemma mirror_buf (x buf : list T) : length buf = 2 * length x ->
  for_range 0 (length x) (fun i buf => xi <- get x i ;; buf <- set buf i xi ;; set buf (2 * length x - 1 - i) xi) buf = Done (mirrored x).
Proof.
  intros Hl. destruct x as [|a0 x0] eqn:Ex.
  { destruct buf as [|b buf]; [reflexivity|cbn in Hl; lia]. }
  rewrite <- Ex in *. set (n := length x) in *. set (m := 2 * n) in *.
  destruct (@for_inv (list T) (fun i b => length b = m /\ forall j, j < i -> nth j b a0 = nth j x a0 /\ nth (m - 1 - j) b a0 = nth j x a0)
    (fun i buf => xi <- get x i ;; buf <- set buf i xi ;; set buf (m - 1 - i) xi) 0 n buf) as (b & E & Hb & Hj).
  - lia.
  - split; [exact Hl|lia].
  - intros i b Hi [Hb Hj]. rewrite (@get_nth T x i a0) by (fold n; lia). cbn [bind].
    rewrite set_ok by lia. cbn [bind]. rewrite set_ok by (rewrite upd_length; lia).
    eexists. split; [reflexivity|]. split; [rewrite !upd_length; exact Hb|].
    intros j Hjj. rewrite !nth_upd by (rewrite ?upd_length; lia).
    destruct (Nat.eqb_spec j (m - 1 - i)), (Nat.eqb_spec j i), (Nat.eqb_spec (m - 1 - j) (m - 1 - i)), (Nat.eqb_spec (m - 1 - j) i);
      subst; try lia; try (split; reflexivity); try (apply Hj; lia).
  - rewrite E. f_equal. apply (@list_ext T b (mirrored x) a0); [unfold mirrored; rewrite app_length, rev_length; fold n; lia|].
    intros j Hjm. rewrite Hb in Hjm. unfold mirrored. destruct (Nat.lt_ge_cases j n) as [L|L].
    + rewrite app_nth1 by (fold n; exact L). apply Hj. exact L.
    + rewrite app_nth2 by (fold n; exact L). fold n. rewrite rev_nth by (fold n; lia). fold n.
      replace (n - S (j - n)) with (m - 1 - j) by lia. rewrite <- (proj2 (Hj (m - 1 - j) ltac:(lia))). f_equal. lia.
Qed.
End Any.

Open Scope R_scope.
Lemma new_does (c : cfg) n : (0 < n)%nat -> c_std c = true \/ is_pow2 n = true -> does (fft c) DFT n (new_planner (T := R)).
Proof.
  intros Hn Hs z Hz. destruct (@scalar_exact c n new_planner Hn Hs (@upto_new R RF c n)) as (P & H & HP).
  destruct (HP _ z H Hz) as [(s' & E & _) _]. exists s'. exact E.
Qed.
Lemma nth_mirrored (x : list R) j : (j < length x)%nat -> nth j (mirrored x) 0 = nth j x 0 /\ nth (2 * length x - 1 - j) (mirrored x) 0 = nth j x 0.
Proof.
  intros H. unfold mirrored. split; [apply app_nth1, H|]. rewrite app_nth2 by lia. rewrite rev_nth by lia. f_equal. lia.
Qed.
Lemma rsum_rev n f : rsum n f = rsum n (fun i => f (n - 1 - i)%nat).
Proof.
  induction n as [|n IH]; [reflexivity|]. rewrite (rsum_S_l n (fun i => f (S n - 1 - i)%nat)). cbn [rsum]. rewrite IH.
  replace (S n - 1 - 0)%nat with n by lia. rewrite (@rsum_ext n (fun i => f (S n - 1 - S i)%nat) (fun i => f (n - 1 - i)%nat)); [ring|].
  intros i Hi. f_equal. lia.
Qed.
Lemma rsum_split a b f : rsum (a + b) f = rsum a f + rsum b (fun i => f (a + i)%nat).
Proof.
  induction b as [|b IH]; [rewrite Nat.add_0_r; cbn; ring|]. rewrite Nat.add_succ_r. cbn [rsum]. rewrite IH. ring.
Qed.
(* a real sum over the mirrored signal is a sum of pairs *)
Lemma mirror_sum (x : list R) (f : nat -> R) : rsum (2 * length x) (fun j => nth j (mirrored x) 0 * f j)
  = rsum (length x) (fun i => nth i x 0 * (f i + f (2 * length x - 1 - i)%nat)).
Proof.
  replace (2 * length x)%nat with (length x + length x)%nat at 1 by lia. rewrite rsum_split.
  rewrite (rsum_rev (length x) (fun i => nth (length x + i) (mirrored x) 0 * f (length x + i)%nat)).
  rewrite <- rsum_add. apply rsum_ext. intros i Hi. destruct (nth_mirrored x Hi) as [E1 E2]. rewrite E1.
  replace (length x + (length x - 1 - i))%nat with (2 * length x - 1 - i)%nat by lia. rewrite E2. ring.
Qed.
Lemma dct_bin (x : list R) k : (k < length x)%nat ->
  let z := csum (2 * length x) (fun j => RtoC (nth j (mirrored x) 0) *c W (2 * length x) (j * k)) in
  / 2 * (re z * cos (PI * INR k / (2 * INR (length x))) + im z * sin (PI * INR k / (2 * INR (length x))))
  = rsum (length x) (fun i => xat x i * c2 (length x) k i).
Proof.
  intros Hk z. set (n := length x) in *. assert (P : INR n <> 0) by (apply not_0_INR; lia).
  set (t := PI * INR k / (2 * INR n)).
  assert (Er : re z = rsum (2 * n) (fun j => nth j (mirrored x) 0 * cos (2 * PI * INR (j * k) / INR (2 * n)))).
  { unfold z. rewrite re_csum. apply rsum_ext. intros j _. rewrite W_cs. cbn [re im Cmul RtoC]. ring. }
  assert (Ei : im z = rsum (2 * n) (fun j => nth j (mirrored x) 0 * - sin (2 * PI * INR (j * k) / INR (2 * n)))).
  { unfold z. rewrite im_csum. apply rsum_ext. intros j _. rewrite W_cs. cbn [re im Cmul RtoC]. ring. }
  rewrite Er, Ei. rewrite <- !rsum_scal_r, <- rsum_add, <- rsum_scal.
  rewrite (@rsum_ext (2 * n) _ (fun j => nth j (mirrored x) 0 * (/ 2 * cos (2 * PI * INR (j * k) / INR (2 * n) + t)))).
  2:{ intros j _. rewrite cos_plus. ring. }
  unfold n. rewrite (@mirror_sum x (fun j => / 2 * cos (2 * PI * INR (j * k) / INR (2 * length x) + t))). fold n. apply rsum_ext. intros i Hi.
  unfold xat, c2.
  replace (2 * PI * INR (i * k) / INR (2 * n) + t) with (PI * INR k * (INR i + / 2) / INR n)
    by (unfold t; rewrite !mult_INR; cbn [INR]; field; exact P).
  replace (2 * PI * INR ((2 * n - 1 - i) * k) / INR (2 * n) + t) with (- (PI * INR k * (INR i + / 2) / INR n) + 2 * PI * IZR (Z.of_nat k)).
  2:{ rewrite <- INR_IZR_INZ. unfold t. rewrite !mult_INR, !minus_INR, mult_INR by lia. cbn [INR]. field. exact P. }
  rewrite cos_2PI_Z, cos_neg. field.
Qed.
Lemma slice_grow {A} (l : list A) n v : exists p, slice_to (grow l n v) n = Done p /\ length p = n.
Proof.
  unfold slice_to. assert (L : (n <= length (grow l n v))%nat) by (rewrite grow_length; lia).
  destruct (Nat.leb_spec n (length (grow l n v))); [|lia]. eexists. split; [reflexivity|]. rewrite firstn_length. lia.
Qed.
(* what a call does, for every table of at least n entries *)
Lemma with_table_R (c : cfg) v p (x out : list R) cs : dinv c p -> (0 < length x)%nat -> length out = length x -> c_std c = true \/ is_pow2 (length x) = true ->
  exists p', dct2_with_table c v p x out cs =
    ('out <- for_range 0 (length x) (fun k out => z <- get (half_spectrum (mirrored x)) k ;; ck <- get cs k ;;
        set out k (/ 2 * (re z * ck + im z * sin (PI * INR k / (2 * INR (length x)))))) out ;; Done (p', out, ROk)).
Proof.
  intros [_ HR] Hn Hl Hs. unfold dct2_with_table. rewrite Hl, Nat.eqb_refl. cbn [negb].
  destruct (slice_grow (dp_buf p) (2 * length x) fzero) as (b & Eb & Lb). rewrite Eb. cbn [bind].
  rewrite mirror_buf by exact Lb. cbn [bind].
  destruct (slice_grow (dp_spec p) (length x + 1) czero) as (s & Es & Ls). rewrite Es. cbn [bind].
  assert (Lm : length (mirrored x) = (2 * length x)%nat) by (unfold mirrored; rewrite app_length, rev_length; lia).
  assert (Ld : (length (mirrored x) / 2 = length x)%nat) by (rewrite Lm, Nat.mul_comm; apply Nat.div_mul; lia).
  destruct (@C28_planner_rfft_is_dft c v _ (fft c) new_planner (dp_rfft p) (mirrored x) s HR) as (rp' & s' & E).
  - lia.
  - exists (length x). exact Lm.
  - rewrite Ld. exact Ls.
  - rewrite Ld. apply new_does; assumption.
  - rewrite E. cbn [bind]. unfold quarter. fr. eexists. reflexivity.
Qed.
Definition mir_bin (x : list R) (k : nat) : C :=
  csum (2 * length x) (fun j => RtoC (nth j (mirrored x) 0) *c W (2 * length x) (j * k)).
Lemma with_table_any (c : cfg) v p (x out cs : list R) : dinv c p -> (0 < length x)%nat -> length out = length x -> c_std c = true \/ is_pow2 (length x) = true ->
  (length x <= length cs)%nat ->
  exists p', dct2_with_table c v p x out cs = Done (p', tab (length x) (fun k =>
    / 2 * (re (mir_bin x k) * nth k cs 0 + im (mir_bin x k) * sin (PI * INR k / (2 * INR (length x))))), ROk).
Proof.
  intros Hp Hn Hl Hs Hc. destruct (@with_table_R c v p x out cs Hp Hn Hl Hs) as (p' & E). rewrite E. clear E. exists p'.
  assert (Lm : length (mirrored x) = (2 * length x)%nat) by (unfold mirrored; rewrite app_length, rev_length; lia).
  assert (Ld : (length (mirrored x) / 2 = length x)%nat) by (rewrite Lm, Nat.mul_comm; apply Nat.div_mul; lia).
  destruct (@for_inv (list R) (fun i o => length o = length x /\ forall k, (k < i)%nat -> nth k o 0 =
      / 2 * (re (mir_bin x k) * nth k cs 0 + im (mir_bin x k) * sin (PI * INR k / (2 * INR (length x)))))
    (fun k out => z <- get (half_spectrum (mirrored x)) k ;; ck <- get cs k ;;
        set out k (/ 2 * (re z * ck + im z * sin (PI * INR k / (2 * INR (length x)))))) 0 (length x) out) as (o & E & Lo & Ho).
  - lia.
  - split; [exact Hl|lia].
  - intros k o Hk [Lo Ho]. unfold half_spectrum. rewrite Ld, Lm. rewrite get_tab by lia. cbn [bind].
    rewrite (@get_nth R cs k 0) by lia. cbn [bind]. rewrite set_ok by lia. eexists. split; [reflexivity|].
    split; [rewrite upd_length; exact Lo|]. intros i Hi. rewrite nth_upd by lia. destruct (Nat.eqb_spec i k) as [->|]; [|apply Ho; lia]. reflexivity.
  - rewrite E. cbn [bind]. do 2 f_equal. f_equal. rewrite (@list_tab R o 0), Lo. apply tab_ext. exact Ho.
Qed.
Lemma with_table_ok (c : cfg) v p (x out : list R) : dinv c p -> (0 < length x)%nat -> length out = length x -> c_std c = true \/ is_pow2 (length x) = true ->
  exists p', dct2_with_table c v p x out (cos_table (length x)) = Done (p', sum_spec x (c2 (length x)), ROk).
Proof.
  intros Hp Hn Hl Hs. destruct (@with_table_any c v p x out (cos_table (length x)) Hp Hn Hl Hs) as (p' & E); [unfold cos_table; rewrite tab_length; lia|].
  rewrite E. clear E. exists p'. do 2 f_equal. f_equal. unfold sum_spec. apply tab_ext. intros k Hk.
  unfold cos_table. rewrite nth_tab by exact Hk. unfold quarter. fr. apply (@dct_bin x k Hk).
Qed.

Theorem C46_planned_dct2 : forall (c : cfg) (v : rpath) (p : dplanner R) (len : nat) (calls : list (list R * list R)),
  dreach c p -> (0 < len)%nat -> c_std c = true \/ is_pow2 len = true ->
  (forall x out, In (x, out) calls -> length x = len /\ length out = len) ->
  exists p' rs, plan_dct2 c v p len calls = Done (p', rs) /\
    Forall2 (fun call r => snd r = ROk /\ dct2 (fst call) = Done (fst r)) calls rs.
Proof.
  intros c v p len calls Hp Hn Hs Hc. apply dreach_inv in Hp. unfold plan_dct2.
  destruct (@cos_table_ok R RF c p len Hp) as (p1 & E & H1). rewrite E. clear E p Hp.
  revert p1 H1. induction calls as [|[x out] calls IH]; intros p Hp; [exists p, []; split; [reflexivity|constructor]|].
  destruct (Hc x out) as [Lx Lo]; [left; reflexivity|]. cbn [dct_calls].
  destruct (@with_table_ok c v p x out Hp) as (p1 & E); [lia|lia|rewrite Lx; exact Hs|]. rewrite Lx in E at 1. 
  assert (Hp1 : dinv c p1) by (eapply with_table_inv; [exact Hp|exact E]). rewrite E. cbn [bind].
  destruct (IH (fun a b H => Hc a b (or_intror H)) p1 Hp1) as (p' & rs & E2 & HF). rewrite E2. cbn [bind].
  exists p'. eexists. split; [reflexivity|]. constructor; [|exact HF]. cbn [fst snd]. split; [reflexivity|apply dct2_R].
Qed.
Print Assumptions C46_planned_dct2.
(* an output of another length than the input: an error, nothing changed *)
Theorem C46_output_mismatch : forall (T : Type) (F : Float T) (c : cfg) (v : rpath) (p : dplanner T) len x out,
  length out <> length x ->
  exists p', plan_dct2 c v p len [(x, out)] = Done (p', [(out, RErr MismatchedLengths)]).
Proof.
  intros T F c v p len x out H. unfold plan_dct2. destruct (get_cos_table p len) as [p1 t]. exists p1. cbn [dct_calls].
  unfold dct2_with_table. apply Nat.eqb_neq in H. rewrite H. reflexivity.
Qed.
Print Assumptions C46_output_mismatch.
(* buffers longer than planned: an index panic instead of an error *)
Theorem C46_longer_buffers_refuted : forall (c : cfg) (v : rpath) (p : dplanner R) len x out,
  dreach c p -> (len < length x)%nat -> length out = length x -> c_std c = true \/ is_pow2 (length x) = true ->
  plan_dct2 c v p len [(x, out)] = Panic.
Proof.
  intros c v p len x out Hp Hl Ho Hs. apply dreach_inv in Hp. unfold plan_dct2.
  destruct (@cos_table_ok R RF c p len Hp) as (p1 & E & H1). rewrite E. clear E p Hp. cbn [dct_calls].
  destruct (@with_table_R c v p1 x out (cos_table len) H1) as (p' & E); [lia|exact Ho|exact Hs|]. rewrite E. clear E.
  assert (Lm : length (mirrored x) = (2 * length x)%nat) by (unfold mirrored; rewrite app_length, rev_length; lia).
  assert (Ld : (length (mirrored x) / 2 = length x)%nat) by (rewrite Lm, Nat.mul_comm; apply Nat.div_mul; lia).
  set (body := fun k out => z <- get (half_spectrum (mirrored x)) k ;; ck <- get (cos_table len) k ;;
        set out k (/ 2 * (re z * ck + im z * sin (PI * INR k / (2 * INR (length x)))))).
  assert (Bd : forall k o, (k < len)%nat -> length o = length x -> exists o', body k o = Done o' /\ length o' = length x).
  { intros k o Hk Lo. unfold body, half_spectrum, cos_table. rewrite Ld, Lm, !get_tab by lia. cbn [bind]. rewrite set_ok by lia. eexists. split; [reflexivity|]. rewrite upd_length. exact Lo. }
  assert (Bp : forall o, body len o = Panic).
  { intros o. unfold body, half_spectrum, cos_table. rewrite Ld, Lm, get_tab by lia. cbn [bind]. rewrite get_panic by (rewrite tab_length; lia). reflexivity. }
  enough (E : for_range 0 (length x) body out = Panic) by (rewrite E; reflexivity).
  unfold for_range. rewrite Nat.sub_0_r. clear H1 p1 p' v Hs.
  assert (G : forall d k o, (k + d = len)%nat -> length o = length x -> forall n, (d < n)%nat -> for_n n k body o = Panic).
  { induction d as [|d IH]; intros k o Hk Lo n Hn; (destruct n as [|n]; [lia|]); cbn [for_n].
    - replace k with len by lia. rewrite Bp. reflexivity.
    - destruct (Bd k o) as (o' & Eo & Lo'); [lia|exact Lo|]. rewrite Eo. cbn [bind]. apply IH; [lia|exact Lo'|lia]. }
  apply (G len 0%nat out); [lia|exact Ho|lia].
Qed.
Print Assumptions C46_longer_buffers_refuted.

(* buffers shorter than planned are accepted and transformed with the wrong table *)
Theorem C46_shorter_buffers_refuted : forall (c : cfg) (v : rpath) (p : dplanner R), dreach c p ->
  exists len x out, (length x < len)%nat /\ length out = length x /\
  exists p' y, plan_dct2 c v p len [(x, out)] = Done (p', [(y, ROk)]) /\ dct2 x <> Done y.
Proof.
  intros c v p Hp. exists 3%nat, [1; 0], [0; 0]. split; [cbn; lia|]. split; [reflexivity|].
  apply dreach_inv in Hp. unfold plan_dct2. destruct (@cos_table_ok R RF c p 3 Hp) as (p1 & E & H1). rewrite E. clear E p Hp. cbn [dct_calls].
  destruct (@with_table_any c v p1 [1; 0] [0; 0] (cos_table 3) H1) as (p' & E); [cbn; lia|reflexivity|right; reflexivity|cbn; lia|].
  rewrite E. clear E. cbn [bind]. exists p'. eexists. split; [reflexivity|].
  rewrite dct2_R. intros K. apply (f_equal (fun e => match e with Done l => nth 1 l 0 | _ => 0 end)) in K. unfold sum_spec in K.
  rewrite !nth_tab in K by (cbn; lia). rewrite <- (@dct_bin [1; 0] 1) in K by (cbn; lia). cbv zeta in K.
  fold (mir_bin [1; 0] 1) in K. cbn [length] in K. unfold cos_table in K. rewrite nth_tab in K by lia. revert K. unfold quarter. fr. intros K.
  assert (M : re (mir_bin [1; 0] 1) = 1).
  { unfold mir_bin. rewrite re_csum. unfold mirrored. cbn [length app rev Nat.mul Nat.add rsum nth]. rewrite !W_cs. cbn [re im Cmul RtoC INR].
    replace (2 * PI * 0 / (1 + 1 + 1 + 1)) with 0 by field. rewrite cos_0, sin_0.
    replace (2 * PI * (1 + 1 + 1) / (1 + 1 + 1 + 1)) with (3 * (PI / 2)) by field. rewrite cos_3PI2. ring. }
  rewrite M in K. cbn [INR] in K.
  replace (PI * 1 / (2 * (1 + 1))) with (PI / 4) in K by field. replace (PI * 1 / (2 * (1 + 1 + 1))) with (PI / 6) in K by field.
  assert (D : cos (PI / 4) < cos (PI / 6)).
  { pose proof PI_RGT_0. apply cos_decreasing_1; lra. }
  lra.
Qed.
Print Assumptions C46_shorter_buffers_refuted.

(* without std an unsupported length is reported, the output untouched *)
Theorem C46_nostd_lengths : forall (T : Type) (F : Float T) (c : cfg) (v : rpath) (p : dplanner T) len x out,
  dreach c p -> c_std c = false -> is_pow2 (length x) = false -> (0 < length x)%nat -> length out = length x ->
  exists p', plan_dct2 c v p len [(x, out)] = Done (p', [(out, RErr NonPowerOfTwoNoStd)]).
Proof.
  intros T F c v p len x out Hp Hs Hq Hn Hl. apply dreach_inv in Hp. unfold plan_dct2.
  destruct (@cos_table_ok T F c p len Hp) as (p1 & E & [_ HR]). rewrite E. clear E p Hp. cbn [dct_calls].
  unfold dct2_with_table. rewrite Hl, Nat.eqb_refl. cbn [negb].
  destruct (slice_grow (dp_buf p1) (2 * length x) fzero) as (b & Eb & Lb). rewrite Eb. cbn [bind].
  rewrite mirror_buf by exact Lb. cbn [bind].
  destruct (slice_grow (dp_spec p1) (length x + 1) czero) as (s & Es & Ls). rewrite Es. cbn [bind].
  assert (Lm : length (mirrored x) = (2 * length x)%nat) by (unfold mirrored; rewrite app_length, rev_length; lia).
  assert (Ld : (length (mirrored x) / 2 = length x)%nat) by (rewrite Lm, Nat.mul_comm; apply Nat.div_mul; lia).
  destruct (@prfft_ok T F c _ (fft c) v (dp_rfft p1) new_planner (mirrored x) s (rreach_inv HR)) as (rp' & scr & _ & Lscr & rest & E).
  rewrite E. clear E. unfold rfft_direct. rewrite Ld, Lm, Ls.
  assert (Hr : rcheck (2 * length x) (length x + 1) (length scr) = None).
  { rewrite Lscr, Ld. unfold rcheck. rewrite (Nat.mul_comm 2 (length x)), Nat.div_mul by lia.
    rewrite Nat.mod_mul by lia.
    rewrite !Nat.eqb_refl. rewrite Nat.ltb_irrefl.
    destruct (Nat.eqb_spec (length x * 2) 0); [lia|]. reflexivity. }
  rewrite Hr. destruct x as [|a0 x0] eqn:Ex; [cbn in Hn; lia|]. rewrite <- Ex in *.
  rewrite (@for_set (cx T) (length x) _ (fun i => mkcx (nth (2 * i) (mirrored x) a0) (nth (2 * i + 1) (mirrored x) a0))).
  2: lia.
  2:{ intros i Hi. rewrite !(@get_nth T _ _ a0) by lia. reflexivity. }
  cbn [bind]. unfold slice_to. rewrite app_length, tab_length. destruct (Nat.leb_spec (length x) (length x + length (skipn (length x) s))); [|lia]. cbn [bind].
  rewrite firstn_app, tab_length, Nat.sub_diag, firstn_O, app_nil_r, firstn_all2 by (rewrite tab_length; lia).
  rewrite fft_nostd; [|exact Hs|rewrite tab_length; exact Hn|rewrite tab_length; exact Hq].
  cbn [bind]. eexists. reflexivity.
Qed.
Print Assumptions C46_nostd_lengths.
Example C46_example : forall p, dreach (cfg_std F32) p -> exists p' rs,
  plan_dct2 (cfg_std F32) PScalar p 3 [([1; 2; 3], [0; 0; 0]); ([4; 5; 6], [7; 7; 7])] = Done (p', rs) /\ length rs = 2%nat.
Proof.
  intros p Hp. destruct (@C46_planned_dct2 (cfg_std F32) PScalar p 3 [([1; 2; 3], [0; 0; 0]); ([4; 5; 6], [7; 7; 7])] Hp) as (p' & rs & E & HF).
  - lia.
  - left; reflexivity.
  - intros x out [H|[H|[]]]; injection H as <- <-; split; reflexivity.
  - exists p', rs. split; [exact E|]. clear E. inversion HF as [|? ? ? ? _ HF1]; subst. inversion HF1 as [|? ? ? ? _ HF2]; subst. inversion HF2. reflexivity.
Qed.

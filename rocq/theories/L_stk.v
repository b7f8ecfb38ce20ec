(* Any-arithmetic facts about the Stockham loops of src/fft.rs: each loop runs
   to completion and computes a fixed pure function of its inputs. *)
From Coq Require Import ZArith ZifyBool ZifyNat.
From Verif Require Import M_fft.
Ltac Zify.zify_post_hook ::= Z.div_mod_to_equations.
Set Implicit Arguments.

Lemma div_iff p k n2 : 0 < n2 -> (p / n2 = k <-> k * n2 <= p < k * n2 + n2).
Proof.
  intros H. split.
  - intros <-. pose proof (Nat.div_mod_eq p n2). pose proof (Nat.mod_upper_bound p n2). nia.
  - intros Hp. symmetry. apply (Nat.div_unique p n2 k (p - k * n2)); nia.
Qed.
Lemma mod_of_div p k n2 : 0 < n2 -> k * n2 <= p < k * n2 + n2 -> p mod n2 = p - k * n2.
Proof. intros H Hp. symmetry. apply (Nat.mod_unique p n2 k); nia. Qed.

Section Generic.
(* buffers B read through rd; OK is the shape invariant *)
Variables (B V : Type) (rd : B -> nat -> V) (OK : B -> Prop).

Section InnerLoop.
Variables (n2 d0 d1 : nat) (f0 f1 : nat -> V).
Hypothesis Hsep : d0 + n2 <= d1.
Variable step : nat -> nat -> B -> exec B.    (* width, j, buffer *)
Definition step_spec w :=
  forall j d, OK d -> j + w <= n2 -> exists d', step w j d = Done d' /\ OK d' /\
    forall p, rd d' p = if (d0 + j <=? p) && (p <? d0 + j + w) then f0 (p - d0)
                        else if (d1 + j <=? p) && (p <? d1 + j + w) then f1 (p - d1)
                        else rd d p.
Definition upto (d : B) (j : nat) (d' : B) : Prop :=
  forall p, rd d' p = if (d0 <=? p) && (p <? d0 + j) then f0 (p - d0)
                      else if (d1 <=? p) && (p <? d1 + j) then f1 (p - d1)
                      else rd d p.
Lemma inner_loop w d j0 dj :
  0 < w -> step_spec w -> OK dj -> j0 <= n2 -> upto d j0 dj ->
  exists j d', while_ (S n2) (fun '(j, _) => j + w <=? n2)
     (fun '(j, d) => d' <- step w j d ;; Done (j + w, d')) (j0, dj) = Done (j, d') /\
     OK d' /\ j <= n2 /\ n2 < j + w /\ upto d j d'.
Proof.
  intros Hw Hs HOK Hj0 Hup.
  destruct (@while_inv (nat * B) (fun s => fst s <= n2 /\ OK (snd s) /\ upto d (fst s) (snd s))
              (fun s => n2 - fst s) (fun '(j, _) => j + w <=? n2)
              (fun '(j, d) => d' <- step w j d ;; Done (j + w, d')) (S n2) (j0, dj))
    as ([j d'] & E & (H1 & H2 & H3) & H4); cbn [fst snd] in *.
  - auto.
  - lia.
  - intros [j d'] (H1 & H2 & H3) Hc; cbn [fst snd] in *. apply Nat.leb_le in Hc.
    destruct (Hs j d' H2 Hc) as (d'' & E & HOK' & Hrd). exists (j + w, d''). rewrite E. cbn [bind fst snd].
    repeat split; try (assumption || lia).
    intros p. rewrite Hrd, H3.
    destruct (Nat.leb_spec (d0 + j) p), (Nat.ltb_spec p (d0 + j + w)), (Nat.leb_spec (d1 + j) p),
      (Nat.ltb_spec p (d1 + j + w)), (Nat.leb_spec d0 p), (Nat.ltb_spec p (d0 + j)), (Nat.leb_spec d1 p),
      (Nat.ltb_spec p (d1 + j)), (Nat.ltb_spec p (d0 + (j + w))), (Nat.ltb_spec p (d1 + (j + w)));
      cbn [andb]; try reflexivity; lia.
  - exists j, d'. apply Nat.leb_gt in H4. rewrite E. auto.
Qed.
End InnerLoop.

(* the loop over k groups *)
Lemma group_loop n1 n2 (S_ : nat -> V) (group : nat -> B -> exec B) d :
  0 < n2 -> OK d ->
  (forall k d, k < n1 -> OK d -> exists d', group k d = Done d' /\ OK d' /\
     forall p, rd d' p = if (p / n2 =? k) || (p / n2 =? k + n1) then S_ p else rd d p) ->
  exists d', for_range 0 n1 group d = Done d' /\ OK d' /\
     forall p, rd d' p = if p / n2 <? 2 * n1 then S_ p else rd d p.
Proof.
  intros Hn2 HOK Hg.
  destruct (@for_inv B (fun k d' => OK d' /\ forall p, rd d' p =
      if (p / n2 <? k) || ((n1 <=? p / n2) && (p / n2 <? n1 + k)) then S_ p else rd d p)
      group 0 n1 d) as (d' & E & H1 & H2).
  - lia.
  - split; [exact HOK|]. intros p. generalize (p / n2) as q. intros q.
    destruct (Nat.ltb_spec q 0), (Nat.leb_spec n1 q), (Nat.ltb_spec q (n1 + 0)); cbn [orb andb]; try reflexivity; lia.
  - intros k d1 Hk (H1 & H2). destruct (Hg k d1) as (d2 & E & H3 & H4); [lia|exact H1|].
    exists d2. split; [exact E|]. split; [exact H3|]. intros p. rewrite H4, H2.
    generalize (p / n2) as q. intros q.
    destruct (Nat.eqb_spec q k), (Nat.eqb_spec q (k + n1)), (Nat.ltb_spec q k), (Nat.leb_spec n1 q), (Nat.ltb_spec q (n1 + k)),
      (Nat.ltb_spec q (S k)), (Nat.ltb_spec q (n1 + S k)); cbn [orb andb]; try reflexivity; lia.
  - exists d'. split; [exact E|]. split; [exact H1|]. intros p. rewrite H2. generalize (p / n2) as q. intros q.
    destruct (Nat.ltb_spec q n1), (Nat.leb_spec n1 q), (Nat.ltb_spec q (n1 + n1)), (Nat.ltb_spec q (2 * n1)); cbn [orb andb]; try reflexivity; lia.
Qed.
End Generic.

Section Stk.
Context {T : Type} {F : Float T}.
Local Notation cx := (cx T).

(* value written at position p by the stage with n1 groups of size n2 *)
Definition stage_fun (mul : cx -> cx -> cx) (tw : nat -> cx) (n1 n2 : nat) (src : nat -> cx) (p : nat) : cx :=
  let q := p / n2 in let j := p mod n2 in
  if q <? n1 then cadd (src (2 * q * n2 + j)) (mul (src (2 * q * n2 + n2 + j)) (tw (q * n2)))
  else let k := q - n1 in csub (src (2 * k * n2 + j)) (mul (src (2 * k * n2 + n2 + j)) (tw (k * n2))).
(* after s stages *)
Fixpoint stk_fun (mul : cx -> cx -> cx) (tw : nat -> cx) (n s : nat) (x : nat -> cx) : nat -> cx :=
  match s with
  | 0 => x
  | S s' => stage_fun mul tw (2 ^ s') (n / 2 ^ (S s')) (stk_fun mul tw n s' x)
  end.
Definition nthc (l : list cx) (i : nat) : cx := nth i l czero.

Lemma stage_fun_ext mul tw n n1 n2 f g p :
  0 < n2 -> 2 * n1 * n2 = n -> (forall i, i < n -> f i = g i) -> p < n ->
  stage_fun mul tw n1 n2 f p = stage_fun mul tw n1 n2 g p.
Proof.
  intros Hn2 Hn H Hp. unfold stage_fun.
  pose proof (Nat.div_mod_eq p n2) as E. pose proof (Nat.mod_upper_bound p n2) as M.
  assert (Q : p / n2 < 2 * n1) by (apply Nat.div_lt_upper_bound; nia).
  destruct (Nat.ltb_spec (p / n2) n1); rewrite !H; try reflexivity; nia.
Qed.

(* ---------- stages on an abstract buffer pair ---------- *)
Section Stages.
Variables (B : Type) (rd : B -> nat -> cx) (OKs OKd : B -> Prop).
Variables (mul : cx -> cx -> cx) (tw : nat -> cx) (n L : nat).
Hypothesis HnL : n = 2 ^ L.
Variable stage : nat -> nat -> B -> B -> exec B.   (* n1 n2 src dst *)
Definition stage_ok (O1 O2 : B -> Prop) :=
  forall n1 n2 s d, O1 s -> O2 d -> 0 < n2 -> 2 * n1 * n2 = n ->
    exists d', stage n1 n2 s d = Done d' /\ O2 d' /\
      forall p, rd d' p = if p <? n then stage_fun mul tw n1 n2 (rd s) p else rd d p.
Hypothesis Hsd : stage_ok OKs OKd.
Hypothesis Hds : stage_ok OKd OKs.

Lemma stages_loop s0 d0 : OKs s0 -> OKd d0 ->
  exists src dst, while_ (S n) (fun '(n1, _, _, _, _) => n1 <? n)
    (fun '(n1, n2, src, dst, flip) =>
       let n2 := n2 / 2 in
       d' <- stage n1 n2 src dst ;; Done (n1 * 2, n2, d', src, negb flip))
    (1, n, s0, d0, false) = Done (n, 1, src, dst, Nat.odd L)
   /\ (if Nat.odd L then OKd src /\ OKs dst else OKs src /\ OKd dst)
   /\ (forall p, p < n -> rd src p = stk_fun mul tw n L (rd s0) p)
   /\ (forall p, n <= p -> rd src p = rd (if Nat.odd L then d0 else s0) p)
   /\ (forall p, n <= p -> rd dst p = rd (if Nat.odd L then s0 else d0) p).
Proof.
  intros H0s H0d.
  set (P := fun st : nat * nat * B * B * bool =>
     let '(n1, n2, src, dst, flip) := st in
     exists s, s <= L /\ n1 = 2 ^ s /\ n2 = 2 ^ (L - s) /\ flip = Nat.odd s
       /\ (if Nat.odd s then OKd src /\ OKs dst else OKs src /\ OKd dst)
       /\ (forall p, p < n -> rd src p = stk_fun mul tw n s (rd s0) p)
       /\ (forall p, n <= p -> rd src p = rd (if Nat.odd s then d0 else s0) p)
       /\ (forall p, n <= p -> rd dst p = rd (if Nat.odd s then s0 else d0) p)).
  match goal with |- context [while_ _ ?c ?b ?st0] =>
    destruct (@while_inv _ P (fun st => let '(n1, _, _, _, _) := st in n - n1) c b (S n) st0)
      as ([[[[n1 n2] src] dst] flip] & E & HP & Hc) end.
  - exists 0. rewrite Nat.sub_0_r. cbn [Nat.odd Nat.pow]. repeat split; auto; lia.
  - lia.
  - intros [[[[n1 n2] src] dst] flip] (s & HsL & E1 & E2 & Ef & HOK & Hv & Hr1 & Hr2) Hc.
    apply Nat.ltb_lt in Hc.
    assert (HsL' : s < L).
    { destruct (Nat.eq_dec s L) as [->|]; [lia|lia]. }
    assert (En2 : n2 / 2 = 2 ^ (L - S s)).
    { rewrite E2. replace (L - s) with (S (L - S s)) by lia.
      rewrite Nat.pow_succ_r', Nat.mul_comm, Nat.div_mul by lia. reflexivity. }
    assert (Hpos : 0 < 2 ^ (L - S s)) by apply pow2_pos.
    assert (Hprod : 2 * n1 * (n2 / 2) = n).
    { rewrite En2, E1, HnL. replace L with (S s + (L - S s)) at 2 by lia.
      rewrite Nat.pow_add_r, Nat.pow_succ_r'. lia. }
    assert (Hst : exists d', stage n1 (n2 / 2) src dst = Done d'
       /\ (if Nat.odd s then OKs d' else OKd d')
       /\ forall p, rd d' p = if p <? n then stage_fun mul tw n1 (n2 / 2) (rd src) p else rd dst p).
    { destruct (Nat.odd s).
      - destruct HOK as [HOK1 HOK2]. apply Hds; try assumption. lia.
      - destruct HOK as [HOK1 HOK2]. apply Hsd; try assumption. lia. }
    destruct Hst as (d' & Ed & HOKd' & Hrd). cbv zeta. rewrite Ed. cbn [bind].
    eexists. split; [reflexivity|]. split.
    + exists (S s). rewrite Nat.odd_succ, <- Nat.negb_odd, Ef.
      split; [lia|]. split; [rewrite Nat.pow_succ_r'; lia|]. split; [exact En2|]. split; [reflexivity|].
      split; [destruct (Nat.odd s); cbn [negb]; destruct HOK; auto|].
      split.
      { intros p Hp. rewrite Hrd. destruct (Nat.ltb_spec p n); [|lia]. cbn [stk_fun].
        assert (Hdn : n / 2 ^ S s = n2 / 2).
        { rewrite En2, HnL. replace L with (S s + (L - S s)) at 1 by lia.
          rewrite Nat.pow_add_r, Nat.mul_comm, Nat.div_mul by (apply Nat.pow_nonzero; lia). reflexivity. }
        rewrite Hdn, <- E1. apply stage_fun_ext with (n := n); try assumption; lia. }
      split.
      { intros p Hp. rewrite Hrd. destruct (Nat.ltb_spec p n); [lia|]. rewrite Hr2 by exact Hp.
        destruct (Nat.odd s); reflexivity. }
      { intros p Hp. rewrite Hr1 by exact Hp. destruct (Nat.odd s); reflexivity. }
    + assert (0 < n1) by (rewrite E1; apply pow2_pos). lia.
  - destruct HP as (s & HsL & E1 & E2 & Ef & HOK & Hv & Hr1 & Hr2).
    apply Nat.ltb_ge in Hc.
    assert (s = L).
    { destruct (Nat.eq_dec s L); [assumption|]. exfalso.
      assert (2 ^ s < 2 ^ L) by (apply Nat.pow_lt_mono_r; lia). lia. }
    subst s. rewrite Nat.sub_diag in E2. cbn in E2. subst n2 flip.
    assert (n1 = n) by lia. subst n1. exists src, dst. rewrite H in E.
    exact (conj E (conj HOK (conj Hv (conj Hr1 Hr2)))).
Qed.
End Stages.

(* ---------- from inner loops to whole stages ---------- *)
Section FromInner.
Variables (B : Type) (rd : B -> nat -> cx) (OK : B -> Prop).
Variables (mul : cx -> cx -> cx) (tw : nat -> cx) (n n1 n2 : nat) (src : nat -> cx).
Hypothesis Hn2 : 0 < n2.
Hypothesis Hn : 2 * n1 * n2 = n.
Definition bf0 (k j : nat) := cadd (src (2 * k * n2 + j)) (mul (src (2 * k * n2 + n2 + j)) (tw (k * n2))).
Definition bf1 (k j : nat) := csub (src (2 * k * n2 + j)) (mul (src (2 * k * n2 + n2 + j)) (tw (k * n2))).
Lemma upto_group k d d' : k < n1 ->
  upto rd (k * n2) ((k + n1) * n2) (bf0 k) (bf1 k) d n2 d' ->
  forall p, rd d' p = if (p / n2 =? k) || (p / n2 =? k + n1) then stage_fun mul tw n1 n2 src p else rd d p.
Proof.
  intros Hk Hup p. rewrite Hup.
  destruct (Nat.eqb_spec (p / n2) k) as [E1|E1].
  - apply div_iff in E1; [|exact Hn2].
    destruct (Nat.leb_spec (k * n2) p), (Nat.ltb_spec p (k * n2 + n2)); cbn [andb orb]; try lia.
    unfold stage_fun, bf0. rewrite (proj2 (div_iff p k Hn2)) by lia. rewrite (mod_of_div k Hn2) by lia.
    destruct (Nat.ltb_spec k n1); [reflexivity|lia].
  - destruct (Nat.eqb_spec (p / n2) (k + n1)) as [E2|E2].
    + apply div_iff in E2; [|exact Hn2].
      destruct (Nat.leb_spec (k * n2) p), (Nat.ltb_spec p (k * n2 + n2)), (Nat.leb_spec ((k + n1) * n2) p),
        (Nat.ltb_spec p ((k + n1) * n2 + n2)); cbn [andb orb]; try nia.
      unfold stage_fun, bf1. rewrite (proj2 (div_iff p (k + n1) Hn2)) by lia.
      rewrite (mod_of_div (k + n1) Hn2) by lia.
      destruct (Nat.ltb_spec (k + n1) n1); [lia|]. replace (k + n1 - n1) with k by lia. reflexivity.
    + assert (~ (k * n2 <= p < k * n2 + n2)) by (rewrite <- div_iff; assumption).
      assert (~ ((k + n1) * n2 <= p < (k + n1) * n2 + n2)) by (rewrite <- div_iff; assumption).
      destruct (Nat.leb_spec (k * n2) p), (Nat.ltb_spec p (k * n2 + n2)), (Nat.leb_spec ((k + n1) * n2) p),
        (Nat.ltb_spec p ((k + n1) * n2 + n2)); cbn [andb orb]; try lia; reflexivity.
Qed.
Lemma upto_0 k d : upto rd (k * n2) ((k + n1) * n2) (bf0 k) (bf1 k) d 0 d.
Proof.
  clear OK Hn Hn2. intros p. destruct (Nat.leb_spec (k * n2) p), (Nat.ltb_spec p (k * n2 + 0)), (Nat.leb_spec ((k + n1) * n2) p),
        (Nat.ltb_spec p ((k + n1) * n2 + 0)); cbn [andb]; try lia; reflexivity.
Qed.
Lemma groups_stage (group : nat -> B -> exec B) d : OK d ->
  (forall k d, k < n1 -> OK d -> exists d', group k d = Done d' /\ OK d' /\
     upto rd (k * n2) ((k + n1) * n2) (bf0 k) (bf1 k) d n2 d') ->
  exists d', for_range 0 n1 group d = Done d' /\ OK d' /\
      forall p, rd d' p = if p <? n then stage_fun mul tw n1 n2 src p else rd d p.
Proof.
  intros Hd Hg.
  destruct (@group_loop B cx rd OK n1 n2 (stage_fun mul tw n1 n2 src) group d Hn2 Hd) as (d' & E & HO & Hr).
  - intros k dd Hk Hdd. destruct (Hg k dd Hk Hdd) as (d' & E & HO & Hup).
    exists d'. split; [exact E|]. split; [exact HO|]. apply upto_group; assumption.
  - exists d'. split; [exact E|]. split; [exact HO|]. intros p. rewrite Hr.
    destruct (Nat.ltb_spec (p / n2) (2 * n1)) as [H|H], (Nat.ltb_spec p n) as [H'|H']; try reflexivity; exfalso.
    + pose proof (Nat.div_mod_eq p n2). pose proof (Nat.mod_upper_bound p n2). nia.
    + assert (p / n2 < 2 * n1) by (apply Nat.div_lt_upper_bound; nia). lia.
Qed.
End FromInner.

Lemma while_ext {S} fuel (c1 c2 : S -> bool) b1 b2 : (forall s, c1 s = c2 s) -> (forall s, b1 s = b2 s) ->
  forall s, while_ fuel c1 b1 s = while_ fuel c2 b2 s.
Proof.
  intros Hc Hb. induction fuel as [|f IH]; intros s; cbn [while_]; [reflexivity|].
  rewrite Hc, Hb. destruct (c2 s); [|reflexivity]. destruct (b2 s); cbn [bind]; auto.
Qed.

(* ---------- interleaved buffers ---------- *)
Variable c : cfg.

Lemma stk_stage_ok n (twl : list cx) ls ld : length twl = n / 2 -> n <= ls -> n <= ld ->
  stage_ok nthc (cmul c) (nthc twl) n
    (fun n1 n2 src dst => for_range 0 n1 (stk_group c n1 n2 twl src) dst)
    (fun l => length l = ls) (fun l => length l = ld).
Proof.
  intros Htw Hls Hld n1 n2 s d Hs Hd Hn2 Hn.
  apply groups_stage with (OK := fun l => length l = ld); try assumption.
  intros k dd Hk Hdd. unfold stk_group.
  rewrite get_nth with (d := czero) by (rewrite Htw; apply Nat.div_le_lower_bound; nia).
  cbn [bind]. fold (nthc twl (k * n2)).
  set (w := nthc twl (k * n2)).
  destruct (@inner_loop (list cx) cx nthc (fun l => length l = ld) n2 (k * n2) ((k + n1) * n2)
     (bf0 (cmul c) (nthc twl) n2 (nthc s) k) (bf1 (cmul c) (nthc twl) n2 (nthc s) k)
     ltac:(nia) (fun _ j dst => stk_bf c w s (2 * k * n2) (2 * k * n2 + n2) (k * n2) ((k + n1) * n2) j dst)
     1 dd 0 dd) as (j & d' & E & HO & Hj1 & Hj2 & Hup).
  - lia.
  - intros j d1 Hd1 Hj. unfold stk_bf.
    rewrite !get_nth with (d := czero) by nia. cbn [bind].
    rewrite set_ok by nia. cbn [bind]. rewrite set_ok by (rewrite upd_length; nia).
    eexists; split; [reflexivity|]. split; [rewrite !upd_length; exact Hd1|].
    intros p. unfold nthc at 1. rewrite nth_upd by (rewrite upd_length; nia). rewrite nth_upd by nia.
    destruct (Nat.eqb_spec p ((k + n1) * n2 + j)) as [->|Hp1].
    + destruct (Nat.leb_spec (k * n2 + j) ((k + n1) * n2 + j)), (Nat.ltb_spec ((k + n1) * n2 + j) (k * n2 + j + 1)),
       (Nat.leb_spec ((k + n1) * n2 + j) ((k + n1) * n2 + j)), (Nat.ltb_spec ((k + n1) * n2 + j) ((k + n1) * n2 + j + 1));
       cbn [andb]; try lia; try nia.
      unfold bf1. replace ((k + n1) * n2 + j - (k + n1) * n2) with j by lia. reflexivity.
    + destruct (Nat.eqb_spec p (k * n2 + j)) as [->|Hp0].
      * destruct (Nat.leb_spec (k * n2 + j) (k * n2 + j)), (Nat.ltb_spec (k * n2 + j) (k * n2 + j + 1)); cbn [andb]; try lia.
        unfold bf0. replace (k * n2 + j - k * n2) with j by lia. reflexivity.
      * destruct (Nat.leb_spec (k * n2 + j) p), (Nat.ltb_spec p (k * n2 + j + 1)),
           (Nat.leb_spec ((k + n1) * n2 + j) p), (Nat.ltb_spec p ((k + n1) * n2 + j + 1)); cbn [andb]; try lia; reflexivity.
  - exact Hdd.
  - lia.
  - apply upto_0.
  - assert (j = n2) by lia. subst j.
    erewrite while_ext; [rewrite E| |].
    + cbn [bind]. eexists; split; [reflexivity|]. split; [exact HO|exact Hup].
    + intros [j q]. lia.
    + intros [j q]. reflexivity.
Qed.

(* ---------- split buffers ---------- *)
Definition rd2 (d : list T * list T) (p : nat) : cx := mkcx (nth p (fst d) fzero) (nth p (snd d) fzero).
Definition len2 (la lb : nat) (d : list T * list T) := length (fst d) = la /\ length (snd d) = lb.

Lemma loadv_ok (l : list T) off L : off + L <= length l -> loadv l off L = Done (firstn L (skipn off l)).
Proof. intros H. unfold loadv. destruct (Nat.leb_spec (off + L) (length l)); [reflexivity|lia]. Qed.
Lemma loadv_length (l : list T) off L : off + L <= length l -> length (firstn L (skipn off l)) = L.
Proof. intros H. rewrite firstn_length, skipn_length. lia. Qed.
Lemma nth_loadv (l : list T) off L i d : i < L -> nth i (firstn L (skipn off l)) d = nth (off + i) l d.
Proof. intros H. rewrite nth_firstn by exact H. apply nth_skipn. Qed.
Definition stored (l : list T) off (v : list T) := firstn off l ++ v ++ skipn (off + length v) l.
Lemma storev_ok (l : list T) off v : off + length v <= length l -> storev l off v = Done (stored l off v).
Proof. intros H. unfold storev. destruct (Nat.leb_spec (off + length v) (length l)); [reflexivity|lia]. Qed.
Lemma stored_length (l : list T) off v : off + length v <= length l -> length (stored l off v) = length l.
Proof. intros H. unfold stored. rewrite !app_length, firstn_length, skipn_length. lia. Qed.
Lemma nth_stored (l : list T) off v p d : off + length v <= length l ->
  nth p (stored l off v) d = if (off <=? p) && (p <? off + length v) then nth (p - off) v d else nth p l d.
Proof.
  intros H. unfold stored. destruct (Nat.leb_spec off p); cbn [andb].
  - rewrite app_nth2 by (rewrite firstn_length; lia). rewrite firstn_length, Nat.min_l by lia.
    destruct (Nat.ltb_spec p (off + length v)).
    + rewrite app_nth1 by lia. reflexivity.
    + rewrite app_nth2 by lia. rewrite nth_skipn. f_equal. lia.
  - rewrite app_nth1 by (rewrite firstn_length; lia). apply nth_firstn. lia.
Qed.

Section SplitStep.
Variables (n n1 n2 k : nat) (twl : list cx) (s : list T * list T) (la lb : nat).
Hypothesis Hs1 : n <= length (fst s).
Hypothesis Hs2 : n <= length (snd s).
Hypothesis Hla : n <= la.
Hypothesis Hlb : n <= lb.
Hypothesis Hk : k < n1.
Hypothesis Hn2 : 0 < n2.
Hypothesis Hn : 2 * n1 * n2 = n.
Let w := nthc twl (k * n2).
Let f0 := bf0 cmul_plain (nthc twl) n2 (rd2 s) k.
Let f1 := bf1 cmul_plain (nthc twl) n2 (rd2 s) k.
Definition split_step (wd j : nat) (d : list T * list T) : exec (list T * list T) :=
  split_bf_simd wd w (fst s) (snd s) (2 * k * n2) (2 * k * n2 + n2) (k * n2) ((k + n1) * n2) j d.
Definition split_step1 (wd j : nat) (d : list T * list T) : exec (list T * list T) :=
  split_bf w (fst s) (snd s) (2 * k * n2) (2 * k * n2 + n2) (k * n2) ((k + n1) * n2) j d.

Lemma split_step1_spec : step_spec rd2 (len2 la lb) n2 (k * n2) ((k + n1) * n2) f0 f1 split_step1 1.
Proof.
  intros j [a b] [Ha Hb] Hj. cbn [fst snd] in Ha, Hb. unfold split_step1, split_bf.
  rewrite !get_nth with (d := fzero) by nia. cbn [bind].
  rewrite set_ok by nia. cbn [bind]. rewrite set_ok by nia. cbn [bind].
  rewrite set_ok by (rewrite upd_length; nia). cbn [bind]. rewrite set_ok by (rewrite upd_length; nia). cbn [bind].
  eexists; split; [reflexivity|]. split; [split; cbn [fst snd]; rewrite !upd_length; assumption|].
  intros p. unfold rd2 at 1. cbn [fst snd].
  rewrite !nth_upd by (rewrite ?upd_length; nia).
  destruct (Nat.eqb_spec p ((k + n1) * n2 + j)) as [->|Hp1].
  - destruct (Nat.leb_spec (k * n2 + j) ((k + n1) * n2 + j)), (Nat.ltb_spec ((k + n1) * n2 + j) (k * n2 + j + 1)),
       (Nat.leb_spec ((k + n1) * n2 + j) ((k + n1) * n2 + j)), (Nat.ltb_spec ((k + n1) * n2 + j) ((k + n1) * n2 + j + 1));
       cbn [andb]; try lia; try nia.
    unfold f1, bf1. replace ((k + n1) * n2 + j - (k + n1) * n2) with j by lia. reflexivity.
  - destruct (Nat.eqb_spec p (k * n2 + j)) as [->|Hp0].
    + destruct (Nat.leb_spec (k * n2 + j) (k * n2 + j)), (Nat.ltb_spec (k * n2 + j) (k * n2 + j + 1)); cbn [andb]; try lia.
      unfold f0, bf0. replace (k * n2 + j - k * n2) with j by lia. reflexivity.
    + destruct (Nat.leb_spec (k * n2 + j) p), (Nat.ltb_spec p (k * n2 + j + 1)),
           (Nat.leb_spec ((k + n1) * n2 + j) p), (Nat.ltb_spec p ((k + n1) * n2 + j + 1)); cbn [andb]; try lia; reflexivity.
Qed.

Lemma split_step_spec wd : step_spec rd2 (len2 la lb) n2 (k * n2) ((k + n1) * n2) f0 f1 split_step wd.
Proof.
  intros j [a b] [Ha Hb] Hj. cbn [fst snd] in Ha, Hb. unfold split_step, split_bf_simd.
  rewrite !loadv_ok by nia. cbn [bind].
  set (er := firstn wd (skipn (2 * k * n2 + j) (fst s))).
  set (ei := firstn wd (skipn (2 * k * n2 + j) (snd s))).
  set (or := firstn wd (skipn (2 * k * n2 + n2 + j) (fst s))).
  set (oi := firstn wd (skipn (2 * k * n2 + n2 + j) (snd s))).
  assert (Ler : length er = wd) by (apply loadv_length; nia).
  assert (Lei : length ei = wd) by (apply loadv_length; nia).
  assert (Lor : length or = wd) by (apply loadv_length; nia).
  assert (Loi : length oi = wd) by (apply loadv_length; nia).
  set (tr := zip_with fsub _ _). set (ti := zip_with fadd (map _ or) _).
  assert (Ltr : length tr = wd) by (unfold tr; rewrite zip_with_length, !map_length; lia).
  assert (Lti : length ti = wd) by (unfold ti; rewrite zip_with_length, !map_length; lia).
  set (v0r := zip_with fadd er tr). set (v0i := zip_with fadd ei ti).
  set (v1r := zip_with fsub er tr). set (v1i := zip_with fsub ei ti).
  assert (L0r : length v0r = wd) by (unfold v0r; rewrite zip_with_length; lia).
  assert (L0i : length v0i = wd) by (unfold v0i; rewrite zip_with_length; lia).
  assert (L1r : length v1r = wd) by (unfold v1r; rewrite zip_with_length; lia).
  assert (L1i : length v1i = wd) by (unfold v1i; rewrite zip_with_length; lia).
  rewrite storev_ok by nia. cbn [bind]. rewrite storev_ok by nia. cbn [bind].
  rewrite storev_ok by (rewrite stored_length; nia). cbn [bind].
  rewrite storev_ok by (rewrite stored_length; nia). cbn [bind].
  eexists; split; [reflexivity|]. split.
  { split; cbn [fst snd]; rewrite !stored_length; rewrite ?stored_length; nia. }
  intros p. unfold rd2 at 1. cbn [fst snd].
  rewrite (@nth_stored (stored a _ v0r)) by (rewrite stored_length; nia).
  rewrite (@nth_stored (stored b _ v0i)) by (rewrite stored_length; nia).
  rewrite !nth_stored by nia. rewrite L0r, L0i, L1r, L1i.
  destruct (Nat.leb_spec ((k + n1) * n2 + j) p) as [A1|A1], (Nat.ltb_spec p ((k + n1) * n2 + j + wd)) as [A2|A2];
  destruct (Nat.leb_spec (k * n2 + j) p) as [B1|B1], (Nat.ltb_spec p (k * n2 + j + wd)) as [B2|B2];
    cbn [andb]; try (exfalso; nia); try reflexivity.
  - assert (Hq : p - ((k + n1) * n2 + j) < wd) by lia.
    set (q := p - ((k + n1) * n2 + j)) in *.
    unfold v1r, v1i. rewrite !nth_zip_with with (da := fzero) (db := fzero) by lia.
    unfold tr, ti. rewrite !nth_zip_with with (da := fzero) (db := fzero) by (rewrite map_length; lia).
    rewrite !nth_indep with (l := map _ _) (d := fzero) (d' := fmul fzero (re w)) by (rewrite map_length; lia).
    rewrite (map_nth (fun x => fmul x (re w))).
    rewrite (map_nth (fun x => fmul x (re w))).
    rewrite !nth_indep with (l := map _ _) (d := fmul fzero (re w)) (d' := fmul fzero (im w)) by (rewrite map_length; lia).
    rewrite (map_nth (fun x => fmul x (im w))).
    rewrite (map_nth (fun x => fmul x (im w))).
    unfold er, ei, or, oi. rewrite !nth_loadv by lia.
    unfold f1, bf1, csub, cmul_plain, rd2. cbn [re im fst snd].
    replace (2 * k * n2 + j + q) with (2 * k * n2 + (p - (k + n1) * n2)) by (unfold q; lia).
    replace (2 * k * n2 + n2 + j + q) with (2 * k * n2 + n2 + (p - (k + n1) * n2)) by (unfold q; lia).
    reflexivity.
  - assert (Hq : p - (k * n2 + j) < wd) by lia.
    set (q := p - (k * n2 + j)) in *.
    unfold v0r, v0i. rewrite !nth_zip_with with (da := fzero) (db := fzero) by lia.
    unfold tr, ti. rewrite !nth_zip_with with (da := fzero) (db := fzero) by (rewrite map_length; lia).
    rewrite !nth_indep with (l := map _ _) (d := fzero) (d' := fmul fzero (re w)) by (rewrite map_length; lia).
    rewrite (map_nth (fun x => fmul x (re w))).
    rewrite (map_nth (fun x => fmul x (re w))).
    rewrite !nth_indep with (l := map _ _) (d := fmul fzero (re w)) (d' := fmul fzero (im w)) by (rewrite map_length; lia).
    rewrite (map_nth (fun x => fmul x (im w))).
    rewrite (map_nth (fun x => fmul x (im w))).
    unfold er, ei, or, oi. rewrite !nth_loadv by lia.
    unfold f0, bf0, cadd, cmul_plain, rd2. cbn [re im fst snd].
    replace (2 * k * n2 + j + q) with (2 * k * n2 + (p - k * n2)) by (unfold q; lia).
    replace (2 * k * n2 + n2 + j + q) with (2 * k * n2 + n2 + (p - k * n2)) by (unfold q; lia).
    reflexivity.
Qed.

Lemma split_group_ok L d : length twl = n / 2 -> len2 la lb d ->
  exists d', split_group L n1 n2 twl (fst s) (snd s) k d = Done d' /\ len2 la lb d' /\
    upto rd2 (k * n2) ((k + n1) * n2) f0 f1 d n2 d'.
Proof.
  intros Htw Hd. unfold split_group.
  rewrite get_nth with (d := czero) by (rewrite Htw; apply Nat.div_le_lower_bound; nia).
  cbn [bind]. fold (nthc twl (k * n2)). fold w.
  assert (H1 : exists j dj, (if L =? 0 then Done (0, d) else
     while_ (S n2) (fun '(j, _) => j + L <=? n2)
       (fun '(j, d) => d' <- split_bf_simd L w (fst s) (snd s) (2 * k * n2) (2 * k * n2 + n2) (k * n2) ((k + n1) * n2) j d ;;
          Done (j + L, d')) (0, d)) = Done (j, dj) /\ len2 la lb dj /\ j <= n2 /\
     upto rd2 (k * n2) ((k + n1) * n2) f0 f1 d j dj).
  { destruct (Nat.eqb_spec L 0).
    - exists 0, d. split; [reflexivity|]. split; [exact Hd|]. split; [lia|]. apply upto_0.
    - destruct (@inner_loop _ _ rd2 (len2 la lb) n2 (k * n2) ((k + n1) * n2) f0 f1 ltac:(nia) split_step L d 0 d)
        as (j & d' & E & HO & Hj1 & Hj2 & Hup); try assumption; try lia.
      + apply split_step_spec.
      + apply upto_0.
      + exists j, d'. split; [exact E|]. auto. }
  destruct H1 as (j & dj & E & HO & Hj & Hup). cbv zeta. rewrite E. cbn [bind].
  destruct (@inner_loop _ _ rd2 (len2 la lb) n2 (k * n2) ((k + n1) * n2) f0 f1 ltac:(nia) split_step1 1 d j dj)
        as (j' & d' & E' & HO' & Hj1 & Hj2 & Hup'); try assumption; try lia.
  - apply split_step1_spec.
  - assert (j' = n2) by lia. subst j'.
    erewrite while_ext; [rewrite E'| |].
    + cbn [bind]. eexists; split; [reflexivity|]. split; [exact HO'|exact Hup'].
    + intros [i q]. lia.
    + intros [i q]. reflexivity.
Qed.
End SplitStep.

Lemma split_stage_ok n (twl : list cx) L la lb la' lb' : length twl = n / 2 ->
  n <= la -> n <= lb -> n <= la' -> n <= lb' ->
  stage_ok rd2 cmul_plain (nthc twl) n
    (fun n1 n2 src dst => for_range 0 n1 (split_group L n1 n2 twl (fst src) (snd src)) dst)
    (len2 la lb) (len2 la' lb').
Proof.
  intros Htw H1 H2 H3 H4 n1 n2 s d [Hs1 Hs2] Hd Hn2 Hn.
  apply groups_stage with (OK := len2 la' lb'); try assumption.
  intros k dd Hk Hdd. apply split_group_ok with (n := n); try assumption; lia.
Qed.
End Stk.

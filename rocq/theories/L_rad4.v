(* fft_radix4 on every size 4^k: its digit-reversal loop and its stages. *)
From Coq Require Import ZArith ZifyBool ZifyNat Lra Permutation.
From Verif Require Export L_stack L_plan.
Ltac Zify.zify_post_hook ::= Z.div_mod_to_equations.
Set Implicit Arguments.

(* ---------- the reversal loop with shift 2 ---------- *)
Lemma lxor_lt a b m : a < 2 ^ m -> b < 2 ^ m -> Nat.lxor a b < 2 ^ m.
Proof.
  intros Ha Hb. destruct (Nat.eq_dec (Nat.lxor a b) 0) as [->|E]; [apply pow2_pos|].
  apply Nat.log2_lt_pow2; [lia|]. destruct m as [|m].
  { cbn in Ha, Hb. assert (a = 0) by lia. assert (b = 0) by lia. subst. exfalso. apply E. reflexivity. }
  pose proof (Nat.log2_lxor a b) as H.
  assert (La : Nat.log2 a < S m).
  { destruct (Nat.eq_dec a 0) as [->|]; [cbn; lia|]. apply Nat.log2_lt_pow2; [lia|exact Ha]. }
  assert (Lb : Nat.log2 b < S m).
  { destruct (Nat.eq_dec b 0) as [->|]; [cbn; lia|]. apply Nat.log2_lt_pow2; [lia|exact Hb]. }
  lia.
Qed.
Lemma rev4_step_ok m n j : n <= 2 * 2 ^ m -> j < 2 ^ m -> exists j', rev_step 2 n j = Done j' /\ j' < 2 ^ m.
Proof.
  intros Hn Hj. unfold rev_step.
  assert (Hb : Nat.shiftr n 2 < 2 ^ m /\ Nat.shiftr n 2 <= n).
  { rewrite Nat.shiftr_div_pow2. change (2 ^ 2) with 4. pose proof (pow2_pos m). lia. }
  destruct (@while_inv (nat * nat) (fun s => fst s < 2 ^ m /\ snd s < 2 ^ m) snd
     (fun '(j, bit) => negb (Nat.land j bit =? 0))
     (fun '(j, bit) => Done (Nat.lxor j bit, Nat.shiftr bit 2)) (S (S n)) (j, Nat.shiftr n 2))
    as ([j' b'] & E & (H1 & H2) & _); cbn [fst snd] in *.
  - split; [exact Hj|apply Hb].
  - lia.
  - intros [a b] [Ha Hbb] Hc. cbn [fst snd] in *. eexists. split; [reflexivity|]. cbn [fst snd].
    assert (b <> 0).
    { intros ->. rewrite Nat.land_0_r in Hc. discriminate. }
    rewrite Nat.shiftr_div_pow2. change (2 ^ 2) with 4.
    split; [split; [apply lxor_lt; assumption|lia]|lia].
  - rewrite E. cbn [bind]. eexists. split; [reflexivity|]. apply lxor_lt; assumption.
Qed.

Section Any.
Context {T : Type} {F : Float T}.
Variable c : cfg.
Local Notation cx := (cx T).

Lemma swap_perm (y : list cx) i j : i < length y -> j < length y -> i <> j ->
  Permutation y (upd (upd y i (nth j y czero)) j (nth i y czero)).
Proof.
  intros Hi Hj Hij. apply (Permutation_nth _ _ czero). split; [rewrite !upd_length; reflexivity|].
  exists (fun k => if k =? j then i else if k =? i then j else k). repeat split.
  - intros k Hk. destruct (Nat.eqb_spec k j); [lia|]. destruct (Nat.eqb_spec k i); lia.
  - intros a b Ha Hb. destruct (Nat.eqb_spec a j), (Nat.eqb_spec a i), (Nat.eqb_spec b j), (Nat.eqb_spec b i); lia.
  - intros k Hk. rewrite !nth_upd by (rewrite ?upd_length; lia).
    destruct (Nat.eqb_spec k j) as [->|]; [reflexivity|]. destruct (Nat.eqb_spec k i) as [->|]; reflexivity.
Qed.
(* it never panics, permutes, and leaves the upper half where it is *)
Lemma rev4_permute_ok m (x : list cx) : length x = 2 * 2 ^ m ->
  exists y, rev_permute 2 x = Done y /\ Permutation x y /\ length y = length x /\
    forall i, 2 ^ m <= i -> nth i y czero = nth i x czero.
Proof.
  intros HL. unfold rev_permute. pose proof (pow2_pos m) as Hp.
  destruct (@for_inv (nat * list cx) (fun _ s => fst s < 2 ^ m /\ Permutation x (snd s) /\
      forall i, 2 ^ m <= i -> nth i (snd s) czero = nth i x czero)
     (fun i '(j, z) => j <- rev_step 2 (length x) j ;; z <- (if i <? j then swap z i j else Done z) ;; Done (j, z))
     1 (length x) (0, x)) as ([j y] & E & _ & Hy & Hv); cbn [fst snd] in *.
  - lia.
  - split; [lia|]. split; [apply Permutation_refl|reflexivity].
  - intros i [j y] Hi (Hj & Hy & Hv). cbn [fst snd] in *.
    destruct (@rev4_step_ok m (length x) j ltac:(lia) Hj) as (j' & E & Hj'). rewrite E. cbn [bind].
    pose proof (Permutation_length Hy) as Ly.
    destruct (Nat.ltb_spec i j') as [Hlt|Hge].
    + rewrite swap_ok by lia. cbn [bind]. eexists. split; [reflexivity|]. cbn [fst snd]. split; [exact Hj'|]. split.
      * apply (Permutation_trans Hy). apply swap_perm; lia.
      * intros k Hk. destruct (Nat.lt_ge_cases k (length x)) as [Hkl|Hkl].
        -- rewrite !nth_upd by (rewrite ?upd_length; lia). destruct (Nat.eqb_spec k j'); [lia|]. destruct (Nat.eqb_spec k i); [lia|]. apply Hv, Hk.
        -- rewrite !nth_overflow by (rewrite ?upd_length; lia). reflexivity.
    + cbn [bind]. eexists. split; [reflexivity|]. auto.
  - rewrite E. cbn [bind]. exists y. split; [reflexivity|]. split; [exact Hy|]. split; [symmetry; apply Permutation_length, Hy|exact Hv].
Qed.

(* ---------- one butterfly, one block, one stage ---------- *)
Definition bf4 (r : nat) (a b c0 d : cx) : cx :=
  let '(x0, x1, x2, x3) := butterfly4 c a b c0 d in
  match r with 0 => x0 | 1 => x1 | 2 => x2 | _ => x3 end.
Fixpoint wpow (s : cx) (j : nat) : cx := match j with 0 => mkcx fone fzero | S j => cmul c (wpow s j) s end.
(* new value at offset o of a block with quarter q, f being the old contents of the block *)
Definition blockv (q : nat) (s1 s2 s3 : cx) (f : nat -> cx) (o : nat) : cx :=
  let j := o mod q in
  bf4 (o / q) (f j) (cmul c (f (j + q)) (wpow s1 j)) (cmul c (f (j + 2 * q)) (wpow s2 j)) (cmul c (f (j + 3 * q)) (wpow s3 j)).
Definition blockv4 (f : nat -> cx) (o : nat) : cx := bf4 o (f 0) (f 1) (f 2) (f 3).

Lemma set4 (x : list cx) p0 p1 p2 p3 v0 v1 v2 v3 :
  p0 < p1 -> p1 < p2 -> p2 < p3 -> p3 < length x ->
  exists y, (x <- set x p0 v0 ;; x <- set x p1 v1 ;; x <- set x p2 v2 ;; set x p3 v3) = Done y /\ length y = length x /\
    forall p, nth p y czero = if p =? p0 then v0 else if p =? p1 then v1 else if p =? p2 then v2 else if p =? p3 then v3 else nth p x czero.
Proof.
  intros H0 H1 H2 H3. rewrite set_ok by lia. cbn [bind]. rewrite set_ok by (rewrite ?upd_length; lia). cbn [bind].
  rewrite set_ok by (rewrite ?upd_length; lia). cbn [bind]. rewrite set_ok by (rewrite ?upd_length; lia).
  eexists. split; [reflexivity|]. split; [rewrite !upd_length; reflexivity|]. intros p.
  destruct (Nat.lt_ge_cases p (length x)) as [Hp|Hp].
  - rewrite !nth_upd by (rewrite ?upd_length; lia).
    destruct (Nat.eqb_spec p p0), (Nat.eqb_spec p p1), (Nat.eqb_spec p p2), (Nat.eqb_spec p p3); try reflexivity; lia.
  - rewrite !nth_overflow by (rewrite ?upd_length; lia).
    destruct (Nat.eqb_spec p p0), (Nat.eqb_spec p p1), (Nat.eqb_spec p p2), (Nat.eqb_spec p p3); try reflexivity; lia.
Qed.
Lemma r4_bf_ok q i j w1 w2 w3 (x : list cx) : j < q -> i + 4 * q <= length x ->
  exists y, r4_bf c (4 * q) i j w1 w2 w3 x = Done y /\ length y = length x /\
   let g r := bf4 r (nth (i + j) x czero) (cmul c (nth (i + (j + q)) x czero) w1)
                (cmul c (nth (i + (j + 2 * q)) x czero) w2) (cmul c (nth (i + (j + 3 * q)) x czero) w3) in
   (forall r, r < 4 -> nth (i + (j + r * q)) y czero = g r) /\
   forall p, (forall r, r < 4 -> p <> i + (j + r * q)) -> nth p y czero = nth p x czero.
Proof.
  intros Hj Hx. unfold r4_bf. replace (4 * q / 4) with q by lia. replace (4 * q / 2) with (2 * q) by lia.
  rewrite !get_nth with (d := czero) by lia. cbn [bind]. unfold bf4.
  replace (i + j + q) with (i + (j + q)) by lia. replace (i + j + 2 * q) with (i + (j + 2 * q)) by lia.
  replace (i + j + 3 * q) with (i + (j + 3 * q)) by lia.
  destruct (butterfly4 c _ _ _ _) as [[[x0 x1] x2] x3].
  destruct (@set4 x (i + j) (i + (j + q)) (i + (j + 2 * q)) (i + (j + 3 * q)) x0 x1 x2 x3) as (y & E & Ly & Hy); [lia..|].
  exists y. split; [exact E|]. split; [exact Ly|]. cbn zeta. split.
  - intros r Hr. rewrite Hy. destruct r as [|[|[|[|r]]]]; [| | | |lia];
    repeat match goal with |- context [?a =? ?b] => destruct (Nat.eqb_spec a b); [try reflexivity; exfalso; lia|try (exfalso; lia)] end.
  - intros p Hp. rewrite Hy. pose proof (Hp 0 ltac:(lia)). pose proof (Hp 1 ltac:(lia)). pose proof (Hp 2 ltac:(lia)). pose proof (Hp 3 ltac:(lia)).
    repeat match goal with |- context [?a =? ?b] => destruct (Nat.eqb_spec a b); [exfalso; lia|] end. reflexivity.
Qed.
Lemma r4_block_ok q i s1 s2 s3 (x : list cx) : i + 4 * q <= length x -> 0 < q ->
  exists y, r4_block c (4 * q) i s1 s2 s3 x = Done y /\ length y = length x /\
   (forall o, o < 4 * q -> nth (i + o) y czero = blockv q s1 s2 s3 (fun t => nth (i + t) x czero) o) /\
   forall p, p < i \/ i + 4 * q <= p -> nth p y czero = nth p x czero.
Proof.
  intros Hx Hq. unfold r4_block. replace (4 * q / 4) with q by lia.
  match goal with |- context [for_range 0 q ?b ?s0] =>
  destruct (@for_inv (cx * cx * cx * list cx) (fun j s => let '(w1, w2, w3, y) := s in
      w1 = wpow s1 j /\ w2 = wpow s2 j /\ w3 = wpow s3 j /\ length y = length x /\
      (forall t r, t < q -> r < 4 -> nth (i + (t + r * q)) y czero =
         if t <? j then blockv q s1 s2 s3 (fun t => nth (i + t) x czero) (t + r * q) else nth (i + (t + r * q)) x czero) /\
      (forall p, p < i \/ i + 4 * q <= p -> nth p y czero = nth p x czero)) b 0 q s0)
    as ([[[w1 w2] w3] y] & E & Hw1 & Hw2 & Hw3 & Ly & Hin & Hout) end.
  - lia.
  - repeat split; auto.
  - intros j [[[w1 w2] w3] y] Hj (-> & -> & -> & Ly & Hin & Hout).
    destruct (@r4_bf_ok q i j (wpow s1 j) (wpow s2 j) (wpow s3 j) y) as (z & E & Lz & Hz & Hzo); [lia|lia|].
    rewrite E. cbn [bind]. eexists. split; [reflexivity|]. cbn [wpow]. split; [reflexivity|]. split; [reflexivity|]. split; [reflexivity|].
    split; [congruence|]. split.
    + intros t r Ht Hr. destruct (Nat.eq_dec t j) as [->|Ht'].
      * rewrite Hz by exact Hr. destruct (Nat.ltb_spec j (S j)); [|lia]. unfold blockv.
        replace ((j + r * q) mod q) with j by (rewrite Nat.mod_add, Nat.mod_small; lia).
        replace ((j + r * q) / q) with r by (rewrite Nat.div_add, Nat.div_small; lia).
        pose proof (Hin j 0 ltac:(lia) ltac:(lia)) as H0. pose proof (Hin j 1 ltac:(lia) ltac:(lia)) as H1.
        pose proof (Hin j 2 ltac:(lia) ltac:(lia)) as H2. pose proof (Hin j 3 ltac:(lia) ltac:(lia)) as H3.
        rewrite Nat.ltb_irrefl in H0, H1, H2, H3. rewrite Nat.mul_0_l, Nat.add_0_r in H0. rewrite Nat.mul_1_l in H1.
        rewrite H0, H1, H2, H3. reflexivity.
      * rewrite Hzo.
        -- rewrite Hin by assumption. destruct (Nat.ltb_spec t j), (Nat.ltb_spec t (S j)); try reflexivity; lia.
        -- intros r' Hr' He. apply Ht'.
           assert (Em : (t + r * q) mod q = (j + r' * q) mod q) by (f_equal; lia).
           rewrite !Nat.mod_add, !Nat.mod_small in Em by lia. exact Em.
    + intros p Hp. rewrite Hzo; [apply Hout, Hp|]. intros r Hr. nia.
  - rewrite E. cbn [bind]. exists y. split; [reflexivity|]. split; [exact Ly|]. split; [|exact Hout].
    intros o Ho. pose proof (Nat.div_mod_eq o q) as D. pose proof (Nat.mod_upper_bound o q ltac:(lia)) as M.
    assert (o / q < 4) by (apply Nat.div_lt_upper_bound; lia).
    rewrite D at 1. replace (q * (o / q) + o mod q) with (o mod q + o / q * q) by lia.
    rewrite Hin by assumption. destruct (Nat.ltb_spec (o mod q) q); [|lia]. f_equal. lia.
Qed.
Lemma r4_bf4_ok i (x : list cx) : i + 4 <= length x ->
  exists y, r4_bf4 c i x = Done y /\ length y = length x /\
   (forall o, o < 4 -> nth (i + o) y czero = blockv4 (fun t => nth (i + t) x czero) o) /\
   forall p, p < i \/ i + 4 <= p -> nth p y czero = nth p x czero.
Proof.
  intros Hx. unfold r4_bf4. rewrite !get_nth with (d := czero) by lia. cbn [bind]. unfold blockv4, bf4.
  rewrite (Nat.add_0_r i). destruct (butterfly4 c _ _ _ _) as [[[x0 x1] x2] x3].
  destruct (@set4 x i (i + 1) (i + 2) (i + 3) x0 x1 x2 x3) as (y & E & Ly & Hy); [lia..|].
  exists y. split; [exact E|]. split; [exact Ly|]. split.
  - intros r Hr. rewrite Hy. destruct r as [|[|[|[|r]]]]; [| | | |lia];
    repeat match goal with |- context [?a =? ?b] => destruct (Nat.eqb_spec a b); [try reflexivity; exfalso; lia|try (exfalso; lia)] end.
  - intros p Hp. rewrite Hy.
    repeat match goal with |- context [?a =? ?b] => destruct (Nat.eqb_spec a b); [exfalso; lia|] end. reflexivity.
Qed.
(* the loop over the blocks of one stage *)
Lemma blocks_ok (len B : nat) (op : nat -> list cx -> exec (list cx)) (g : (nat -> cx) -> nat -> cx) :
  0 < len ->
  (forall f f' o, (forall t, t < len -> f t = f' t) -> o < len -> g f o = g f' o) ->
  (forall i x, i + len <= length x -> exists y, op i x = Done y /\ length y = length x /\
     (forall o, o < len -> nth (i + o) y czero = g (fun t => nth (i + t) x czero) o) /\
     forall p, p < i \/ i + len <= p -> nth p y czero = nth p x czero) ->
  forall n x, n = B * len -> length x = n ->
  exists i y, while_ (S n) (fun '(i, _) => i <? n) (fun '(i, x) => x <- op i x ;; Done (i + len, x)) (0, x) = Done (i, y) /\
    length y = n /\ forall b o, b < B -> o < len -> nth (b * len + o) y czero = g (fun t => nth (b * len + t) x czero) o.
Proof.
  intros Hlen Hg Hop n x En Lx. subst n.
  destruct (@while_inv (nat * list cx) (fun s => exists b, b <= B /\ fst s = b * len /\ length (snd s) = B * len /\
     forall b' o, b' < B -> o < len -> nth (b' * len + o) (snd s) czero =
       if b' <? b then g (fun t => nth (b' * len + t) x czero) o else nth (b' * len + o) x czero)
     (fun s => B * len - fst s) (fun '(i, _) => i <? B * len) (fun '(i, x) => x <- op i x ;; Done (i + len, x)) (S (B * len)) (0, x))
    as ([i y] & E & (b & Hb & Hi & Ly & Hy) & Hc); cbn [fst snd] in *.
  - exists 0. split; [lia|]. split; [reflexivity|]. split; [exact Lx|]. intros. reflexivity.
  - lia.
  - intros [i y] (b & Hb & Hi & Ly & Hy) Hc. cbn [fst snd] in *. subst i. apply Nat.ltb_lt in Hc.
    assert (b < B) by nia.
    destruct (Hop (b * len) y ltac:(nia)) as (z & E & Lz & Hz & Hzo). rewrite E. cbn [bind]. eexists. split; [reflexivity|].
    cbn [fst snd]. split; [|nia]. exists (S b). split; [lia|]. split; [lia|]. split; [congruence|].
    intros b' o Hb' Ho. destruct (Nat.eq_dec b' b) as [->|Hne].
    + rewrite Hz by exact Ho. destruct (Nat.ltb_spec b (S b)); [|lia]. apply Hg; [|exact Ho].
      intros t Ht. rewrite Hy by assumption. rewrite Nat.ltb_irrefl. reflexivity.
    + rewrite Hzo by nia. rewrite Hy by assumption. destruct (Nat.ltb_spec b' b), (Nat.ltb_spec b' (S b)); try reflexivity; lia.
  - apply Nat.ltb_ge in Hc. assert (b = B) by nia. subst b. exists i, y. split; [exact E|]. split; [exact Ly|].
    intros b' o Hb' Ho. rewrite Hy by assumption. destruct (Nat.ltb_spec b' B); [reflexivity|lia].
Qed.

(* ---------- all stages ---------- *)
(* one stage with blocks of length len = 4 q, as a function of the index *)
Definition stage4 (q : nat) (f : nat -> cx) (p : nat) : cx :=
  let b := p / (4 * q) in let o := p mod (4 * q) in
  if q =? 1 then blockv4 (fun t => f (b * 4 + t)) o
  else blockv q (nthc (twf c (4 * q)) 1) (nthc (twf c (4 * q)) 2) (nthc (twf c (4 * q)) 3)
         (fun t => f (b * (4 * q) + t)) o.
Fixpoint stages4 (s : nat) (f : nat -> cx) : nat -> cx :=
  match s with 0 => f | S s => stage4 (4 ^ s) (stages4 s f) end.
Lemma bf4_ext r a b d e a' b' d' e' : a = a' -> b = b' -> d = d' -> e = e' -> bf4 r a b d e = bf4 r a' b' d' e'.
Proof. congruence. Qed.
Lemma blockv_ext q s1 s2 s3 f f' o : (forall t, t < 4 * q -> f t = f' t) -> o < 4 * q -> blockv q s1 s2 s3 f o = blockv q s1 s2 s3 f' o.
Proof.
  intros H Ho. unfold blockv. pose proof (Nat.mod_upper_bound o q ltac:(lia)) as M.
  apply bf4_ext; rewrite H by lia; reflexivity.
Qed.
Lemma blockv4_ext f f' o : (forall t, t < 4 -> f t = f' t) -> o < 4 -> blockv4 f o = blockv4 f' o.
Proof. intros H Ho. unfold blockv4. apply bf4_ext; apply H; lia. Qed.
Lemma pow4_pos s : 0 < 4 ^ s.
Proof. apply Nat.neq_0_lt_0, Nat.pow_nonzero. lia. Qed.
Lemma stage4_ext q n f f' p : 0 < q -> (exists B, n = B * (4 * q)) -> p < n -> (forall i, i < n -> f i = f' i) -> stage4 q f p = stage4 q f' p.
Proof.
  intros Hq [B HB] Hp H. unfold stage4.
  pose proof (Nat.mod_upper_bound p (4 * q) ltac:(lia)) as M. pose proof (Nat.div_mod_eq p (4 * q)) as D.
  assert (p / (4 * q) < B) by (apply Nat.div_lt_upper_bound; lia).
  destruct (Nat.eqb_spec q 1) as [->|].
  - apply blockv4_ext; [|lia]. intros t Ht. apply H. nia.
  - apply blockv_ext; [|exact M]. intros t Ht. apply H. nia.
Qed.

Theorem radix4_any k p (x : list cx) : cache_ok p -> length x = 4 ^ k ->
  exists p' u y, fft_radix4 c p x = Done (p', y, ROk) /\ cache_ok p' /\
    rev_permute 2 x = Done u /\ Permutation x u /\
    (forall i, 4 ^ k / 2 <= i -> 1 <= k -> nth i u czero = nth i x czero) /\
    y = tab (4 ^ k) (stages4 k (fun i => nth i u czero)).
Proof.
  intros Hc HL. unfold fft_radix4.
  assert (E4 : is_pow2 (length x) && Nat.even (Nat.log2 (length x)) = true).
  { rewrite HL. change 4 with (2 ^ 2). rewrite <- Nat.pow_mul_r, is_pow2_pow, Nat.log2_pow2 by lia. rewrite Nat.even_mul. reflexivity. }
  apply andb_prop in E4. destruct E4 as [-> ->]. cbn [negb orb].
  assert (HP : exists u, rev_permute 2 x = Done u /\ Permutation x u /\ length u = length x /\
     forall i, 4 ^ k / 2 <= i -> 1 <= k -> nth i u czero = nth i x czero).
  { destruct k as [|k].
    - cbn in HL. exists x. unfold rev_permute. rewrite HL. split; [reflexivity|]. split; [apply Permutation_refl|]. split; [reflexivity|lia].
    - destruct (@rev4_permute_ok (2 * k + 1) x) as (u & E & P & L & H).
      { rewrite HL, Nat.pow_succ_r', Nat.pow_add_r, Nat.pow_mul_r. change (2 ^ 2) with 4. change (2 ^ 1) with 2. lia. }
      exists u. split; [exact E|]. split; [exact P|]. split; [exact L|]. intros i Hi _. apply H.
      rewrite Nat.pow_add_r, Nat.pow_mul_r. change (2 ^ 2) with 4. change (2 ^ 1) with 2. rewrite Nat.pow_succ_r' in Hi. lia. }
  destruct HP as (u & Eu & Pu & Lu & Hu). rewrite Eu. cbn [bind].
  set (f0 := fun i => nth i u czero).
  match goal with |- context [while_ _ ?cc ?b _] => set (cond := cc); set (body := b) end.
  destruct (@while_inv (nat * planner T * list cx) (fun st => let '(len, q, y) := st in exists s, s <= k /\ len = 4 ^ S s /\ cache_ok q /\
      length y = 4 ^ k /\ forall i, i < 4 ^ k -> nth i y czero = stages4 s f0 i)
     (fun st => let '(len, _, _) := st in 4 ^ k + 4 - len) cond body (S (length x)) (4, p, u))
    as ([[len p'] y] & E & (s & Hs & Hlen & Hp' & Ly & Hy) & Hcnd).
  - exists 0. split; [lia|]. split; [reflexivity|]. split; [exact Hc|]. split; [lia|]. reflexivity.
  - lia.
  - intros [[len q] y] (s & Hs & -> & Hq & Ly & Hy) Hcond. unfold cond in Hcond. apply Nat.leb_le in Hcond.
    rewrite HL in Hcond. assert (Hsk : S s <= k) by (apply (Nat.pow_le_mono_r_iff 4); [lia|exact Hcond]).
    pose proof (pow4_pos s) as Hps. rewrite Nat.pow_succ_r' in Hcond |- *.
    assert (HB : 4 ^ k = 4 ^ (k - S s) * (4 * 4 ^ s)).
    { rewrite <- (Nat.pow_succ_r' 4 s), <- Nat.pow_add_r. f_equal. lia. }
    unfold body. rewrite HL.
    assert (Hst : forall z : list cx, length z = 4 ^ k -> (forall b o, b < 4 ^ (k - S s) -> o < 4 * 4 ^ s ->
        nth (b * (4 * 4 ^ s) + o) z czero = stage4 (4 ^ s) (fun i => nth i y czero) (b * (4 * 4 ^ s) + o)) ->
        exists s', s' <= k /\ 4 * 4 ^ s * 4 = 4 ^ S s' /\ length z = 4 ^ k /\ forall i, i < 4 ^ k -> nth i z czero = stages4 s' f0 i).
    { intros z Lz Hz. exists (S s). split; [exact Hsk|]. split; [rewrite !Nat.pow_succ_r'; lia|]. split; [exact Lz|].
      intros i Hi. cbn [stages4]. pose proof (Nat.div_mod_eq i (4 * 4 ^ s)) as D. pose proof (Nat.mod_upper_bound i (4 * 4 ^ s) ltac:(lia)) as M.
      rewrite D at 1. rewrite (Nat.mul_comm (4 * 4 ^ s)), Hz; [|apply Nat.div_lt_upper_bound; lia|exact M].
      rewrite (Nat.mul_comm (i / _)), <- D. apply (@stage4_ext (4 ^ s) (4 ^ k)); [exact Hps|eauto|exact Hi|exact Hy]. }
    assert (Hdm : forall b o, o < 4 * 4 ^ s -> (b * (4 * 4 ^ s) + o) / (4 * 4 ^ s) = b /\ (b * (4 * 4 ^ s) + o) mod (4 * 4 ^ s) = o).
    { intros b o Ho. split; [rewrite Nat.div_add_l, Nat.div_small; lia|rewrite Nat.add_comm, Nat.mod_add, Nat.mod_small; lia]. }
    destruct (Nat.eqb_spec (4 * 4 ^ s) 4) as [E1|E1].
    + assert (Es : 4 ^ s = 1) by lia.
      destruct (@blocks_ok 4 (4 ^ (k - S s)) (r4_bf4 c) blockv4 ltac:(lia)
        ltac:(intros; apply blockv4_ext; assumption) ltac:(intros; apply r4_bf4_ok; assumption) (4 ^ k) y ltac:(lia) Ly)
        as (i & z & E & Lz & Hz).
      rewrite Es in *. change (4 * 1) with 4 in *.
      rewrite E. cbn [bind]. eexists. split; [reflexivity|].
      destruct (Hst z Lz) as (s' & A1 & A2 & A3 & A4).
      { intros b o Hb Ho. rewrite Hz by assumption. unfold stage4. cbn [Nat.eqb]. change (4 * 1) with 4. destruct (Hdm b o Ho) as [-> ->]. reflexivity. }
      split; [exists s'; auto|]. lia.
    + rewrite (get_twiddles_ok c (4 * 4 ^ s) Hq).
      assert (Hl16 : 8 <= 4 * 4 ^ s / 2) by (destruct s; [cbn in E1; lia|rewrite Nat.pow_succ_r' in *; pose proof (pow4_pos s); lia]).
      rewrite !get_nth with (d := czero) by (rewrite twf_length; lia). cbn [bind].
      destruct (@blocks_ok (4 * 4 ^ s) (4 ^ (k - S s))
        (fun i x => r4_block c (4 * 4 ^ s) i (nthc (twf c (4 * 4 ^ s)) 1) (nthc (twf c (4 * 4 ^ s)) 2) (nthc (twf c (4 * 4 ^ s)) 3) x)
        (blockv (4 ^ s) (nthc (twf c (4 * 4 ^ s)) 1) (nthc (twf c (4 * 4 ^ s)) 2) (nthc (twf c (4 * 4 ^ s)) 3)) ltac:(lia)
        ltac:(intros; apply blockv_ext; assumption) ltac:(intros; apply r4_block_ok; assumption) (4 ^ k) y HB Ly)
        as (i & z & E & Lz & Hz).
      fold (nthc (twf c (4 * 4 ^ s)) 1). fold (nthc (twf c (4 * 4 ^ s)) 2). fold (nthc (twf c (4 * 4 ^ s)) 3).
      rewrite E. cbn [bind]. eexists. split; [reflexivity|].
      destruct (Hst z Lz) as (s' & A1 & A2 & A3 & A4).
      { intros b o Hb Ho. rewrite Hz by assumption. unfold stage4. destruct (Hdm b o Ho) as [-> ->].
        destruct (Nat.eqb_spec (4 ^ s) 1); [lia|]. reflexivity. }
      split; [|lia]. exists s'. split; [exact A1|]. split; [exact A2|]. split; [|auto].
      intros a t. cbn [pl_cache with_cache]. apply cache_after_ok. exact Hq.
  - rewrite E. cbn [bind]. exists p', u, y. split; [reflexivity|]. split; [exact Hp'|]. split; [reflexivity|].
    split; [exact Pu|]. split; [exact Hu|]. unfold cond in Hcnd. apply Nat.leb_gt in Hcnd. rewrite HL, Hlen in Hcnd.
    assert (Hsk : k < S s) by (apply (Nat.pow_lt_mono_r_iff 4); [lia|exact Hcnd]). assert (s = k) by lia. subst s.
    apply list_is_tab with (d := czero); [exact Ly|exact Hy].
Qed.
End Any.

(* ---------- exact arithmetic ---------- *)
(* base-4 digit reversal *)
Fixpoint dig (s j : nat) : nat := match s with 0 => 0 | S s => (j mod 4) * 4 ^ s + dig s (j / 4) end.
Lemma dig_lt s : forall j, dig s j < 4 ^ s.
Proof.
  induction s as [|s IH]; intros j; cbn [dig]; [cbn; lia|]. rewrite Nat.pow_succ_r'. specialize (IH (j / 4)).
  assert (j mod 4 < 4) by (apply Nat.mod_upper_bound; lia). nia.
Qed.
Lemma dig_inj s : forall i j, i < 4 ^ s -> j < 4 ^ s -> dig s i = dig s j -> i = j.
Proof.
  induction s as [|s IH]; intros i j Hi Hj E; [cbn in *; lia|]. cbn [dig] in E. rewrite Nat.pow_succ_r' in *.
  pose proof (dig_lt s (i / 4)). pose proof (dig_lt s (j / 4)).
  assert (E1 : i mod 4 = j mod 4) by nia. rewrite E1 in E.
  assert (E2 : i / 4 = j / 4) by (apply IH; [apply Nat.div_lt_upper_bound; lia..|lia]). lia.
Qed.
Lemma dft_radix4 h f k : 0 < h ->
  dft (4 * h) f k = dft h (fun i => f (4 * i)) k +c W (4 * h) k *c dft h (fun i => f (4 * i + 1)) k
    +c W (4 * h) (2 * k) *c dft h (fun i => f (4 * i + 2)) k +c W (4 * h) (3 * k) *c dft h (fun i => f (4 * i + 3)) k.
Proof.
  intros Hh. replace (4 * h) with (2 * (2 * h)) by lia. rewrite dft_even_odd by lia. rewrite !dft_even_odd by lia.
  rewrite <- (@W_scale (2 * h) 2 k) by lia.
  replace (3 * k) with (k + 2 * k) by lia. rewrite W_add by lia.
  rewrite (@dft_ext h (fun i => f (2 * (2 * i))) (fun i => f (4 * i))) by (intros; f_equal; lia).
  rewrite (@dft_ext h (fun i => f (2 * (2 * i + 1))) (fun i => f (4 * i + 2))) by (intros; f_equal; lia).
  rewrite (@dft_ext h (fun i => f (2 * (2 * i) + 1)) (fun i => f (4 * i + 1))) by (intros; f_equal; lia).
  rewrite (@dft_ext h (fun i => f (2 * (2 * i + 1) + 1)) (fun i => f (4 * i + 3))) by (intros; f_equal; lia).
  ring.
Qed.

Section R4R.
Variable c : cfg.
Lemma wpow_R n a j : 0 < n -> wpow c (W n a) j = W n (a * j).
Proof.
  intros Hn. induction j as [|j IH]; cbn [wpow].
  - rewrite Nat.mul_0_r, W_0. reflexivity.
  - rewrite cmul_R, IH, <- W_add by exact Hn. f_equal. lia.
Qed.
Lemma W_quarter q r : 0 < q -> W (4 * q) (r * q) = W 4 r.
Proof. intros Hq. rewrite (Nat.mul_comm 4), (Nat.mul_comm r). apply W_scale; lia. Qed.
Lemma bf4_R q r j (a0 a1 a2 a3 : C) : 0 < q -> r < 4 ->
  bf4 c r a0 (a1 *c W (4 * q) j) (a2 *c W (4 * q) (2 * j)) (a3 *c W (4 * q) (3 * j)) =
  a0 +c W (4 * q) (j + r * q) *c a1 +c W (4 * q) (2 * (j + r * q)) *c a2 +c W (4 * q) (3 * (j + r * q)) *c a3.
Proof.
  intros Hq Hr. unfold bf4, butterfly4. cbn [fzero fone fneg RF RFloat_of]. rewrite !cmul_R.
  change (@cadd R RF) with Cadd. change (@csub R RF) with Csub.
  replace (2 * (j + r * q)) with (2 * j + (2 * r) * q) by lia. replace (3 * (j + r * q)) with (3 * j + (3 * r) * q) by lia.
  rewrite !(@W_add (4 * q)) by lia. rewrite !W_quarter by exact Hq.
  generalize (W (4 * q) j) (W (4 * q) (2 * j)) (W (4 * q) (3 * j)). intros w1 w2 w3.
  assert (E : forall m, W 4 m = W 4 (m mod 4)) by (intros; symmetry; apply W_mod; lia).
  assert (E1 : W 4 1 = mkcx 0%R (- (1))%R) by apply W_4_1.
  assert (E2 : W 4 2 = mkcx (- (1))%R 0%R) by (change (W 4 2) with (W 4 (1 + 1)); rewrite W_add, E1 by lia; creal; ring).
  assert (E3 : W 4 3 = mkcx 0%R 1%R) by (change (W 4 3) with (W 4 (2 + 1)); rewrite W_add, E1, E2 by lia; creal; ring).
  destruct r as [|[|[|[|r]]]]; [| | | |lia]; cbn [Nat.mul Nat.add]; rewrite ?(E 4), ?(E 6), ?(E 9); cbn [Nat.modulo Nat.divmod fst snd Nat.sub];
    rewrite ?W_0, ?E1, ?E2, ?E3; unfold C1; creal; ring.
Qed.
Lemma bf4_R' q r j t (a0 a1 a2 a3 : C) : 0 < q -> r < 4 -> t = j + r * q ->
  bf4 c r a0 (a1 *c W (4 * q) j) (a2 *c W (4 * q) (2 * j)) (a3 *c W (4 * q) (3 * j)) =
  a0 +c W (4 * q) t *c a1 +c W (4 * q) (2 * t) *c a2 +c W (4 * q) (3 * t) *c a3.
Proof. intros Hq Hr ->. apply bf4_R; assumption. Qed.
Lemma stages4_R s (f : nat -> C) : forall b t, t < 4 ^ s ->
  stages4 c s f (b * 4 ^ s + t) = dft (4 ^ s) (fun j => f (b * 4 ^ s + dig s j)) t.
Proof.
  induction s as [|s IH]; intros b t Ht.
  - cbn [stages4 Nat.pow dig] in *. assert (t = 0) by lia. subst t. rewrite dft_1. reflexivity.
  - cbn [stages4]. pose proof (pow4_pos s) as Hq. rewrite Nat.pow_succ_r' in *. set (q := 4 ^ s) in *.
    rewrite dft_radix4 by exact Hq.
    pose proof (Nat.div_mod_eq t q) as D. pose proof (Nat.mod_upper_bound t q ltac:(lia)) as M.
    assert (Hr : t / q < 4) by (apply Nat.div_lt_upper_bound; lia).
    set (j := t mod q) in *. set (r := t / q) in *.
    assert (Ht' : t = j + r * q) by lia.
    assert (Hd : forall r', r' < 4 -> dft q (fun i => f (b * (4 * q) + dig (S s) (4 * i + r'))) t = stages4 c s f (b * (4 * q) + (j + r' * q))).
    { intros r' Hr'. replace (b * (4 * q) + (j + r' * q)) with ((4 * b + r') * q + j) by lia. rewrite IH by exact M.
      rewrite (@dft_ext q _ (fun i => f ((4 * b + r') * q + dig s i))).
      - rewrite Ht'. clear - Hq. induction r as [|r IHr]; [f_equal; lia|]. replace (j + S r * q) with (j + r * q + q) by lia. rewrite dft_period by exact Hq. exact IHr.
      - intros i Hi. cbn [dig]. fold q. replace ((4 * i + r') mod 4) with r' by lia. replace ((4 * i + r') / 4) with i by lia. f_equal. lia. }
    pose proof (Hd 0 ltac:(lia)) as H0. pose proof (Hd 1 ltac:(lia)) as H1. pose proof (Hd 2 ltac:(lia)) as H2. pose proof (Hd 3 ltac:(lia)) as H3.
    rewrite (@dft_ext q _ (fun i => f (b * (4 * q) + dig (S s) (4 * i)))) in H0 by (intros; do 2 f_equal; rewrite Nat.add_0_r; reflexivity).
    rewrite H0, H1, H2, H3. unfold stage4.
    replace ((b * (4 * q) + t) / (4 * q)) with b by (rewrite Nat.div_add_l, Nat.div_small; lia).
    replace ((b * (4 * q) + t) mod (4 * q)) with t by (rewrite Nat.add_comm, Nat.mod_add, Nat.mod_small; lia).
    rewrite <- (@bf4_R' q r j t _ _ _ _ Hq Hr Ht').
    destruct (Nat.eqb_spec q 1) as [Eq|Eq].
    + unfold blockv4. assert (j = 0) by lia. assert (t = r) by lia. rewrite H4, H.
      cbn [Nat.mul]. rewrite !W_0. rewrite Eq. apply bf4_ext; cbn [Nat.mul Nat.add]; rewrite ?Nat.add_0_r; try reflexivity; cring.
    + unfold blockv. fold j. fold r. assert (Hl : 8 <= 4 * q / 2).
      { unfold q in *. destruct s; [cbn in Eq; lia|]. rewrite Nat.pow_succ_r' in *. pose proof (pow4_pos s). lia. }
      rewrite !twf_R by lia. rewrite !cmul_R, !wpow_R by lia. rewrite Nat.mul_1_l. apply bf4_ext; try reflexivity.
      * f_equal. lia.
      * do 2 f_equal. lia.
Qed.
(* the exact result on every size 4^k: the DFT of a permutation of the input *)
Theorem radix4_exact k p (x : list C) : cache_ok p -> length x = 4 ^ k ->
  exists p' z, fft_radix4 c p x = Done (p', DFT z, ROk) /\ cache_ok p' /\ Permutation x z /\
    (2 <= k -> at_ z 2 = at_ x (4 ^ k / 2)).
Proof.
  intros Hc HL. destruct (@radix4_any R RF c k p x Hc HL) as (p' & u & y & E & Hc' & _ & Pu & Hu & Ey).
  assert (Lu : length u = 4 ^ k) by (rewrite <- (Permutation_length Pu); exact HL).
  exists p', (tab (4 ^ k) (fun j => at_ u (dig k j))). split; [|split; [exact Hc'|split]].
  - rewrite E. do 2 f_equal. f_equal. rewrite Ey. unfold DFT. rewrite tab_length. apply tab_ext. intros i Hi.
    pose proof (@stages4_R k (fun i => nth i u czero) 0 i Hi) as H. cbn [Nat.mul Nat.add] in H. rewrite H.
    apply dft_ext. intros j Hj. unfold at_. rewrite nth_tab by exact Hj. reflexivity.
  - apply (Permutation_trans Pu). apply (Permutation_nth _ _ C0). split; [rewrite tab_length; congruence|].
    exists (dig k). rewrite Lu. repeat split.
    + intros i _. apply dig_lt.
    + intros i j Hi Hj. apply dig_inj; assumption.
    + intros i Hi. rewrite nth_tab by exact Hi. reflexivity.
  - intros Hk. unfold at_. rewrite nth_tab.
    + assert (Ed : dig k 2 = 4 ^ k / 2).
      { destruct k as [|k]; [lia|]. cbn [dig]. change (2 mod 4) with 2. change (2 / 4) with 0.
        assert (Z : forall s, dig s 0 = 0) by (induction s as [|s IHs]; cbn [dig]; [reflexivity|]; change (0 mod 4) with 0; change (0 / 4) with 0; rewrite IHs; lia).
        rewrite Z, Nat.pow_succ_r'. lia. }
      rewrite Ed. apply Hu; lia.
    + pose proof (@Nat.pow_le_mono_r 4 1 k ltac:(lia) ltac:(lia)). change (4 ^ 1) with 4 in *. lia.
Qed.
End R4R.

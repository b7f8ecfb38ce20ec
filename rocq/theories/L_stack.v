(* fft_inplace_stack: bit-reversal permutation and in-place butterflies. *)
From Coq Require Import ZArith ZifyBool ZifyNat Lra.
From Verif Require Export L_fftR.
Ltac Zify.zify_post_hook ::= Z.div_mod_to_equations.
Set Implicit Arguments.

(* ---------- bit reversal ---------- *)
Fixpoint rev (L i : nat) : nat :=
  match L with 0 => 0 | S l => (i mod 2) * 2 ^ l + rev l (i / 2) end.
Lemma rev_lt L : forall i, rev L i < 2 ^ L.
Proof.
  induction L as [|L IH]; intros i; cbn [rev Nat.pow]; [lia|]. specialize (IH (i / 2)).
  assert (i mod 2 < 2) by (apply Nat.mod_upper_bound; lia). nia.
Qed.
Lemma rev_hi L : forall b a, b < 2 -> a < 2 ^ L -> rev (S L) (b * 2 ^ L + a) = 2 * rev L a + b.
Proof.
  induction L as [|L IH]; intros b a Hb Ha.
  - cbn in Ha. assert (a = 0) by lia. subst a. cbn [rev Nat.pow]. destruct b as [|[|b]]; [reflexivity|reflexivity|lia].
  - change (rev (S (S L)) (b * 2 ^ S L + a)) with
      (((b * 2 ^ S L + a) mod 2) * 2 ^ S L + rev (S L) ((b * 2 ^ S L + a) / 2)).
    assert (E1 : (b * 2 ^ S L + a) mod 2 = a mod 2).
    { cbn [Nat.pow]. replace (b * (2 * 2 ^ L) + a) with (a + (b * 2 ^ L) * 2) by lia. apply Nat.mod_add. lia. }
    assert (E2 : (b * 2 ^ S L + a) / 2 = b * 2 ^ L + a / 2).
    { cbn [Nat.pow]. replace (b * (2 * 2 ^ L) + a) with (b * 2 ^ L * 2 + a) by lia. rewrite Nat.div_add_l by lia. reflexivity. }
    rewrite E1, E2, IH; [|exact Hb|].
    + cbn [rev Nat.pow]. lia.
    + apply Nat.div_lt_upper_bound; [lia|]. cbn [Nat.pow] in Ha. lia.
Qed.
Lemma rev_rev L : forall i, i < 2 ^ L -> rev L (rev L i) = i.
Proof.
  induction L as [|L IH]; intros i Hi; [cbn in *; lia|].
  change (rev (S L) i) with ((i mod 2) * 2 ^ L + rev L (i / 2)).
  rewrite rev_hi; [|apply Nat.mod_upper_bound; lia|apply rev_lt].
  rewrite IH; [pose proof (Nat.div_mod_eq i 2); lia|]. apply Nat.div_lt_upper_bound; [lia|]. cbn [Nat.pow] in Hi. lia.
Qed.
Lemma rev_0 L : rev L 0 = 0.
Proof. induction L; cbn [rev]; [reflexivity|]. rewrite Nat.mod_0_l, Nat.div_0_l, IHL by lia. lia. Qed.

(* ---------- bits ---------- *)
Lemma land_lo a L : a < 2 ^ L -> Nat.land a (2 ^ L) = 0.
Proof.
  intros H. apply Nat.bits_inj_0. intros k. rewrite Nat.land_spec, Nat.pow2_bits_eqb.
  destruct (Nat.eqb_spec L k) as [<-|]; [|apply andb_false_r]. rewrite andb_true_r.
  rewrite Nat.testbit_eqb, Nat.div_small by exact H. reflexivity.
Qed.
Lemma lxor_lo a L : a < 2 ^ L -> Nat.lxor a (2 ^ L) = a + 2 ^ L.
Proof. intros H. symmetry. apply Nat.add_nocarry_lxor. apply land_lo. exact H. Qed.
Lemma lxor_hi a L : a < 2 ^ L -> Nat.lxor (a + 2 ^ L) (2 ^ L) = a.
Proof. intros H. rewrite <- lxor_lo by exact H. rewrite Nat.lxor_assoc, Nat.lxor_nilpotent. apply Nat.lxor_0_r. Qed.
Lemma land_hi a L : a < 2 ^ L -> Nat.land (a + 2 ^ L) (2 ^ L) <> 0.
Proof.
  intros H E. assert (Hb : Nat.testbit (Nat.land (a + 2 ^ L) (2 ^ L)) L = true).
  { rewrite Nat.land_spec, Nat.pow2_bits_true, andb_true_r, Nat.testbit_eqb.
    replace (a + 2 ^ L) with (a + 1 * 2 ^ L) by lia. rewrite Nat.div_add by (apply Nat.pow_nonzero; lia).
    rewrite Nat.div_small by exact H. reflexivity. }
  rewrite E, Nat.bits_0 in Hb. discriminate.
Qed.
Definition top (L : nat) : nat := match L with 0 => 0 | S l => 2 ^ l end.
Lemma shiftr_pow L : Nat.shiftr (2 ^ L) 1 = top L.
Proof.
  rewrite Nat.shiftr_div_pow2. destruct L as [|L]; [reflexivity|]. cbn [Nat.pow top].
  rewrite Nat.mul_comm, Nat.div_mul by lia. reflexivity.
Qed.
Lemma rev_while L : forall fuel i, L <= fuel -> i + 1 < 2 ^ L ->
  exists j b, while_ (S fuel) (fun '(j, bit) => negb (Nat.land j bit =? 0))
     (fun '(j, bit) => Done (Nat.lxor j bit, Nat.shiftr bit 1)) (rev L i, top L) = Done (j, b) /\
     Nat.lxor j b = rev L (i + 1).
Proof.
  induction L as [|L IH]; intros fuel i Hf Hi; [cbn in Hi; lia|].
  cbn [top]. change (rev (S L) i) with ((i mod 2) * 2 ^ L + rev L (i / 2)).
  pose proof (rev_lt L (i / 2)) as Hr. rewrite Nat.pow_succ_r' in Hi.
  destruct (Nat.Even_or_Odd i) as [[h Hh]|[h Hh]].
  - assert (E : i mod 2 = 0) by (subst i; rewrite Nat.mul_comm; apply Nat.mod_mul; lia).
    rewrite E, Nat.mul_0_l, Nat.add_0_l. cbn [while_]. rewrite land_lo by exact Hr. cbn [Nat.eqb negb].
    eexists _, _. split; [reflexivity|]. rewrite lxor_lo by exact Hr. cbn [rev].
    replace ((i + 1) mod 2) with 1 by lia. replace ((i + 1) / 2) with (i / 2) by lia. lia.
  - replace (i mod 2) with 1 by lia. destruct fuel as [|fuel]; [lia|]. cbn [while_].
    rewrite (Nat.add_comm (1 * _)), Nat.mul_1_l. destruct (Nat.eqb_spec (Nat.land (rev L (i / 2) + 2 ^ L) (2 ^ L)) 0) as [E|E].
    { exfalso. exact (@land_hi _ _ Hr E). }
    cbn [negb bind]. rewrite lxor_hi by exact Hr. rewrite shiftr_pow.
    destruct (IH fuel (i / 2)) as (j & b & Ew & Hx); [lia|lia|].
    cbn [while_] in Ew. exists j, b. split; [exact Ew|]. rewrite Hx. cbn [rev].
    replace ((i + 1) mod 2) with 0 by lia. replace ((i + 1) / 2) with (i / 2 + 1) by lia. lia.
Qed.
Lemma rev_step_ok L i : i + 1 < 2 ^ L -> rev_step 1 (2 ^ L) (rev L i) = Done (rev L (i + 1)).
Proof.
  intros H. unfold rev_step. rewrite shiftr_pow.
  assert (HL : L < 2 ^ L) by (apply Nat.pow_gt_lin_r; lia).
  destruct (@rev_while L (S (2 ^ L)) i) as (j & b & E & Hx); [lia|exact H|].
  rewrite E. cbn [bind]. rewrite Hx. reflexivity.
Qed.

Section Perm.
Context {T : Type} {F : Float T}.
Lemma swap_ok (y : list (cx T)) i j : i < length y -> j < length y ->
  swap y i j = Done (upd (upd y i (nth j y czero)) j (nth i y czero)).
Proof.
  intros Hi Hj. unfold swap. rewrite !get_nth with (d := czero) by assumption. cbn [bind].
  rewrite set_ok by assumption. cbn [bind]. rewrite set_ok by (rewrite upd_length; assumption). reflexivity.
Qed.
Lemma rev_permute_ok L (x : list (cx T)) : length x = 2 ^ L ->
  rev_permute 1 x = Done (tab (2 ^ L) (fun k => nth (rev L k) x czero)).
Proof.
  intros HL. unfold rev_permute. rewrite HL. pose proof (pow2_pos L) as Hp.
  destruct (@for_inv (nat * list (cx T)) (fun i s => fst s = rev L (i - 1) /\ length (snd s) = 2 ^ L /\
      forall k, k < 2 ^ L -> nth k (snd s) czero = if (k <? i) || (rev L k <? i) then nth (rev L k) x czero else nth k x czero)
     (fun i '(j, x) => j <- rev_step 1 (2 ^ L) j ;; x <- (if i <? j then swap x i j else Done x) ;; Done (j, x))
     1 (2 ^ L) (0, x)) as ([j y] & E & _ & Hl & Hy); cbn [fst snd] in *.
  - lia.
  - split; [rewrite rev_0; reflexivity|]. split; [exact HL|]. intros k Hk.
    destruct (Nat.ltb_spec k 1), (Nat.ltb_spec (rev L k) 1); cbn [orb]; try reflexivity.
    + assert (k = 0) by lia. subst k. rewrite rev_0. reflexivity.
    + assert (k = 0) by lia. subst k. rewrite rev_0. reflexivity.
    + exfalso. assert (E : rev L k = 0) by lia. assert (k = rev L 0) by (rewrite <- E; symmetry; apply rev_rev; exact Hk).
      rewrite rev_0 in *. lia.
  - intros i [j y] Hi (Hj & Hl & Hy). cbn [fst snd] in *. subst j.
    rewrite rev_step_ok by lia. cbn [bind]. replace (i - 1 + 1) with i by lia.
    assert (Hri : rev L i < 2 ^ L) by apply rev_lt.
    assert (Hinv : forall k, k < 2 ^ L -> rev L k = i -> k = rev L i) by (intros k Hk <-; symmetry; apply rev_rev; exact Hk).
    destruct (Nat.ltb_spec i (rev L i)) as [Hlt|Hge].
    + rewrite swap_ok by lia. cbn [bind]. eexists; split; [reflexivity|]. cbn [fst snd].
      split; [f_equal; lia|]. split; [rewrite !upd_length; exact Hl|]. intros k Hk.
      rewrite !nth_upd by (rewrite ?upd_length; lia).
      destruct (Nat.eqb_spec k (rev L i)) as [->|Hne].
      * rewrite Hy by lia. rewrite rev_rev by lia. destruct (Nat.ltb_spec i i); [lia|].
        destruct (Nat.ltb_spec (rev L i) i); [lia|]. cbn [orb].
        destruct (Nat.ltb_spec i (S i)); [|lia]. rewrite orb_true_r. reflexivity.
      * destruct (Nat.eqb_spec k i) as [->|Hne2].
        -- rewrite Hy by lia. rewrite rev_rev by lia. destruct (Nat.ltb_spec i i); [lia|].
           destruct (Nat.ltb_spec (rev L i) i); [lia|]. cbn [orb]. destruct (Nat.ltb_spec i (S i)); [|lia]. reflexivity.
        -- rewrite Hy by exact Hk. assert (rev L k <> i) by (intros E; apply Hne; apply Hinv; assumption).
           destruct (Nat.ltb_spec k i), (Nat.ltb_spec k (S i)), (Nat.ltb_spec (rev L k) i), (Nat.ltb_spec (rev L k) (S i));
             cbn [orb]; try reflexivity; lia.
    + cbn [bind]. eexists; split; [reflexivity|]. cbn [fst snd]. split; [f_equal; lia|]. split; [exact Hl|].
      intros k Hk. rewrite Hy by exact Hk.
      destruct (Nat.eq_dec k i) as [->|Hne].
      * destruct (Nat.ltb_spec i (S i)); [|lia]. cbn [orb]. destruct (Nat.ltb_spec (rev L i) i); [rewrite orb_true_r; reflexivity|].
        assert (rev L i = i) by lia. rewrite H1. destruct (_ || _); reflexivity.
      * destruct (Nat.eq_dec (rev L k) i) as [Er|Hner].
        -- assert (k = rev L i) by (apply Hinv; assumption).
           destruct (Nat.ltb_spec k i); [|lia]. destruct (Nat.ltb_spec k (S i)); [|lia]. reflexivity.
        -- destruct (Nat.ltb_spec k i), (Nat.ltb_spec k (S i)), (Nat.ltb_spec (rev L k) i), (Nat.ltb_spec (rev L k) (S i));
             cbn [orb]; try reflexivity; lia.
  - rewrite E. cbn [bind]. f_equal. apply list_is_tab with (d := czero); [exact Hl|]. intros k Hk. rewrite Hy by exact Hk.
    destruct (Nat.ltb_spec k (2 ^ L)); [reflexivity|lia].
Qed.
End Perm.

(* ---------- butterflies over R ---------- *)
Section StackR.
Variable c : cfg.

Definition bfly (h i : nat) (f : nat -> C) (p : nat) : C :=
  if (i <=? p) && (p <? i + h) then f p +c f (p + h) *c W (2 * h) (p - i)
  else if (i + h <=? p) && (p <? i + 2 * h) then f (p - h) -c f p *c W (2 * h) (p - h - i)
  else f p.

Lemma stack_block_ok h i (x : list C) : 0 < h -> i + 2 * h <= length x ->
  let t := (- (2 * PI / INR (2 * h)))%R in
  exists y, stack_block c (2 * h) i (cos t) (sin t) x = Done y /\ length y = length x /\
    forall p, p < length x -> at_ y p = bfly h i (at_ x) p.
Proof.
  intros Hh Hi t. unfold stack_block. replace (2 * h / 2) with h by (rewrite Nat.mul_comm, Nat.div_mul; lia).
  assert (Hstep : forall j, W (2 * h) (j + 1) = mkcx (re (W (2 * h) j) * cos t + - (im (W (2 * h) j) * sin t))%R
                                                    (im (W (2 * h) j) * cos t + re (W (2 * h) j) * sin t)%R).
  { intros j. rewrite W_add by lia. assert (E : W (2 * h) 1 = cis t).
    { unfold W, t. do 2 f_equal. cbn [INR]. unfold Rdiv. ring. }
    rewrite E. apply C_eq; cbn [Cmul cis re im]; ring. }
  set (body := fun (j : nat) (s : R * R * list C) => let '(wre, wim, x) := s in
     u <- get x (i + j) ;; v <- get x (i + j + h) ;;
     let v := cmul c v (mkcx wre wim) in
     x <- set x (i + j) (cadd u v) ;;
     x <- set x (i + j + h) (csub u v) ;;
     Done (fmul_add wre (cos t) (fneg (fmul wim (sin t))), fmul_add wim (cos t) (fmul wre (sin t)), x)).
  destruct (@for_inv _ (fun j s => let '(wre, wim, y) := s in
      mkcx wre wim = W (2 * h) j /\ length y = length x /\
      forall p, p < length x -> at_ y p =
        if (i <=? p) && (p <? i + j) then at_ x p +c at_ x (p + h) *c W (2 * h) (p - i)
        else if (i + h <=? p) && (p <? i + h + j) then at_ x (p - h) -c at_ x p *c W (2 * h) (p - h - i)
        else at_ x p) body 0 h (fone, fzero, x)) as ([[wre wim] y] & E & _ & Hl & Hy).
  - lia.
  - split; [rewrite W_0; reflexivity|]. split; [reflexivity|]. intros p Hp.
    destruct (Nat.leb_spec i p), (Nat.ltb_spec p (i + 0)); cbn [andb]; try lia;
    destruct (Nat.leb_spec (i + h) p), (Nat.ltb_spec p (i + h + 0)); cbn [andb]; try lia; reflexivity.
  - intros j [[wre wim] y] Hj (Hw & Hl & Hy). unfold body.
    rewrite !get_nth with (d := C0) by lia. cbn [bind].
    rewrite set_ok by lia. cbn [bind]. rewrite set_ok by (rewrite upd_length; lia). cbn [bind].
    eexists; split; [reflexivity|]. cbn beta iota.
    assert (Er : wre = re (W (2 * h) j)) by (rewrite <- Hw; reflexivity).
    assert (Ei : wim = im (W (2 * h) j)) by (rewrite <- Hw; reflexivity).
    split.
    { replace (S j) with (j + 1) by lia. rewrite Hstep, <- Er, <- Ei. reflexivity. }
    split; [rewrite !upd_length; exact Hl|].
    intros p Hp. unfold at_ at 1. rewrite !nth_upd by (rewrite ?upd_length; lia).
    rewrite cmul_R, Hw, cadd_R, csub_R. fold (at_ y (i + j)) (at_ y (i + j + h)) (at_ y p).
    rewrite !Hy by lia.
    destruct (Nat.eqb_spec p (i + j + h)) as [->|Hn1].
    + destruct (Nat.leb_spec i (i + j + h)), (Nat.ltb_spec (i + j + h) (i + S j)); cbn [andb]; try lia;
      destruct (Nat.leb_spec (i + h) (i + j + h)), (Nat.ltb_spec (i + j + h) (i + h + S j)); cbn [andb]; try lia;
      destruct (Nat.leb_spec i (i + j)), (Nat.ltb_spec (i + j) (i + j)); cbn [andb]; try lia;
      destruct (Nat.leb_spec (i + h) (i + j)), (Nat.ltb_spec (i + j) (i + h + j)); cbn [andb]; try lia;
      destruct (Nat.ltb_spec (i + j + h) (i + j)); cbn [andb]; try lia;
      destruct (Nat.ltb_spec (i + j + h) (i + h + j)); cbn [andb]; try lia;
      replace (i + j + h - h) with (i + j) by lia; replace (i + j - i) with j by lia; reflexivity.
    + destruct (Nat.eqb_spec p (i + j)) as [->|Hn2].
      * destruct (Nat.leb_spec i (i + j)), (Nat.ltb_spec (i + j) (i + S j)); cbn [andb]; try lia;
        destruct (Nat.ltb_spec (i + j) (i + j)); cbn [andb]; try lia;
        destruct (Nat.leb_spec (i + h) (i + j)); cbn [andb]; try lia;
        destruct (Nat.leb_spec i (i + j + h)); try lia;
        destruct (Nat.ltb_spec (i + j + h) (i + j)); cbn [andb]; try lia;
        destruct (Nat.leb_spec (i + h) (i + j + h)), (Nat.ltb_spec (i + j + h) (i + h + j)); cbn [andb]; try lia;
        replace (i + j - i) with j by lia; reflexivity.
      * destruct (Nat.leb_spec i p), (Nat.ltb_spec p (i + j)), (Nat.ltb_spec p (i + S j)); cbn [andb]; try lia; try reflexivity;
        destruct (Nat.leb_spec (i + h) p), (Nat.ltb_spec p (i + h + j)), (Nat.ltb_spec p (i + h + S j)); cbn [andb]; try lia; reflexivity.
  - match goal with |- context [for_range 0 h ?b ?st] => change (for_range 0 h b st) with (for_range 0 h body st) end.
    rewrite E. cbn [bind]. exists y. split; [reflexivity|]. split; [exact Hl|]. intros p Hp. rewrite Hy by exact Hp.
    unfold bfly. replace (i + h + h) with (i + 2 * h) by lia. reflexivity.
Qed.

(* all blocks of one stage *)
Lemma stack_blocks_ok h nb (x : list C) : 0 < h -> length x = nb * (2 * h) ->
  let t := (- (2 * PI / INR (2 * h)))%R in
  exists i y, while_ (S (length x)) (fun '(i, _) => i <? length x)
           (fun '(i, x) => x <- stack_block c (2 * h) i (cos t) (sin t) x ;; Done (i + 2 * h, x)) (0, x) = Done (i, y) /\
    length y = length x /\
    forall b p, b < nb -> b * (2 * h) <= p < b * (2 * h) + 2 * h -> at_ y p = bfly h (b * (2 * h)) (at_ x) p.
Proof.
  intros Hh Hl t. set (n := length x) in *.
  destruct (@while_inv (nat * list C) (fun s => exists q, fst s = q * (2 * h) /\ q <= nb /\ length (snd s) = n /\
       forall b p, b < nb -> b * (2 * h) <= p < b * (2 * h) + 2 * h ->
         at_ (snd s) p = if b <? q then bfly h (b * (2 * h)) (at_ x) p else at_ x p)
     (fun s => n - fst s) (fun '(i, _) => i <? n)
     (fun '(i, x) => x <- stack_block c (2 * h) i (cos t) (sin t) x ;; Done (i + 2 * h, x)) (S n) (0, x))
    as ([i y] & E & (q & Hi & Hq & Hly & Hy) & Hc); cbn [fst snd] in *.
  - exists 0. split; [lia|]. split; [lia|]. split; [reflexivity|]. intros b p _ _. reflexivity.
  - lia.
  - intros [i y] (q & Hi & Hq & Hly & Hy) Hc. cbn [fst snd] in *. apply Nat.ltb_lt in Hc.
    assert (q < nb) by nia.
    destruct (@stack_block_ok h i y Hh) as (z & Ez & Hlz & Hz); [rewrite Hly; nia|]. fold t in Ez.
    rewrite Ez. cbn [bind]. eexists; split; [reflexivity|]. cbn [fst snd]. split; [|lia].
    exists (S q). split; [lia|]. split; [lia|]. split; [lia|]. intros b p Hb Hp.
    rewrite Hz by nia.
    destruct (Nat.eq_dec b q) as [->|Hne].
    + destruct (Nat.ltb_spec q (S q)); [|lia]. rewrite Hi. unfold bfly.
      assert (Hy' : forall p', q * (2 * h) <= p' < q * (2 * h) + 2 * h -> at_ y p' = at_ x p').
      { intros p' Hp'. rewrite (Hy q p') by lia. destruct (Nat.ltb_spec q q); [lia|reflexivity]. }
      destruct (Nat.leb_spec (q * (2 * h)) p), (Nat.ltb_spec p (q * (2 * h) + h)); cbn [andb]; try lia.
      * rewrite !Hy' by lia. reflexivity.
      * destruct (Nat.leb_spec (q * (2 * h) + h) p), (Nat.ltb_spec p (q * (2 * h) + 2 * h)); cbn [andb]; try lia.
        rewrite !Hy' by lia. reflexivity.
    + assert (Hout : bfly h i (at_ y) p = at_ y p).
      { unfold bfly. assert (b < q \/ q < b) as [?|?] by lia.
        - assert (p < i) by nia.
          destruct (Nat.leb_spec i p), (Nat.leb_spec (i + h) p); cbn [andb]; try lia. reflexivity.
        - assert (i + 2 * h <= p) by nia.
          destruct (Nat.ltb_spec p (i + h)), (Nat.ltb_spec p (i + 2 * h)); try lia. rewrite !andb_false_r. reflexivity. }
      rewrite Hout, (Hy b p Hb Hp). destruct (Nat.ltb_spec b q), (Nat.ltb_spec b (S q)); try lia; reflexivity.
  - apply Nat.ltb_ge in Hc. exists i, y. split; [exact E|]. split; [exact Hly|]. intros b p Hb Hp. rewrite (Hy b p Hb Hp).
    destruct (Nat.ltb_spec b q); [reflexivity|]. nia.
Qed.

Theorem fft_inplace_stack_R (x : list C) : is_pow2 (length x) = true -> fft_inplace_stack c x = Done (DFT x, ROk).
Proof.
  intros Hp. apply is_pow2_iff in Hp as HL. destruct HL as [L HL]. unfold fft_inplace_stack. rewrite Hp. cbn [negb].
  pose proof (pow2_pos L) as Hpos. destruct (Nat.eqb_spec (length x) 0) as [E0|E0]; [lia|].
  destruct (Nat.eqb_spec (length x) 1) as [E1|E1].
  { destruct x as [|a [|]]; try discriminate. unfold DFT. cbn [length tab seq map].
    change (at_ [a]) with (at_ [a]). rewrite dft_1. reflexivity. }
  rewrite (rev_permute_ok L x HL). cbn [bind]. rewrite HL. set (n := 2 ^ L) in *.
  match goal with |- context [while_ (S n) _ ?b _] => set (body := b) end.
  destruct (@while_inv (nat * list C) (fun st => exists s, fst st = 2 ^ (S s) /\ s <= L /\ length (snd st) = n /\
       forall b k, b < 2 ^ (L - s) -> k < 2 ^ s ->
         at_ (snd st) (b * 2 ^ s + k) = dft (2 ^ s) (fun j => at_ x (rev (L - s) b + 2 ^ (L - s) * j)) k)
     (fun st => n + 1 - fst st) (fun '(len, _) => len <=? n) body (S n) (2, tab n (fun k => nth (rev L k) x czero)))
    as ([len y] & E & (s & Hs & HsL & Hly & Hy) & Hc); cbn [fst snd] in *.
  - exists 0. split; [reflexivity|]. split; [lia|]. split; [apply tab_length|]. intros b k Hb Hk.
    cbn [Nat.pow] in *. assert (k = 0) by lia. subst k. rewrite dft_1. rewrite Nat.sub_0_r in *. unfold at_.
    rewrite nth_tab by (fold n in Hb; lia). rewrite Nat.mul_1_r, Nat.mul_0_r, !Nat.add_0_r. reflexivity.
  - destruct n; lia.
  - intros [len y] (s & Hs & HsL & Hly & Hy) Hc. cbn [fst snd] in *. apply Nat.leb_le in Hc.
    assert (HsL' : S s <= L). { rewrite Hs in Hc. unfold n in Hc. apply Nat.pow_le_mono_r_iff in Hc; lia. }
    set (h := 2 ^ s) in *. assert (Hh : 0 < h) by apply pow2_pos.
    assert (Elen : len = 2 * h) by (rewrite Hs; reflexivity).
    assert (En : n = 2 ^ (L - S s) * (2 * h)).
    { unfold n, h. rewrite <- Nat.pow_succ_r', <- Nat.pow_add_r. f_equal. lia. }
    destruct (@stack_blocks_ok h (2 ^ (L - S s)) y Hh) as (i & z & Ez & Hlz & Hz); [congruence|].
    set (t := (- (2 * PI / INR (2 * h)))%R) in *.
    unfold body. rewrite Elen.
    assert (Esc : fsin_cos (fdiv (fmul (fneg (flit 2)) fpi) (fofnat (2 * h))) = (sin t, cos t)).
    { cbn [fsin_cos fdiv fmul fneg flit fpi fofnat RF RFloat_of]. rewrite Q2R_2. unfold t.
      replace (- (2) * PI / INR (2 * h))%R with (- (2 * PI / INR (2 * h)))%R; [reflexivity|].
      unfold Rdiv. ring. }
    rewrite Esc. rewrite Hly in Ez. cbn beta iota zeta. rewrite Ez. cbn [bind].
    eexists; split; [reflexivity|]. cbn [fst snd]. split; [|lia].
    exists (S s). split; [cbn [Nat.pow]; fold h; lia|]. split; [lia|]. split; [congruence|].
    intros b k Hb Hk. rewrite Nat.pow_succ_r' in Hk |- *. fold h in Hk |- *.
    rewrite (Hz b (b * (2 * h) + k)) by lia. unfold bfly.
    assert (EL : L - s = S (L - S s)) by lia. set (m := L - S s) in *.
    assert (Hev : forall k, k < h -> at_ y (b * (2 * h) + k) = dft h (fun j => at_ x (rev m b + 2 ^ m * (2 * j))) k).
    { intros k' Hk'. replace (b * (2 * h) + k') with ((2 * b) * h + k') by lia.
      rewrite Hy; [|rewrite EL; cbn [Nat.pow]; lia|exact Hk']. apply dft_ext. intros j Hj. f_equal. rewrite EL. cbn [rev Nat.pow].
      replace (2 * b / 2) with b by lia. replace ((2 * b) mod 2) with 0 by lia. lia. }
    assert (Hod : forall k, k < h -> at_ y (b * (2 * h) + h + k) = dft h (fun j => at_ x (rev m b + 2 ^ m * (2 * j + 1))) k).
    { intros k' Hk'. replace (b * (2 * h) + h + k') with ((2 * b + 1) * h + k') by lia.
      rewrite Hy; [|rewrite EL; cbn [Nat.pow]; lia|exact Hk']. apply dft_ext. intros j Hj. f_equal. rewrite EL. cbn [rev Nat.pow].
      replace ((2 * b + 1) / 2) with b by lia. replace ((2 * b + 1) mod 2) with 1 by lia. lia. }
    destruct (Nat.lt_ge_cases k h) as [Hkh|Hkh].
    + destruct (Nat.leb_spec (b * (2 * h)) (b * (2 * h) + k)), (Nat.ltb_spec (b * (2 * h) + k) (b * (2 * h) + h)); cbn [andb]; try lia.
      rewrite Hev by exact Hkh. replace (b * (2 * h) + k + h) with (b * (2 * h) + h + k) by lia. rewrite Hod by exact Hkh.
      replace (b * (2 * h) + k - b * (2 * h)) with k by lia. rewrite dft_even_odd by exact Hh. cring.
    + destruct (Nat.ltb_spec (b * (2 * h) + k) (b * (2 * h) + h)); [lia|]. rewrite andb_false_r.
      destruct (Nat.leb_spec (b * (2 * h) + h) (b * (2 * h) + k)), (Nat.ltb_spec (b * (2 * h) + k) (b * (2 * h) + 2 * h)); cbn [andb]; try lia.
      replace (b * (2 * h) + k - h) with (b * (2 * h) + (k - h)) by lia. rewrite Hev by lia.
      replace (b * (2 * h) + k) with (b * (2 * h) + h + (k - h)) by lia. rewrite Hod by lia.
      replace (b * (2 * h) + (k - h) - b * (2 * h)) with (k - h) by lia.
      replace (dft (2 * h) (fun j => at_ x (rev m b + 2 ^ m * j)) k) with (dft (2 * h) (fun j => at_ x (rev m b + 2 ^ m * j)) ((k - h) + h)) by (f_equal; lia).
      rewrite dft_hi by exact Hh. cring.
  - apply Nat.leb_gt in Hc. rewrite E. cbn [bind]. do 2 f_equal.
    assert (s = L). { rewrite Hs in Hc. unfold n in Hc. apply Nat.pow_lt_mono_r_iff in Hc; lia. }
    subst s. unfold DFT. rewrite HL. apply list_is_tab with (d := C0); [exact Hly|]. intros k Hk.
    specialize (Hy 0 k). rewrite Nat.sub_diag in Hy. cbn [Nat.pow Nat.mul Nat.add] in Hy.
    fold (at_ y k). rewrite Hy by (fold n; lia). apply dft_ext. intros j Hj. f_equal. cbn [rev]. lia.
Qed.
Theorem ifft_inplace_stack_R (x : list C) : is_pow2 (length x) = true -> ifft_inplace_stack c x = Done (IDFT x, ROk).
Proof.
  intros Hp. unfold ifft_inplace_stack. rewrite Hp. cbn [negb].
  apply is_pow2_iff in Hp as HL. destruct HL as [L HL]. pose proof (pow2_pos L) as Hpos.
  destruct (Nat.eqb_spec (length x) 0) as [E0|E0]; [lia|].
  destruct (Nat.eqb_spec (length x) 1) as [E1|E1].
  { destruct x as [|a [|]]; try discriminate. unfold IDFT. cbn [length tab seq map]. unfold idft.
    cbn [csum Nat.mul INR]. rewrite W_0, Rinv_1. do 3 f_equal. creal; cbn; ring. }
  rewrite fft_inplace_stack_R by (rewrite map_length; exact Hp). cbn [bind]. do 2 f_equal.
  unfold DFT, IDFT. rewrite map_length, map_tab.
  apply tab_ext. intros j Hj. rewrite <- idft_conj.
  rewrite (@dft_ext (length x) (at_ (map cconj x)) (fun k => Cconj (at_ x k))).
  - unfold cscale, cconj. cbn [re im fdiv fone fas fmul fneg RF RFloat_of]. creal; unfold Rdiv; ring.
  - intros i Hi. unfold at_. rewrite map_as_tab with (d := C0), nth_tab by exact Hi. reflexivity.
Qed.
End StackR.

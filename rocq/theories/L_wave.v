(* Lemmas on the wavelet model. *)
From Coq Require Import ZArith ZifyBool ZifyNat Lra Reals.
From Verif Require Export M_wave L_dft.
From Verif Require Import L_stft RX.
Ltac Zify.zify_post_hook ::= Z.div_mod_to_equations.
Set Implicit Arguments.
Open Scope nat_scope.

Section LWave.
Context {T : Type} {F : Float T}.
Local Notation nthf l i := (nth i l fzero).
Local Notation l2 := (flit 2).
Definition hav (x : list T) (i : nat) : T := fdiv (fadd (nthf x (2 * i)) (nthf x (2 * i + 1))) l2.
Definition hdf (x : list T) (i : nat) : T := fdiv (fsub (nthf x (2 * i)) (nthf x (2 * i + 1))) l2.
(* two arrays filled in one loop *)
Lemma for_set2 {A} (d : A) n (fa fb : nat -> A) (body : nat -> list A * list A -> exec (list A * list A)) a b : length a = n -> length b = n ->
  (forall i a' b', i < n -> length a' = n -> length b' = n -> body i (a', b') = Done (upd a' i (fa i), upd b' i (fb i))) ->
  for_range 0 n body (a, b) = Done (tab n fa, tab n fb).
Proof.
  intros Ha Hb Hbody.
  destruct (@for_inv _ (fun k '(a', b') => length a' = n /\ length b' = n /\ forall i, i < k -> nth i a' d = fa i /\ nth i b' d = fb i) body 0 n (a, b)) as ([a' b'] & E & L1 & L2 & H).
  - lia.
  - repeat split; auto; lia.
  - intros i [a' b'] Hi (L1 & L2 & H). rewrite Hbody by lia. eexists. split; [reflexivity|]. cbn beta iota. rewrite !upd_length. repeat split; auto;
    rewrite nth_upd by lia; destruct (Nat.eqb_spec i0 i); try (subst; reflexivity); apply H; lia.
  - rewrite E. do 2 f_equal; apply list_ext with (d := d); rewrite ?tab_length; auto; intros i Hi; rewrite nth_tab by lia; apply H; lia.
Qed.
Lemma haar_split_ok x a b : length a = length x / 2 -> length b = length x / 2 ->
  haar_split x (length x / 2) (a, b) = Done (tab (length x / 2) (hav x), tab (length x / 2) (hdf x)).
Proof.
  intros Ha Hb. unfold haar_split. apply (for_set2 fzero); auto. intros i a' b' Hi H1 H2.
  rewrite !(@get_nth T x _ fzero) by lia. cbn [bind]. rewrite set_ok by lia. cbn [bind]. rewrite set_ok by lia. reflexivity.
Qed.
Lemma haar_forward_ok x : haar_forward x = Done (tab (length x / 2) (hav x), tab (length x / 2) (hdf x)).
Proof. apply haar_split_ok; apply repeat_length. Qed.
Definition hmg (a d : list T) (p : nat) : T := if Nat.even p then fadd (nthf a (p / 2)) (nthf d (p / 2)) else fsub (nthf a (p / 2)) (nthf d (p / 2)).
Lemma haar_merge_ok a d out : length a <= length d -> length out = 2 * length a -> haar_merge a d out = Done (tab (2 * length a) (hmg a d)).
Proof.
  intros Hd Ho. unfold haar_merge.
  destruct (@for_inv _ (fun k o => length o = 2 * length a /\ forall p, p < 2 * k -> nth p o fzero = hmg a d p)
    (fun i out => x <- get a i ;; y <- get d i ;; out <- set out (2 * i) (fadd x y) ;; set out (2 * i + 1) (fsub x y)) 0 (length a) out) as (o & E & L & H).
  - lia.
  - split; [exact Ho|lia].
  - intros i o Hi (L & H). rewrite (@get_nth T a i fzero), (@get_nth T d i fzero) by lia. cbn [bind]. rewrite set_ok by lia. cbn [bind]. rewrite set_ok by (rewrite upd_length; lia).
    eexists. split; [reflexivity|]. rewrite !upd_length. split; [exact L|]. intros p Hp. rewrite !nth_upd by (rewrite ?upd_length; lia).
    unfold hmg. destruct (Nat.eqb_spec p (2 * i + 1)) as [->|N1]; [|destruct (Nat.eqb_spec p (2 * i)) as [->|N2]].
    + replace ((2 * i + 1) / 2) with i by lia. replace (Nat.even (2 * i + 1)) with false; [reflexivity|]. rewrite Nat.add_1_r, Nat.even_succ, Nat.odd_mul. reflexivity.
    + replace (2 * i / 2) with i by lia. rewrite Nat.even_mul. reflexivity.
    + apply H. lia.
  - rewrite E. f_equal. apply list_ext with (d := fzero); rewrite ?tab_length; auto. intros p Hp. rewrite nth_tab by lia. apply H. lia.
Qed.
Lemma haar_inverse_ok a d : length a <= length d -> haar_inverse a d = Done (tab (2 * length a) (hmg a d)).
Proof. intros H. apply haar_merge_ok; [exact H|rewrite repeat_length; lia]. Qed.
Lemma haar_inverse_panic a d : length d < length a -> haar_inverse a d = Panic.
Proof.
  intros Hd. unfold haar_inverse, haar_merge, for_range. rewrite Nat.sub_0_r.
  assert (G : forall n i out, i <= length d -> length d < i + n -> i + n <= length a -> length out = length a * 2 ->
    for_n n i (fun i out => x <- get a i ;; y <- get d i ;; out <- set out (2 * i) (fadd x y) ;; set out (2 * i + 1) (fsub x y)) out = Panic).
  { induction n as [|n IH]; intros i out H1 H2 H3 H4; [lia|]. cbn [for_n]. rewrite (@get_nth T a i fzero) by lia. cbn [bind].
    destruct (Nat.eq_dec i (length d)).
    - rewrite get_panic by lia. reflexivity.
    - rewrite (@get_nth T d i fzero) by lia. cbn [bind]. rewrite set_ok by lia. cbn [bind]. rewrite set_ok by (rewrite upd_length; lia). cbn [bind]. apply IH; rewrite ?upd_length; lia. }
  apply G; rewrite ?repeat_length; lia.
Qed.
Lemma pad_even_length (x : list T) : length (pad_even x) = 2 * ((length x + 1) / 2).
Proof.
  unfold pad_even. destruct (Nat.even (length x)) eqn:E.
  - apply Nat.even_spec in E. destruct E as [k Hk]. lia.
  - assert (O : Nat.odd (length x) = true) by (unfold Nat.odd; rewrite E; reflexivity). apply Nat.odd_spec in O. destruct O as [k Hk].
    destruct (rev x) as [|l r] eqn:Er; [apply (f_equal (@length T)) in Er; rewrite rev_length in Er; cbn in Er; lia|]. rewrite app_length. cbn [length]. lia.
Qed.
Lemma pad_even_nth (x : list T) i d : nth i (pad_even x) d = if i <? length x then nth i x d else if i <? length (pad_even x) then nth (length x - 1) x d else d.
Proof.
  unfold pad_even. destruct (Nat.even (length x)) eqn:E.
  - destruct (Nat.ltb_spec i (length x)); [reflexivity|]. apply nth_overflow. lia.
  - destruct (rev x) as [|l r] eqn:Er.
    + destruct (Nat.ltb_spec i (length x)); [reflexivity|]. apply nth_overflow. lia.
    + assert (Ex : x = rev r ++ [l]) by (rewrite <- (rev_involutive x), Er; reflexivity).
      rewrite app_length. cbn [length]. destruct (Nat.ltb_spec i (length x)); [apply app_nth1; lia|]. rewrite app_nth2 by lia.
      destruct (Nat.ltb_spec i (length x + 1)).
      * replace (i - length x) with 0 by lia. cbn. rewrite Ex at 2. rewrite app_nth2; rewrite Ex, app_length; cbn [length]; [|lia].
        replace (length (rev r) + 1 - 1 - length (rev r)) with 0 by lia. reflexivity.
      * apply nth_overflow. cbn. lia.
Qed.
Lemma pad_even_id (x : list T) : Nat.even (length x) = true -> pad_even x = x.
Proof. unfold pad_even. intros ->. reflexivity. Qed.
Lemma fold_app (inv : list T -> list T -> exec (list T)) ds d : forall c,
  fold_inverse inv c (ds ++ [d]) = bind (fold_inverse inv c ds) (fun c => inv c d).
Proof.
  induction ds as [|e ds IH]; intros c; cbn [app fold_inverse].
  - cbn [bind]. destruct (inv c d); reflexivity.
  - destruct (inv c e); cbn [bind]; auto.
Qed.
Lemma multi_inverse_cons (inv : list T -> list T -> exec (list T)) c d ds :
  multi_inverse inv c (d :: ds) = bind (multi_inverse inv c ds) (fun c => inv c d).
Proof. unfold multi_inverse. cbn [rev]. apply fold_app. Qed.

(* reflect: total for two or more samples, the identity inside the signal *)
Lemma mirror_ok len idx : 2 <= len -> exists j, mirror len (Z.of_nat idx) = Done (Z.of_nat j) /\ j < len /\ (idx < len -> j = idx) /\
  (len <= idx < 2 * len - 1 -> j = 2 * (len - 1) - idx).
Proof.
  intros Hl. unfold mirror.
  destruct (@while_inv Z (fun i => True) (fun i => Z.to_nat (if (0 <=? i)%Z then 2 * i else 2 * (- i) + 1)) (fun i => ((i <? 0) || (Z.of_nat len <=? i))%Z)
    (fun i => Done (if i <? 0 then - i else 2 * (Z.of_nat len - 1) - i)%Z) (Z.to_nat (2 * Z.abs (Z.of_nat idx) + 3)) (Z.of_nat idx)) as (z & E & _ & Hz).
  - exact I.
  - destruct (Z.leb_spec 0 (Z.of_nat idx)); lia.
  - intros i _ Hc. eexists. split; [reflexivity|]. split; [exact I|]. cbv beta.
    destruct (Z.ltb_spec i 0); [destruct (Z.leb_spec 0 i), (Z.leb_spec 0 (- i)); lia|].
    destruct (Z.leb_spec 0 i), (Z.leb_spec 0 (2 * (Z.of_nat len - 1) - i)); lia.
  - exists (Z.to_nat z). rewrite E. assert (Hz2 : (0 <= z < Z.of_nat len)%Z) by lia. split; [f_equal; lia|]. split; [lia|]. split.
    + intros Hi. revert E. replace (Z.to_nat (2 * Z.abs (Z.of_nat idx) + 3)) with (Datatypes.S (Z.to_nat (2 * Z.abs (Z.of_nat idx) + 2))) by lia. cbn [while_].
      replace ((Z.of_nat idx <? 0) || (Z.of_nat len <=? Z.of_nat idx))%Z with false by lia. intros [= <-]. lia.
    + intros Hi. revert E. replace (Z.to_nat (2 * Z.abs (Z.of_nat idx) + 3)) with (Datatypes.S (Datatypes.S (Z.to_nat (2 * Z.abs (Z.of_nat idx) + 1)))) by lia. cbn [while_].
      replace ((Z.of_nat idx <? 0) || (Z.of_nat len <=? Z.of_nat idx))%Z with true by lia. cbn [bind]. replace (Z.of_nat idx <? 0)%Z with false by lia. cbv beta iota zeta.
      replace ((2 * (Z.of_nat len - 1) - Z.of_nat idx <? 0) || (Z.of_nat len <=? 2 * (Z.of_nat len - 1) - Z.of_nat idx))%Z with false by lia. intros E. apply (f_equal (fun e => match e with Done a => a | _ => 0%Z end)) in E. cbv beta iota in E. lia.
Qed.
Definition rfl (len idx : nat) : nat := match mirror len (Z.of_nat idx) with Done z => Z.to_nat z | _ => 0 end.
Lemma rfl_ok len idx : 2 <= len -> mirror len (Z.of_nat idx) = Done (Z.of_nat (rfl len idx)) /\ rfl len idx < len.
Proof. intros Hl. destruct (mirror_ok idx Hl) as (j & E & Hj & _). unfold rfl. rewrite E, Nat2Z.id. auto. Qed.
Lemma rfl_id len idx : 2 <= len -> idx < len -> rfl len idx = idx.
Proof. intros Hl Hi. destruct (mirror_ok idx Hl) as (j & E & Hj & H & _). unfold rfl. rewrite E, Nat2Z.id. auto. Qed.
Lemma rfl_back len idx : 2 <= len -> len <= idx < 2 * len - 1 -> rfl len idx = 2 * (len - 1) - idx.
Proof. intros Hl Hi. destruct (mirror_ok idx Hl) as (j & E & Hj & _ & H). unfold rfl. rewrite E, Nat2Z.id. auto. Qed.
Lemma mirror_val_ok x idx : 2 <= length x -> mirror_val x idx = Done (nthf x (rfl (length x) idx)).
Proof.
  intros Hl. unfold mirror_val. destruct (rfl_ok idx Hl) as [-> H]. cbn [bind]. rewrite Nat2Z.id. apply get_nth. exact H.
Qed.

(* accumulate s := s (+) f k for k = 0 .. n-1 *)
Fixpoint accum (n : nat) (f : nat -> T) (s : T) : T := match n with 0 => s | Datatypes.S m => fadd (accum m f s) (f m) end.
Definition bank_out (t : list Q) (x : list T) (i : nat) : T :=
  accum (length t) (fun k => fmul (flit (nth k t 0%Q)) (nthf x (rfl (length x) (2 * i + k)))) fzero.
Lemma bank_forward_ok h g x : length g = length h ->
  bank_forward h g x = Done (tab (length x / 2) (bank_out h x), tab (length x / 2) (bank_out g x)).
Proof.
  intros Hg. unfold bank_forward. destruct (@for_inv _ (fun i '(a, d) => a = tab i (bank_out h x) ++ repeat fzero (length x / 2 - i) /\ d = tab i (bank_out g x) ++ repeat fzero (length x / 2 - i))
    (fun i st => for_range 0 (length h) (fun k '(approx, detail) =>
      val <- mirror_val x (2 * i + k) ;;
      hk <- get h k ;; a <- get approx i ;; approx <- set approx i (fadd a (fmul (flit hk) val)) ;;
      gk <- get g k ;; d <- get detail i ;; detail <- set detail i (fadd d (fmul (flit gk) val)) ;;
      Done (approx, detail)) st) 0 (length x / 2) (repeat fzero (length x / 2), repeat fzero (length x / 2))) as ([a d] & E & Ha & Hd).
  - lia.
  - rewrite Nat.sub_0_r. split; reflexivity.
  - intros i [a d] Hi (-> & ->).
    destruct (@for_inv _ (fun k '(a, d) => length a = length x / 2 /\ length d = length x / 2 /\
        a = tab i (bank_out h x) ++ accum k (fun k => fmul (flit (nth k h 0%Q)) (nthf x (rfl (length x) (2 * i + k)))) fzero :: repeat fzero (length x / 2 - i - 1) /\
        d = tab i (bank_out g x) ++ accum k (fun k => fmul (flit (nth k g 0%Q)) (nthf x (rfl (length x) (2 * i + k)))) fzero :: repeat fzero (length x / 2 - i - 1))
      (fun k '(approx, detail) =>
      val <- mirror_val x (2 * i + k) ;;
      hk <- get h k ;; a <- get approx i ;; approx <- set approx i (fadd a (fmul (flit hk) val)) ;;
      gk <- get g k ;; d <- get detail i ;; detail <- set detail i (fadd d (fmul (flit gk) val)) ;;
      Done (approx, detail)) 0 (length h) (tab i (bank_out h x) ++ repeat fzero (length x / 2 - i), tab i (bank_out g x) ++ repeat fzero (length x / 2 - i))) as ([a' d'] & E' & L1 & L2 & Ha' & Hd').
    + lia.
    + rewrite !app_length, !tab_length, !repeat_length. cbn [accum]. replace (length x / 2 - i) with (Datatypes.S (length x / 2 - i - 1)) by lia. cbn [repeat]. repeat split; try lia;
      do 3 f_equal; lia.
    + intros k [a d] Hk (L1 & L2 & -> & ->). rewrite mirror_val_ok by lia. cbn [bind]. rewrite (@get_nth Q h k 0%Q) by lia. cbn [bind].
      assert (U : forall t (s : T), nthf (tab i (bank_out t x) ++ s :: repeat fzero (length x / 2 - i - 1)) i = s).
      { intros t s. rewrite app_nth2; rewrite tab_length; [|lia]. rewrite Nat.sub_diag. reflexivity. }
      assert (V : forall t (s s' : T), upd (tab i (bank_out t x) ++ s :: repeat fzero (length x / 2 - i - 1)) i s' = tab i (bank_out t x) ++ s' :: repeat fzero (length x / 2 - i - 1)).
      { intros t s s'. generalize (repeat fzero (length x / 2 - i - 1)) as r. intros r. pose proof (tab_length i (bank_out t x)) as HL. revert HL. generalize (tab i (bank_out t x)) as l. 
        clear. revert i. induction i as [|i IH]; intros [|b l] HL; cbn in *; try lia; [reflexivity|]. f_equal. apply IH. lia. }
      rewrite (@get_nth T _ i fzero), U by lia. cbn [bind]. rewrite set_ok, V by lia. cbn [bind]. rewrite (@get_nth Q g k 0%Q) by lia. cbn [bind].
      rewrite (@get_nth T _ i fzero), U by lia. cbn [bind]. rewrite set_ok, V by lia. cbn [bind]. eexists. split; [reflexivity|].
      clear - L1 L2. cbv beta iota. rewrite !app_length in *. cbn [length] in *. split; [exact L1|]. split; [exact L2|]. split; reflexivity.
    + rewrite E'. eexists. split; [reflexivity|]. rewrite Ha', Hd'. rewrite !tab_S. rewrite <- !app_assoc. cbn [app].
      replace (length x / 2 - Datatypes.S i) with (length x / 2 - i - 1) by lia. split; [reflexivity|]. rewrite <- Hg. reflexivity.
  - rewrite E, Ha, Hd. rewrite Nat.sub_diag. cbn [repeat]. rewrite !app_nil_r. reflexivity.
Qed.
(* bank_inverse never panics when the detail list is long enough *)
Lemma bank_inverse_total g h a d : length h = length g -> length a <= length d ->
  exists out, bank_inverse g h a d = Done out /\ length out = length a * 2.
Proof.
  intros Hh Hd. unfold bank_inverse.
  match goal with |- context [for_range 0 (length a) ?b ?s] => destruct (@for_inv _ (fun i o => length o = length a * 2) b 0 (length a) s) as (o & E & L) end.
  - lia.
  - apply repeat_length.
  - intros i o Hi L.
    match goal with |- context [for_range 0 (length g) ?b ?s] => destruct (@for_inv _ (fun k o => length o = length a * 2) b 0 (length g) s) as (o' & E' & L') end.
    + lia.
    + exact L.
    + intros k o' Hk L'. destruct (@rfl_ok (length a * 2) (2 * i + k)) as [-> Hr]; [lia|]. cbn [bind]. rewrite (@get_nth Q g k 0%Q), (@get_nth T a i fzero), (@get_nth Q h k 0%Q), (@get_nth T d i fzero) by lia. cbn [bind].
      rewrite Nat2Z.id, (@get_nth T o' _ fzero) by lia. cbn [bind]. rewrite set_ok by lia. eexists. split; [reflexivity|]. rewrite upd_length. exact L'.
    + rewrite E'. eauto.
  - rewrite E. eauto.
Qed.
End LWave.

(* ---------------- exact arithmetic ---------------- *)
Local Open Scope R_scope.
Lemma accum_R n f s : accum (F := RF) n f s = s + rsum n f.
Proof. induction n as [|n IH]; cbn [accum rsum]; [ring|]. rewrite IH. cbn [fadd RF RFloat_of]. ring. Qed.
Definition lits (t : list Q) : list R := map Q2R t.
Lemma nth_lits t k : nth k (lits t) 0 = Q2R (nth k t 0%Q).
Proof. unfold lits. rewrite <- (map_nth Q2R). f_equal. unfold Q2R. cbn. ring. Qed.
Lemma bank_inverse_R g h a d p : length h = length g -> (length a <= length d)%nat -> (p < length a * 2)%nat ->
  exists out, bank_inverse (F := RF) g h a d = Done out /\ length out = (length a * 2)%nat /\
    nth p out 0 = rsum (length a) (fun i => rsum (length g) (fun k =>
      if (rfl (length a * 2) (2 * i + k) =? p)%nat then nth k (lits g) 0 * nth i a 0 + nth k (lits h) 0 * nth i d 0 else 0)).
Proof.
  intros Hh Hd Hp. unfold bank_inverse. set (c := fun i k => if (rfl (length a * 2) (2 * i + k) =? p)%nat then nth k (lits g) 0 * nth i a 0 + nth k (lits h) 0 * nth i d 0 else 0).
  match goal with |- context [for_range 0 (length a) ?b ?s] =>
    destruct (@for_inv _ (fun i o => length o = (length a * 2)%nat /\ nth p o 0 = rsum i (fun i => rsum (length g) (c i))) b 0 (length a) s) as (o & E & L & H) end.
  - lia.
  - split; [apply repeat_length|]. cbn [rsum]. cbn [fzero RF RFloat_of]. apply nth_repeat.
  - intros i o Hi (L & H).
    match goal with |- context [for_range 0 (length g) ?b ?s] =>
      destruct (@for_inv _ (fun k o => length o = (length a * 2)%nat /\ nth p o 0 = rsum i (fun i => rsum (length g) (c i)) + rsum k (c i)) b 0 (length g) s) as (o' & E' & L' & H') end.
    + lia.
    + split; [exact L|]. cbn [rsum]. rewrite H. ring.
    + intros k o' Hk (L' & H'). destruct (@rfl_ok (length a * 2) (2 * i + k)) as [-> Hr]; [lia|]. cbn [bind].
      rewrite (@get_nth Q g k 0%Q), (@get_nth R a i 0), (@get_nth Q h k 0%Q), (@get_nth R d i 0) by lia. cbn [bind].
      rewrite Nat2Z.id, (@get_nth R o' _ 0) by lia. cbn [bind]. rewrite set_ok by lia. eexists. split; [reflexivity|]. rewrite upd_length. split; [exact L'|].
      cbn [rsum]. rewrite nth_upd by lia. unfold c at 3. rewrite (Nat.eqb_sym p). destruct (Nat.eqb_spec (rfl (length a * 2) (2 * i + k)) p) as [<-|_].
      * rewrite H'. cbn [fadd fmul flit RF RFloat_of]. rewrite !nth_lits. ring.
      * rewrite H'. ring.
    + rewrite E'. eexists. split; [reflexivity|]. split; [exact L'|]. cbn [rsum]. exact H'.
  - exists o. rewrite E. auto.
Qed.
(* tap of a filter at distance p - 2i *)
Definition tap (t : list R) (p i : nat) : R := if (2 * i <=? p)%nat then nth (p - 2 * i) t 0 else 0.
Lemma rsum_pick n k (v : R) : rsum n (fun j => if (j =? k)%nat then v else 0) = if (k <? n)%nat then v else 0.
Proof.
  induction n as [|n IH]; cbn [rsum]; [reflexivity|]. rewrite IH. destruct (Nat.eqb_spec n k), (Nat.ltb_spec k n), (Nat.ltb_spec k (Datatypes.S n)); try lia; ring.
Qed.
Lemma rsum_pick_f n k (f : nat -> R) : rsum n (fun j => if (j =? k)%nat then f j else 0) = if (k <? n)%nat then f k else 0.
Proof. rewrite <- (rsum_pick n k (f k)). apply rsum_ext. intros j _. destruct (Nat.eqb_spec j k); subst; reflexivity. Qed.
Lemma rsum_swap n m (f : nat -> nat -> R) : rsum n (fun i => rsum m (f i)) = rsum m (fun j => rsum n (fun i => f i j)).
Proof.
  induction n as [|n IH]; cbn [rsum]; [symmetry; apply rsum_0; reflexivity|]. rewrite IH. rewrite <- rsum_add. apply rsum_ext. intros j _. ring.
Qed.
Lemma rsum_zero n f : (forall i, (i < n)%nat -> f i = 0) -> rsum n f = 0.
Proof. apply rsum_0. Qed.
(* analysis away from the right edge *)
Lemma bank_out_R t x i : (2 * i + length t <= length x)%nat -> (2 <= length x)%nat ->
  bank_out (F := RF) t x i = rsum (length x) (fun u => tap (lits t) u i * nth u x 0).
Proof.
  intros Hi Hx. unfold bank_out. rewrite accum_R. cbn [fzero fmul flit RF RFloat_of]. rewrite Rplus_0_l.
  rewrite (@rsum_ext _ _ (fun k => rsum (length x) (fun u => if (u =? 2 * i + k)%nat then tap (lits t) u i * nth u x 0 else 0))).
  - rewrite rsum_swap. apply rsum_ext. intros u Hu. unfold tap. destruct (Nat.leb_spec (2 * i) u).
    + rewrite (@rsum_ext _ _ (fun k => if (k =? u - 2 * i)%nat then nth (u - 2 * i) (lits t) 0 * nth u x 0 else 0)).
      2:{ intros k _. destruct (Nat.eqb_spec u (2 * i + k)), (Nat.eqb_spec k (u - 2 * i)); try lia; reflexivity. }
      rewrite rsum_pick. destruct (Nat.ltb_spec (u - 2 * i) (length t)); [reflexivity|]. rewrite nth_overflow; [ring|]. unfold lits. rewrite map_length. lia.
    + rewrite rsum_zero; [ring|]. intros k _. destruct (Nat.eqb_spec u (2 * i + k)); [lia|reflexivity].
  - intros k Hk. rewrite (rsum_pick_f (length x) (2 * i + k)%nat (fun u => tap (lits t) u i * nth u x 0)). destruct (Nat.ltb_spec (2 * i + k) (length x)); [|lia].
    rewrite rfl_id by lia. unfold tap. destruct (Nat.leb_spec (2 * i) (2 * i + k)); [|lia]. replace (2 * i + k - 2 * i)%nat with k by lia. rewrite nth_lits. reflexivity.
Qed.
(* synthesis after analysis, at an interior sample *)
Lemma bank_round h g gs hs x p L : length h = L -> length g = L -> length gs = L -> length hs = L -> (2 <= L <= length x)%nat ->
  Nat.even (length x) = true -> (p + L <= length x)%nat ->
  exists a d out, bank_forward (F := RF) h g x = Done (a, d) /\ bank_inverse (F := RF) gs hs a d = Done out /\ length out = length x /\
    nth p out 0 = rsum (length x) (fun u => nth u x 0 * rsum (length x / 2) (fun i => tap (lits gs) p i * tap (lits h) u i + tap (lits hs) p i * tap (lits g) u i)).
Proof.
  intros H1 H2 H3 H4 HL He Hp. rewrite bank_forward_ok by lia. set (a := tab _ (bank_out h x)). set (d := tab _ (bank_out g x)).
  assert (La : length a = (length x / 2)%nat) by apply tab_length. assert (Ld : length d = (length x / 2)%nat) by apply tab_length.
  assert (Hx : (length x / 2 * 2 = length x)%nat) by (apply Nat.even_spec in He; destruct He as [q Hq]; lia).
  destruct (@bank_inverse_R gs hs a d p) as (out & E & Lo & Hn); [lia|lia|lia|]. exists a, d, out. split; [reflexivity|]. split; [exact E|]. split; [lia|].
  rewrite Hn, La, Hx.
  rewrite (@rsum_ext _ (fun u => nth u x 0 * _) (fun u => rsum (length x / 2) (fun i => nth u x 0 * (tap (lits gs) p i * tap (lits h) u i + tap (lits hs) p i * tap (lits g) u i)))).
  2:{ intros u _. rewrite rsum_scal. reflexivity. }
  rewrite (rsum_swap (length x) (length x / 2)). apply rsum_ext. intros i Hi.
  rewrite (@rsum_ext _ _ (fun k => if (k =? p - 2 * i)%nat then tap (lits gs) p i * nth i a 0 + tap (lits hs) p i * nth i d 0 else 0)).
  2:{ intros k Hk. destruct (Nat.lt_ge_cases (2 * i + k) (length x)) as [Hlt|Hge].
      - rewrite rfl_id by lia. unfold tap. destruct (Nat.eqb_spec (2 * i + k) p) as [<-|Hne].
        + destruct (Nat.leb_spec (2 * i) (2 * i + k)); [|lia]. replace (2 * i + k - 2 * i)%nat with k by lia. rewrite Nat.eqb_refl. reflexivity.
        + destruct (Nat.leb_spec (2 * i) p), (Nat.eqb_spec k (p - 2 * i)); try lia; ring.
      - rewrite rfl_back by lia. destruct (Nat.eqb_spec (2 * (length x - 1) - (2 * i + k)) p); [lia|]. destruct (Nat.eqb_spec k (p - 2 * i)); [lia|reflexivity]. }
  rewrite rsum_pick, H3.
  assert (Z : forall t, length t = L -> (2 * i <= p)%nat -> (p - 2 * i < L)%nat \/ tap (lits t) p i = 0).
  { intros t Ht Hle. destruct (Nat.lt_ge_cases (p - 2 * i) L); [auto|right]. unfold tap. destruct (Nat.leb_spec (2 * i) p); [|lia].
    apply nth_overflow. unfold lits. rewrite map_length. lia. }
  assert (Z2 : forall t, (p < 2 * i)%nat -> tap (lits t) p i = 0).
  { intros t Hlt. unfold tap. destruct (Nat.leb_spec (2 * i) p); [lia|reflexivity]. }
  assert (D : ((2 * i <= p)%nat /\ (p - 2 * i < L)%nat) \/ (tap (lits gs) p i = 0 /\ tap (lits hs) p i = 0)).
  { destruct (Nat.le_gt_cases (2 * i) p) as [Hle|Hgt]; [|right; auto]. destruct (Z gs H3 Hle), (Z hs H4 Hle); auto. }
  destruct D as [[Hle Hlt]|[Z3 Z4]].
  - destruct (Nat.ltb_spec (p - 2 * i) L); [|lia]. unfold a, d. rewrite !nth_tab by lia. rewrite !bank_out_R by lia. rewrite <- !rsum_scal, <- rsum_add. apply rsum_ext. intros u Hu. ring.
  - rewrite Z3, Z4. rewrite rsum_zero; [destruct (_ <? _)%nat; ring|]. intros u _. ring.
Qed.
Lemma rsum_window n m s (f : nat -> R) : (s < n)%nat -> (m <= s + 1)%nat -> (forall i, (i < n)%nat -> (i + m <= s \/ s < i)%nat -> f i = 0) ->
  rsum n f = rsum m (fun j => f (s - j)%nat).
Proof.
  intros Hs Hm Hf. rewrite (@rsum_ext m _ (fun j => rsum n (fun i => if (i =? s - j)%nat then f i else 0))).
  2:{ intros j Hj. rewrite rsum_pick_f. destruct (Nat.ltb_spec (s - j) n); [reflexivity|lia]. }
  rewrite rsum_swap. apply rsum_ext. intros i Hi. destruct (Nat.le_gt_cases i s) as [H1|H1].
  - rewrite (@rsum_ext m _ (fun j => if (j =? s - i)%nat then f i else 0)).
    2:{ intros j Hj. destruct (Nat.eqb_spec i (s - j)), (Nat.eqb_spec j (s - i)); try lia; reflexivity. }
    rewrite rsum_pick. destruct (Nat.ltb_spec (s - i) m); [reflexivity|]. apply Hf; lia.
  - rewrite rsum_zero; [apply Hf; lia|]. intros j Hj. destruct (Nat.eqb_spec i (s - j)); [lia|reflexivity].
Qed.
(* how far synthesis taps (gs, hs) are from undoing analysis taps (h, g): entry (a, b)
   weighs the sample b - L places from a *)
Definition tap_sum (h g gs hs : list R) (a b : nat) : R :=
  rsum (length h / 2) (fun j => nth (a + 2 * j) gs 0 * nth (b + 2 * j) (repeat 0 (length h) ++ h) 0
                              + nth (a + 2 * j) hs 0 * nth (b + 2 * j) (repeat 0 (length h) ++ g) 0).
Definition near_inverse (eps : R) (h g gs hs : list R) : Prop :=
  forall a b, (a < 2)%nat -> Rabs (tap_sum h g gs hs a b - (if (b =? a + length h)%nat then 1 else 0)) <= eps.
Lemma nth_shift (L m : nat) (t : list R) : nth m (repeat 0 L ++ t) 0 = if (L <=? m)%nat then nth (m - L) t 0 else 0.
Proof.
  destruct (Nat.leb_spec L m).
  - rewrite app_nth2; rewrite repeat_length; [reflexivity|lia].
  - rewrite app_nth1 by (rewrite repeat_length; lia). apply nth_repeat.
Qed.
Lemma tap_sum_ok h g gs hs L n p u : length h = L -> length g = L -> length gs = L -> length hs = L -> Nat.even L = true ->
  (L <= p + 2)%nat -> (p + L <= 2 * n)%nat -> (0 < L)%nat ->
  rsum n (fun i => tap gs p i * tap h u i + tap hs p i * tap g u i) =
    if (p <=? u + p mod 2 + L)%nat then tap_sum h g gs hs (p mod 2) (u + p mod 2 + L - p) else 0.
Proof.
  intros H1 H2 H3 H4 He Hp Hn HL. apply Nat.even_spec in He. destruct He as [q Hq].
  rewrite (@rsum_window n (L / 2) (p / 2)); [|lia|lia|].
  2:{ intros i Hi Hc. unfold tap. destruct (Nat.leb_spec (2 * i) p); [|ring]. rewrite (nth_overflow gs), (nth_overflow hs) by lia. ring. }
  unfold tap_sum. rewrite H1.
  assert (E : forall j, (j < L / 2)%nat -> tap gs p (p / 2 - j) = nth (p mod 2 + 2 * j) gs 0 /\ tap hs p (p / 2 - j) = nth (p mod 2 + 2 * j) hs 0).
  { intros j Hj. unfold tap. destruct (Nat.leb_spec (2 * (p / 2 - j)) p); [|lia]. replace (p - 2 * (p / 2 - j))%nat with (p mod 2 + 2 * j)%nat by lia. auto. }
  assert (E2 : forall t j, (j < L / 2)%nat -> tap t u (p / 2 - j) = if (p <=? u + p mod 2 + L)%nat then nth (u + p mod 2 + L - p + 2 * j) (repeat 0 L ++ t) 0 else 0).
  { intros t j Hj. rewrite nth_shift. unfold tap.
    destruct (Nat.leb_spec p (u + p mod 2 + L)), (Nat.leb_spec (2 * (p / 2 - j)) u), (Nat.leb_spec L (u + p mod 2 + L - p + 2 * j)); try lia; try reflexivity. f_equal. lia. }
  destruct (Nat.leb_spec p (u + p mod 2 + L)).
  - apply rsum_ext. intros j Hj. destruct (E j Hj) as [-> ->]. rewrite !E2 by exact Hj. reflexivity.
  - apply rsum_zero. intros j Hj. rewrite !E2 by exact Hj. ring.
Qed.
Lemma tap_sum_far h g gs hs L a b : length h = L -> length g = L -> (2 * L <= b)%nat -> tap_sum h g gs hs a b = 0.
Proof.
  intros H1 H2 Hb. unfold tap_sum. rewrite H1. apply rsum_zero. intros j Hj. rewrite !(nth_overflow (repeat 0 L ++ _)) by (rewrite app_length, repeat_length; lia). ring.
Qed.
Lemma Rabs_rsum n f : Rabs (rsum n f) <= rsum n (fun i => Rabs (f i)).
Proof. induction n as [|n IH]; cbn [rsum]; [rewrite Rabs_R0; lra|]. eapply Rle_trans; [apply Rabs_triang|]. lra. Qed.
Lemma rsum_le n f g : (forall i, (i < n)%nat -> f i <= g i) -> rsum n f <= rsum n g.
Proof. induction n as [|n IH]; cbn [rsum]; intros H; [lra|]. specialize (IH (fun i Hi => H i (Nat.lt_lt_succ_r _ _ Hi))). specialize (H n (Nat.lt_succ_diag_r n)). lra. Qed.
Lemma bank_round_near h g gs hs x p L eps : length h = L -> length g = L -> length gs = L -> length hs = L -> (2 <= L <= length x)%nat ->
  Nat.even L = true -> Nat.even (length x) = true -> (L <= p + 2)%nat -> (p + L <= length x)%nat -> 0 <= eps ->
  near_inverse eps (lits h) (lits g) (lits gs) (lits hs) ->
  exists a d out, bank_forward (F := RF) h g x = Done (a, d) /\ bank_inverse (F := RF) gs hs a d = Done out /\ length out = length x /\
    Rabs (nth p out 0 - nth p x 0) <= eps * rsum (length x) (fun u => if (u <? p + L)%nat && (p <? u + L)%nat then Rabs (nth u x 0) else 0).
Proof.
  intros H1 H2 H3 H4 HL HeL He Hp Hp2 Heps Hn. destruct (@bank_round h g gs hs x p L) as (a & d & out & E1 & E2 & E3 & E4); try assumption.
  exists a, d, out. split; [exact E1|]. split; [exact E2|]. split; [exact E3|]. rewrite E4.
  assert (Lt : forall t, length (lits t) = length t) by (intros; apply map_length).
  assert (Hx : (length x / 2 * 2 = length x)%nat) by (apply Nat.even_spec in He; destruct He as [q Hq]; lia).
  replace (nth p x 0) with (rsum (length x) (fun u => if (u =? p)%nat then nth p x 0 else 0)).
  2:{ rewrite rsum_pick. destruct (Nat.ltb_spec p (length x)); [reflexivity|lia]. }
  rewrite <- rsum_scal. unfold Rminus. rewrite <- (Rmult_1_l (- _)), <- Ropp_mult_distr_r, Ropp_mult_distr_l, <- rsum_scal, <- rsum_add.
  eapply Rle_trans; [apply Rabs_rsum|]. apply rsum_le. intros u Hu.
  rewrite (@tap_sum_ok (lits h) (lits g) (lits gs) (lits hs) L) by (rewrite ?Lt; try assumption; lia).
  destruct (Nat.leb_spec p (u + p mod 2 + L)) as [Hle|Hgt].
  - specialize (Hn (p mod 2)%nat (u + p mod 2 + L - p)%nat ltac:(lia)). rewrite Lt, H1 in Hn.
    destruct (Nat.eqb_spec (u + p mod 2 + L - p) (p mod 2 + L)) as [Hu1|Hu1].
    + assert (u = p) by lia. subst u. rewrite Nat.eqb_refl. destruct (Nat.ltb_spec p (p + L)); [|lia]. cbn [andb].
      replace (nth p x 0 * _ + _) with (nth p x 0 * (tap_sum (lits h) (lits g) (lits gs) (lits hs) (p mod 2) (p + p mod 2 + L - p) - 1)) by ring.
      rewrite Rabs_mult, Rmult_comm. apply Rmult_le_compat_r; [apply Rabs_pos|exact Hn].
    + destruct (Nat.eqb_spec u p); [lia|]. rewrite Rminus_0_r in Hn. replace (_ * _ + _) with (nth u x 0 * tap_sum (lits h) (lits g) (lits gs) (lits hs) (p mod 2) (u + p mod 2 + L - p)) by ring.
      destruct (Nat.ltb_spec u (p + L)), (Nat.ltb_spec p (u + L)); cbn [andb].
      * rewrite Rabs_mult, Rmult_comm. apply Rmult_le_compat_r; [apply Rabs_pos|exact Hn].
      * assert (Z : tap_sum (lits h) (lits g) (lits gs) (lits hs) (p mod 2) (u + p mod 2 + L - p) = 0); [|rewrite Z, Rmult_0_r, Rabs_R0; lra].
        apply Nat.even_spec in HeL. destruct HeL as [q Hq]. unfold tap_sum. rewrite Lt, H1. apply rsum_zero. intros j Hj.
        assert (Hb : (u + p mod 2 + L - p + 2 * j < L \/ u + p mod 2 + L - p = 1 /\ p mod 2 = 1)%nat) by lia.
        destruct Hb as [Hb|[Hb1 Hb2]].
        -- rewrite !nth_shift. destruct (Nat.leb_spec L (u + p mod 2 + L - p + 2 * j)); [lia|]. ring.
        -- rewrite Hb1, !nth_shift. destruct (Nat.leb_spec L (1 + 2 * j)); [lia|]. ring.
      * rewrite (@tap_sum_far _ _ _ _ L) by (rewrite ?Lt; try assumption; lia). rewrite Rmult_0_r, Rabs_R0. lra.
      * lia.
  - destruct (Nat.eqb_spec u p); [lia|]. replace (_ + _) with 0 by ring. rewrite Rabs_R0. destruct (_ && _); [|lra].
    apply Rmult_le_pos; [exact Heps|apply Rabs_pos].
Qed.

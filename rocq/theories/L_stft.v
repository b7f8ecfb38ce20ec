(* Lemmas on the STFT model. *)
From Coq Require Import ZArith ZifyBool ZifyNat Permutation.
From Verif Require Export M_stft L_prov.
Ltac Zify.zify_post_hook ::= Z.div_mod_to_equations.
Set Implicit Arguments.
Open Scope nat_scope.

(* two-array loops: for i in 0..n { if ok i { a[f i] = g ..; b[f i] = h .. } } with f i = s + i *)
Section Pair.
Context {A : Type}.
Variable d : A.
Lemma for_pair n s (ga gb : nat -> A -> A) (body : nat -> list A * list A -> exec (list A * list A)) a b :
  length a = length b ->
  (forall i a' b', i < n -> length a' = length a -> length b' = length a -> s + i < length a ->
     body i (a', b') = Done (upd a' (s + i) (ga i (nth (s + i) a' d)), upd b' (s + i) (gb i (nth (s + i) b' d)))) ->
  (forall i a' b', i < n -> length a' = length a -> length b' = length a -> length a <= s + i -> body i (a', b') = Done (a', b')) ->
  for_range 0 n body (a, b) =
    Done (tab (length a) (fun p => if (s <=? p) && (p <? s + n) then ga (p - s) (nth p a d) else nth p a d),
          tab (length b) (fun p => if (s <=? p) && (p <? s + n) then gb (p - s) (nth p b d) else nth p b d)).
Proof.
  intros Hl H1 H2.
  destruct (@for_inv _ (fun k st => st = (tab (length a) (fun p => if (s <=? p) && (p <? s + k) then ga (p - s) (nth p a d) else nth p a d),
          tab (length b) (fun p => if (s <=? p) && (p <? s + k) then gb (p - s) (nth p b d) else nth p b d))) body 0 n (a, b)) as (st & E & Hst).
  - lia.
  - f_equal; rewrite (list_tab _ d) at 1; apply tab_ext; intros p Hp; destruct (Nat.leb_spec s p), (Nat.ltb_spec p (s + 0)); cbn [andb]; try reflexivity; lia.
  - intros k st Hk ->. destruct (Nat.lt_ge_cases (s + k) (length a)) as [Hi|Hi].
    + rewrite H1; [|lia|apply tab_length|rewrite tab_length; lia|lia]. eexists. split; [reflexivity|].
      f_equal; apply list_ext with (d := d); rewrite ?upd_length, ?tab_length; try reflexivity; intros p Hp.
      * rewrite nth_upd by (rewrite tab_length; lia). rewrite !nth_tab by lia.
        destruct (Nat.eqb_spec p (s + k)) as [->|Hne].
        -- destruct (Nat.leb_spec s (s + k)), (Nat.ltb_spec (s + k) (s + k)), (Nat.ltb_spec (s + k) (s + S k)); try lia. cbn [andb].
           replace (s + k - s) with k by lia. reflexivity.
        -- destruct (Nat.leb_spec s p), (Nat.ltb_spec p (s + k)), (Nat.ltb_spec p (s + S k)); cbn [andb]; try lia; reflexivity.
      * rewrite nth_upd by (rewrite tab_length; lia). rewrite !nth_tab by lia.
        destruct (Nat.eqb_spec p (s + k)) as [->|Hne].
        -- destruct (Nat.leb_spec s (s + k)), (Nat.ltb_spec (s + k) (s + k)), (Nat.ltb_spec (s + k) (s + S k)); try lia. cbn [andb].
           replace (s + k - s) with k by lia. reflexivity.
        -- destruct (Nat.leb_spec s p), (Nat.ltb_spec p (s + k)), (Nat.ltb_spec p (s + S k)); cbn [andb]; try lia; reflexivity.
    + rewrite H2; [|lia|apply tab_length|rewrite tab_length; lia|lia]. eexists. split; [reflexivity|].
      f_equal; apply tab_ext; intros p Hp; destruct (Nat.leb_spec s p), (Nat.ltb_spec p (s + k)), (Nat.ltb_spec p (s + S k)); cbn [andb]; try lia; reflexivity.
  - rewrite E, Hst. reflexivity.
Qed.
(* for i in a..b { v[i] = g i v[i] } *)
Lemma for_map lo hi (g : nat -> A -> A) (body : nat -> list A -> exec (list A)) a : lo <= hi ->
  (forall i a', lo <= i < hi -> length a' = length a -> nth i a' d = nth i a d -> body i a' = Done (upd a' i (g i (nth i a d)))) -> hi <= length a ->
  for_range lo hi body a = Done (tab (length a) (fun p => if (lo <=? p) && (p <? hi) then g p (nth p a d) else nth p a d)).
Proof.
  intros Hle H Hh.
  destruct (@for_inv _ (fun k st => st = tab (length a) (fun p => if (lo <=? p) && (p <? k) then g p (nth p a d) else nth p a d)) body lo hi a) as (st & E & Hst).
  - exact Hle.
  - rewrite (list_tab _ d) at 1. apply tab_ext. intros p Hp. destruct (Nat.leb_spec lo p), (Nat.ltb_spec p lo); cbn [andb]; try reflexivity; lia.
  - intros k st Hk ->. rewrite H; [|lia|apply tab_length|].
    + eexists. split; [reflexivity|]. apply list_ext with (d := d); rewrite ?upd_length, ?tab_length; [reflexivity|]. intros p Hp.
      rewrite nth_upd by (rewrite tab_length; lia). rewrite !nth_tab by lia.
      destruct (Nat.eqb_spec p k) as [->|Hne].
      * destruct (Nat.leb_spec lo k), (Nat.ltb_spec k (S k)); try lia. reflexivity.
      * destruct (Nat.leb_spec lo p), (Nat.ltb_spec p k), (Nat.ltb_spec p (S k)); cbn [andb]; try lia; reflexivity.
    + rewrite nth_tab by lia. destruct (Nat.leb_spec lo k), (Nat.ltb_spec k k); cbn [andb]; try lia; reflexivity.
  - rewrite E, Hst. reflexivity.
Qed.
End Pair.

Section LStft.
Context {T : Type} {F : Float T} {X : FloatX T}.
Local Notation cx := (cx T).
Local Notation nthf l i := (nth i l fzero).
Context {S : Type}.
Variable op : S -> list cx -> exec (S * list cx * rres).

(* the windowed frame starting at a sample *)
Definition wframe (signal window : list T) (start : nat) : list cx :=
  tab (length window) (fun i => mkcx (if start + i <? length signal then fmul (nthf signal (start + i)) (nthf window i) else fzero) fzero).
Lemma load_ok signal window start fr : length window <= length fr ->
  load signal window start fr = Done (wframe signal window start ++ skipn (length window) fr).
Proof.
  intros H. unfold load, wframe.
  assert (E : forall n, n <= length window -> for_range 0 n (fun i fr => x <- wsample signal window start i;; set fr i (mkcx x fzero)) fr =
    for_range 0 n (fun i fr => v <- (x <- wsample signal window start i;; Done (mkcx x fzero)) ;; set fr i v) fr).
  { intros n Hn. unfold for_range. apply for_n_ext. intros i s _. destruct (wsample _ _ _ _); reflexivity. }
  rewrite E by lia. apply for_set; [exact H|]. intros i Hi. unfold wsample. destruct (Nat.ltb_spec (start + i) (length signal)).
  - rewrite !get_nth with (d := fzero) by lia. reflexivity.
  - reflexivity.
Qed.
Lemma load_exact signal window start fr : length fr = length window -> load signal window start fr = Done (wframe signal window start).
Proof. intros H. rewrite load_ok by lia. rewrite skipn_all2 by lia. rewrite app_nil_r. reflexivity. Qed.
Lemma wframe_length signal window start : length (wframe signal window start) = length window.
Proof. apply tab_length. Qed.
Lemma resize_length {A} (l : list A) n v : length (resize l n v) = n.
Proof. unfold resize. rewrite app_length, firstn_length, repeat_length. lia. Qed.

Lemma stft_frames_ok signal window hop : forall frames idx s s' ys,
  runs op s (tab (length frames) (fun k => wframe signal window ((idx + k) * hop))) s' ys ->
  stft_frames op signal window hop idx s frames = Done (s', ys, ROk).
Proof.
  induction frames as [|f rest IH]; intros idx s s' ys H; cbn [stft_frames length] in *.
  - inversion H; subst. reflexivity.
  - rewrite tab_S_l in H. apply runs_inv in H. destruct H as (s1 & y & ys' & -> & Eo & _ & H). rewrite load_exact by apply resize_length. cbn [bind].
    rewrite Nat.add_0_r in Eo. rewrite Eo. cbn [bind]. erewrite IH; [reflexivity|].
    erewrite tab_ext; [exact H|]. intros i Hi. cbn beta. f_equal. lia.
Qed.
Lemma div_ceil_ok a b : 0 < b -> div_ceil a b = Done ((a + b - 1) / b).
Proof. intros H. unfold div_ceil. destruct (Nat.eqb_spec b 0); [lia|reflexivity]. Qed.
Lemma stft_ok signal window hop frames s s' ys : 0 < hop -> (length signal + hop - 1) / hop <= length frames ->
  runs op s (tab (length frames) (fun k => wframe signal window (k * hop))) s' ys ->
  stft op s signal window hop frames = Done (s', ys, ROk).
Proof.
  intros Hh Hf H. unfold stft. destruct (Nat.eqb_spec hop 0); [lia|]. rewrite div_ceil_ok by lia. cbn [bind].
  destruct (Nat.ltb_spec (length frames) ((length signal + hop - 1) / hop)); [lia|]. apply stft_frames_ok. exact H.
Qed.

(* value at p after the first k frames have been added in order *)
Fixpoint ola (g : nat -> nat -> T) (wl hop p k : nat) (a0 : T) : T :=
  match k with
  | 0 => a0
  | Datatypes.S j => if (j * hop <=? p) && (p <? j * hop + wl) then fadd (ola g wl hop p j a0) (g j (p - j * hop)) else ola g wl hop p j a0
  end.
Definition gsig (window : list T) (ys : list (list cx)) (k j : nat) : T := fmul (re (nth j (nth k ys []) czero)) (nthf window j).
Definition gwin (window : list T) (k j : nat) : T := fmul (nthf window j) (nthf window j).

Lemma overlap_ok window start fr out scr : length fr = length window -> length out = length scr ->
  overlap window start fr (out, scr) =
    Done (tab (length out) (fun p => if (start <=? p) && (p <? start + length window) then fadd (nthf out p) (fmul (re (nth (p - start) fr czero)) (nthf window (p - start))) else nthf out p),
          tab (length scr) (fun p => if (start <=? p) && (p <? start + length window) then fadd (nthf scr p) (fmul (nthf window (p - start)) (nthf window (p - start))) else nthf scr p)).
Proof.
  intros Hf Hl. unfold overlap.
  apply for_pair with (d := fzero) (s := start) (ga := fun i v => fadd v (fmul (re (nth i fr czero)) (nthf window i)))
    (gb := fun i v => fadd v (fmul (nthf window i) (nthf window i))).
  - exact Hl.
  - intros i a b Hi Hla Hlb Ha. destruct (Nat.ltb_spec (start + i) (length a)); [|lia].
    rewrite (@get_nth _ a _ fzero) by lia. cbn [bind]. rewrite (@get_nth _ fr _ czero) by lia. cbn [bind].
    rewrite (@get_nth _ window _ fzero) by lia. cbn [bind]. rewrite set_ok by lia. cbn [bind].
    rewrite (@get_nth _ b _ fzero) by lia. cbn [bind]. rewrite set_ok by lia. reflexivity.
  - intros i a b Hi Hla Hlb Ha. destruct (Nat.ltb_spec (start + i) (length a)); [lia|reflexivity].
Qed.
Lemma skipn_cons {A} (l : list A) k d : k < length l -> skipn k l = nth k l d :: skipn (k + 1) l.
Proof.
  revert l. induction k as [|k IH]; intros [|a l] H; cbn [length] in *; try lia; [reflexivity|]. cbn [skipn nth plus]. apply IH. lia.
Qed.
Lemma istft_frames_ok window hop Y out0 scr0 : length out0 = length scr0 -> forall frames idx s s' ys,
  runs op s frames s' ys -> (forall f, In f frames -> length f = length window) -> ys = skipn idx Y -> 
  istft_frames op window hop idx s frames
    (tab (length out0) (fun p => ola (gsig window Y) (length window) hop p idx (nthf out0 p)),
     tab (length scr0) (fun p => ola (gwin window) (length window) hop p idx (nthf scr0 p))) =
  Done (s', ys, (tab (length out0) (fun p => ola (gsig window Y) (length window) hop p (idx + length frames) (nthf out0 p)),
     tab (length scr0) (fun p => ola (gwin window) (length window) hop p (idx + length frames) (nthf scr0 p))), ROk).
Proof.
  intros Hl. induction frames as [|f rest IH]; intros idx s s' ys H Hf Hy; cbn [istft_frames length].
  - inversion H; subst. rewrite Nat.add_0_r. reflexivity.
  - apply runs_inv in H. destruct H as (s1 & y & ys' & -> & Eo & Hly & H). assert (Hlf : length f = length window) by (apply Hf; left; reflexivity).
    rewrite Hlf, Nat.eqb_refl. cbn [negb]. rewrite Eo. cbn [bind].
    assert (Hidx : idx < length Y).
    { destruct (Nat.lt_ge_cases idx (length Y)); [assumption|]. rewrite skipn_all2 in Hy by lia. discriminate. }
    rewrite (skipn_cons Y [] Hidx) in Hy. injection Hy as Hy1 Hy2.
    rewrite overlap_ok by (rewrite ?tab_length; lia). cbn [bind]. rewrite !tab_length.
    erewrite (@tab_ext _ (length out0)), (@tab_ext _ (length scr0)).
    + erewrite (IH (idx + 1)); [| exact H | intros; apply Hf; right; assumption | exact Hy2].
      cbn [bind]. replace (idx + Datatypes.S (length rest)) with (idx + 1 + length rest) by lia. reflexivity.
    + intros p Hp. cbn beta. rewrite nth_tab by exact Hp. rewrite Nat.add_1_r. reflexivity.
    + intros p Hp. cbn beta. rewrite nth_tab by exact Hp. rewrite Nat.add_1_r. cbn [ola].
      replace (gsig window Y idx (p - idx * hop)) with (fmul (re (nth (p - idx * hop) y czero)) (nthf window (p - idx * hop))) by (unfold gsig; rewrite <- Hy1; reflexivity).
      reflexivity.
Qed.
Definition normed (v q : T) : T := if fltb eps8 q then fdiv v q else v.
Lemma normalize_ok out scr : length out = length scr -> normalize out scr = Done (tab (length out) (fun p => normed (nthf out p) (nthf scr p))).
Proof.
  intros Hl. unfold normalize. rewrite for_map with (d := fzero) (g := fun i v => normed v (nthf scr i)).
  - f_equal. apply tab_ext. intros p Hp. destruct (Nat.ltb_spec p (length out)); [reflexivity|lia].
  - lia.
  - intros i a Hi Ha Hn. rewrite (@get_nth _ scr _ fzero) by lia. cbn [bind]. unfold normed. destruct (fltb _ _).
    + rewrite (@get_nth _ a _ fzero) by lia. cbn [bind]. rewrite set_ok by lia. rewrite Hn. reflexivity.
    + rewrite <- Hn, upd_same. reflexivity.
  - lia.
Qed.
Definition istft_out (window : list T) (hop : nat) (ys : list (list cx)) (out0 : list T) : list T :=
  tab (length out0) (fun p => normed (ola (gsig window ys) (length window) hop p (length ys) (nthf out0 p))
                                     (ola (gwin window) (length window) hop p (length ys) fzero)).
Lemma istft_norm window hop frames s s' ys out scr : 0 < hop -> length scr = length out ->
  runs op s frames s' ys -> (forall f, In f frames -> length f = length window) ->
  istft op s frames window hop out scr = Done (s', ys, istft_out window hop ys out,
    tab (length out) (fun p => ola (gwin window) (length window) hop p (length frames) fzero), ROk).
Proof.
  intros Hh Hl H Hf. unfold istft. destruct (Nat.eqb_spec hop 0); [lia|]. rewrite Hl, Nat.eqb_refl. cbn [negb].
  set (z := map (fun _ : T => fzero) scr). assert (Hz : length z = length out) by (unfold z; rewrite map_length; exact Hl).
  assert (Hz0 : forall p, nthf z p = fzero).
  { intros p. unfold z. clear. revert p. induction scr as [|a l IH]; intros [|p]; cbn [map nth]; auto. }
  pose proof (@istft_frames_ok window hop ys out z ltac:(lia) frames 0 s s' ys H Hf eq_refl) as E. cbn [ola plus] in E.
  rewrite <- !list_tab in E. rewrite E. cbn [bind]. rewrite normalize_ok by (rewrite ?tab_length; lia). cbn [bind]. rewrite tab_length.
  match goal with |- Done (_, _, ?a, ?b, _) = Done (_, _, ?a', ?b', _) => assert (Ea : a = a'); [|assert (Eb : b = b'); [|rewrite Ea, Eb; reflexivity]] end.
  - unfold istft_out. apply tab_ext. intros p Hp. rewrite !nth_tab by lia. rewrite (runs_length H), Hz0. reflexivity.
  - rewrite Hz. apply tab_ext. intros p Hp. rewrite Hz0. reflexivity.
Qed.
Lemma istft_ok window hop frames s s' ys out scr : 0 < hop -> length scr = length out ->
  runs op s frames s' ys -> (forall f, In f frames -> length f = length window) ->
  exists scr', istft op s frames window hop out scr = Done (s', ys, istft_out window hop ys out, scr', ROk).
Proof. intros. eexists. apply istft_norm; assumption. Qed.

(* ---------------- streaming analysis ---------------- *)
Lemma next_frame_ok signal window hop pos s out s' y : length out = length window -> pos < length signal ->
  op s (wframe signal window pos) = Done (s', y, ROk) ->
  next_frame op signal window hop pos s out = Done (s', pos + hop, y, Ok true).
Proof.
  intros Hl Hp E. unfold next_frame. rewrite Hl, Nat.eqb_refl. cbn [negb]. destruct (Nat.leb_spec (length signal) pos); [lia|].
  rewrite load_exact by exact Hl. cbn [bind]. rewrite E. reflexivity.
Qed.
Lemma next_frame_end signal window hop pos s out : length out = length window -> length signal <= pos ->
  next_frame op signal window hop pos s out = Done (s, pos, out, Ok false).
Proof.
  intros Hl Hp. unfold next_frame. rewrite Hl, Nat.eqb_refl. cbn [negb]. destruct (Nat.leb_spec (length signal) pos); [reflexivity|lia].
Qed.

(* ---------------- streaming synthesis ---------------- *)
Lemma ola_late g wl hop p a0 k j : k <= j -> p < k * hop -> ola g wl hop p j a0 = ola g wl hop p k a0.
Proof.
  intros Hkj Hp. induction j as [|j IH]; [replace k with 0 by lia; reflexivity|].
  destruct (Nat.eq_dec k (Datatypes.S j)) as [->|]; [reflexivity|]. cbn [ola].
  destruct (Nat.leb_spec (j * hop) p); [|apply IH; lia]. exfalso. nia.
Qed.
Lemma ola_far g wl hop p a0 k : (k - 1) * hop + wl <= p -> ola g wl hop p k a0 = a0.
Proof.
  intros Hp. induction k as [|k IH]; [reflexivity|]. cbn [ola]. replace (Datatypes.S k - 1) with k in Hp by lia.
  destruct (Nat.ltb_spec p (k * hop + wl)); [lia|]. rewrite andb_false_r. apply IH. destruct k; cbn; nia.
Qed.
(* the stream after the frames with inverse transforms ys have been pushed *)
Record str_inv (wl hop : nat) (window : list T) (ys : list (list cx)) (st : istream) : Prop := {
  si_win : is_win st = wl; si_hop : is_hop st = hop; si_window : is_window st = window;
  si_time : length (is_time st) = wl;
  si_pos : is_pos st = length ys * hop; si_out : is_out st = length ys * hop; si_cnt : is_count st = length ys;
  si_len : length (is_norm st) = length (is_buf st); si_room : length ys * hop + wl <= length (is_buf st);
  si_buf : forall p, length ys * hop <= p < length (is_buf st) -> nthf (is_buf st) p = ola (gsig window ys) wl hop p (length ys) fzero;
  si_norm : forall p, length ys * hop <= p < length (is_buf st) -> nthf (is_norm st) p = ola (gwin window) wl hop p (length ys) fzero }.
Lemma str_new wl hop window : 0 < hop -> exists st, istream_new wl hop window = Ok st /\ str_inv wl hop window [] st.
Proof.
  intros Hh. unfold istream_new. destruct (Nat.eqb_spec hop 0); [lia|]. eexists. split; [reflexivity|].
  constructor; cbn [is_win is_hop is_window is_time is_pos is_out is_count is_norm is_buf length]; rewrite ?repeat_length; try reflexivity; try lia.
  - intros p Hp. cbn [ola]. rewrite nth_repeat. reflexivity.
  - intros p Hp. cbn [ola]. rewrite nth_repeat. reflexivity.
Qed.
Lemma gsig_app window ys y k j : k < length ys -> gsig window (ys ++ [y]) k j = gsig window ys k j.
Proof. intros H. unfold gsig. rewrite app_nth1 by exact H. reflexivity. Qed.
Lemma ola_ext g1 g2 wl hop p k a0 : (forall j i, j < k -> g1 j i = g2 j i) -> ola g1 wl hop p k a0 = ola g2 wl hop p k a0.
Proof.
  induction k as [|k IH]; intros H; [reflexivity|]. cbn [ola]. rewrite IH by (intros; apply H; lia). rewrite H by lia. reflexivity.
Qed.
Lemma norm_range_ok a b (buf nrm : list T) : a <= b -> b <= length buf -> length nrm = length buf ->
  norm_range a b (buf, nrm) =
    Done (tab (length buf) (fun p => if (a <=? p) && (p <? a + (b - a)) then normed (nthf buf p) (nthf nrm p) else nthf buf p),
          tab (length nrm) (fun p => if (a <=? p) && (p <? a + (b - a)) then fzero else nthf nrm p)).
Proof.
  intros Hab Hb Hl. unfold norm_range, for_range.
  destruct (@for_inv _ (fun k st => st = (tab (length buf) (fun p => if (a <=? p) && (p <? k) then normed (nthf buf p) (nthf nrm p) else nthf buf p),
          tab (length nrm) (fun p => if (a <=? p) && (p <? k) then fzero else nthf nrm p))) (fun i '(buf, nrm) =>
    q <- get nrm i ;;
    buf <- (if fltb eps8 q then o <- get buf i ;; set buf i (fdiv o q) else Done buf) ;;
    nrm <- set nrm i fzero ;;
    Done (buf, nrm)) a b (buf, nrm)) as (st & E & Hst).
  - exact Hab.
  - f_equal; rewrite (list_tab _ fzero) at 1; apply tab_ext; intros p Hp; destruct (Nat.leb_spec a p), (Nat.ltb_spec p a); cbn [andb]; try reflexivity; lia.
  - intros k st Hk ->. rewrite (@get_nth _ _ k fzero) by (rewrite tab_length; lia). cbn [bind]. rewrite nth_tab by lia.
    destruct (Nat.leb_spec a k), (Nat.ltb_spec k k); try lia. cbn [andb].
    match goal with |- exists s', bind ?e _ = _ /\ _ => assert (Eb : e = Done (tab (length buf) (fun p => if (a <=? p) && (p <? Datatypes.S k) then normed (nthf buf p) (nthf nrm p) else nthf buf p))) end.
    { unfold normed at 2. destruct (fltb eps8 (nthf nrm k)) eqn:Ef.
      - rewrite (@get_nth _ _ k fzero) by (rewrite tab_length; lia). cbn [bind]. rewrite nth_tab by lia.
        destruct (Nat.leb_spec a k), (Nat.ltb_spec k k); try lia. cbn [andb]. rewrite set_ok by (rewrite tab_length; lia). f_equal.
        apply list_ext with (d := fzero); rewrite ?upd_length, ?tab_length; [reflexivity|]. intros p Hp. rewrite nth_upd by (rewrite tab_length; lia).
        rewrite !nth_tab by lia. destruct (Nat.eqb_spec p k) as [->|Hne].
        + destruct (Nat.leb_spec a k), (Nat.ltb_spec k (Datatypes.S k)); try lia. cbn [andb]. unfold normed. rewrite Ef. reflexivity.
        + destruct (Nat.leb_spec a p), (Nat.ltb_spec p k), (Nat.ltb_spec p (Datatypes.S k)); cbn [andb]; try lia; reflexivity.
      - f_equal. apply tab_ext. intros p Hp. destruct (Nat.eq_dec p k) as [->|Hne].
        + destruct (Nat.leb_spec a k), (Nat.ltb_spec k k), (Nat.ltb_spec k (Datatypes.S k)); try lia. cbn [andb]. unfold normed. rewrite Ef. reflexivity.
        + destruct (Nat.leb_spec a p), (Nat.ltb_spec p k), (Nat.ltb_spec p (Datatypes.S k)); cbn [andb]; try lia; reflexivity. }
    rewrite Eb. cbn [bind]. rewrite set_ok by (rewrite tab_length; lia). cbn [bind]. eexists. split; [reflexivity|]. f_equal.
    apply list_ext with (d := fzero); rewrite ?upd_length, ?tab_length; [reflexivity|]. intros p Hp. rewrite nth_upd by (rewrite tab_length; lia).
    rewrite !nth_tab by lia. destruct (Nat.eqb_spec p k) as [->|Hne].
    + destruct (Nat.leb_spec a k), (Nat.ltb_spec k (Datatypes.S k)); try lia. reflexivity.
    + destruct (Nat.leb_spec a p), (Nat.ltb_spec p k), (Nat.ltb_spec p (Datatypes.S k)); cbn [andb]; try lia; reflexivity.
  - unfold for_range in E. rewrite E, Hst. f_equal. f_equal; apply tab_ext; intros p Hp; replace (a + (b - a)) with b by lia; reflexivity.
Qed.
Lemma slice_ok {A} (l : list A) a b d : a <= b -> b <= length l -> slice l a b = Done (tab (b - a) (fun i => nth (a + i) l d)).
Proof.
  intros H1 H2. unfold slice. destruct (Nat.leb_spec a b), (Nat.leb_spec b (length l)); try lia. cbn [andb]. f_equal.
  apply list_ext with (d := d); rewrite firstn_length, skipn_length, ?tab_length; [lia|]. intros i Hi.
  rewrite nth_firstn by lia. rewrite nth_tab by lia. apply nth_skipn.
Qed.
Lemma nth_resize {A} (l : list A) n v p : length l <= n -> p < n -> nth p (resize l n v) v = nth p l v.
Proof.
  intros Hl Hp. unfold resize. rewrite firstn_all2 by lia. destruct (Nat.lt_ge_cases p (length l)).
  - rewrite app_nth1 by lia. reflexivity.
  - rewrite app_nth2, nth_repeat by lia. rewrite nth_overflow by lia. reflexivity.
Qed.
Definition stream_out (window : list T) (wl hop : nat) (ys : list (list cx)) (p : nat) : T :=
  normed (ola (gsig window ys) wl hop p (length ys) fzero) (ola (gwin window) wl hop p (length ys) fzero).
Lemma push_ok wl hop window ys st fr s s' y : str_inv wl hop window ys st -> 0 < hop <= wl -> wl <= length window ->
  length fr = wl -> op s fr = Done (s', y, ROk) -> length y = wl ->
  exists st', push_frame op s st fr = Done (s', st', Ok (tab hop (fun i => stream_out window wl hop (ys ++ [y]) (length ys * hop + i)))) /\
    str_inv wl hop window (ys ++ [y]) st'.
Proof.
  intros [H1 H2 H3 H4 H5 H6 H7 H8 H9 H10 H11] Hh Hw Hf Eo Hy. destruct st as [wl_ hop_ window_ buf nrm time pos out cnt].
  cbn [is_win is_hop is_window is_time is_pos is_out is_count is_norm is_buf] in *. subst wl_ hop_ window_ cnt pos out. unfold push_frame.
  rewrite Hf, Nat.eqb_refl. cbn [negb]. rewrite H4, Nat.eqb_refl. cbn [negb]. rewrite Eo. cbn [bind].
  set (k := length ys) in *.
  match goal with |- context [for_range 0 wl ?b (buf, nrm)] =>
    rewrite (@for_pair T fzero wl (k * hop) (fun i v => fadd v (fmul (re (nth i y czero)) (nthf window i))) (fun i v => fadd v (fmul (nthf window i) (nthf window i))) b buf nrm) end.
  2:{ lia. }
  2:{ intros i a b Hi Hla Hlb Ha. rewrite (@get_nth _ window _ fzero) by lia. cbn [bind]. rewrite (@get_nth _ y _ czero) by lia. cbn [bind].
      rewrite (@get_nth _ a _ fzero) by lia. cbn [bind]. rewrite set_ok by lia. cbn [bind].
      rewrite (@get_nth _ b _ fzero) by lia. cbn [bind]. rewrite set_ok by lia. reflexivity. }
  2:{ intros i a b Hi Hla Hlb Ha. exfalso. lia. }
  cbn [bind].
  set (buf1 := tab (length buf) _). set (nrm1 := tab (length nrm) _).
  assert (L1 : length buf1 = length buf) by apply tab_length. assert (L2 : length nrm1 = length buf) by (unfold nrm1; rewrite tab_length; exact H8).
  assert (B1 : forall p, k * hop <= p < length buf -> nthf buf1 p = ola (gsig window (ys ++ [y])) wl hop p (k + 1) fzero).
  { intros p Hp. unfold buf1. rewrite nth_tab by lia. rewrite Nat.add_1_r. cbn [ola]. rewrite H10 by lia.
    rewrite (@ola_ext (gsig window (ys ++ [y])) (gsig window ys)) by (intros; apply gsig_app; assumption).
    destruct ((k * hop <=? p) && (p <? k * hop + wl)); [|reflexivity]. f_equal.
    unfold gsig. rewrite app_nth2 by (unfold k; lia). fold k. rewrite Nat.sub_diag. reflexivity. }
  assert (N1 : forall p, k * hop <= p < length buf -> nthf nrm1 p = ola (gwin window) wl hop p (k + 1) fzero).
  { intros p Hp. unfold nrm1. rewrite nth_tab by lia. rewrite Nat.add_1_r. cbn [ola]. rewrite H11 by lia. reflexivity. }
  clearbody buf1 nrm1.
  rewrite norm_range_ok by lia. cbn [bind]. replace (k * hop + hop - k * hop) with hop by lia.
  set (buf2 := tab (length buf1) _). set (nrm2 := tab (length nrm1) _).
  assert (L3 : length buf2 = length buf) by (unfold buf2; rewrite tab_length; exact L1).
  assert (L4 : length nrm2 = length buf) by (unfold nrm2; rewrite tab_length; exact L2).
  assert (B2 : forall i, i < hop -> nthf buf2 (k * hop + i) = stream_out window wl hop (ys ++ [y]) (k * hop + i)).
  { intros i Hi. unfold buf2. rewrite nth_tab by lia. destruct (Nat.leb_spec (k * hop) (k * hop + i)), (Nat.ltb_spec (k * hop + i) (k * hop + hop)); try lia.
    cbn [andb]. rewrite B1, N1 by lia. unfold stream_out. rewrite app_length. reflexivity. }
  assert (B3 : forall p, (k + 1) * hop <= p < length buf -> nthf buf2 p = ola (gsig window (ys ++ [y])) wl hop p (k + 1) fzero).
  { intros p Hp. unfold buf2. rewrite nth_tab by lia. destruct (Nat.ltb_spec p (k * hop + hop)); [lia|]. rewrite andb_false_r. apply B1. lia. }
  assert (N3 : forall p, (k + 1) * hop <= p < length buf -> nthf nrm2 p = ola (gwin window) wl hop p (k + 1) fzero).
  { intros p Hp. unfold nrm2. rewrite nth_tab by lia. destruct (Nat.ltb_spec p (k * hop + hop)); [lia|]. rewrite andb_false_r. apply N1. lia. }
  clearbody buf2 nrm2.
  match goal with |- context [if ?b then (resize _ _ _, resize _ _ _) else _] =>
    assert (G : exists buf3 nrm3, (if b then (resize buf2 (k * hop + hop + wl) fzero, resize nrm2 (k * hop + hop + wl) fzero) else (buf2, nrm2)) = (buf3, nrm3) /\
      length buf3 = Nat.max (length buf) (k * hop + hop + wl) /\ length nrm3 = length buf3 /\
      (forall i, i < hop -> nthf buf3 (k * hop + i) = nthf buf2 (k * hop + i)) /\
      (forall p, (k + 1) * hop <= p < length buf3 -> nthf buf3 p = ola (gsig window (ys ++ [y])) wl hop p (k + 1) fzero /\ nthf nrm3 p = ola (gwin window) wl hop p (k + 1) fzero)) end.
  { destruct (Nat.ltb_spec (length buf2) (k * hop + hop + wl)).
    - do 2 eexists. split; [reflexivity|]. rewrite !resize_length. split; [lia|]. split; [reflexivity|]. split.
      + intros i Hi. apply nth_resize; lia.
      + intros p Hp. rewrite !nth_resize by lia. destruct (Nat.lt_ge_cases p (length buf)).
        * split; [apply B3; lia|apply N3; lia].
        * rewrite !nth_overflow by lia. rewrite !ola_far by nia. auto.
    - do 2 eexists. split; [reflexivity|]. split; [lia|]. split; [lia|]. split; [reflexivity|]. intros p Hp. split; [apply B3; lia|apply N3; lia]. }
  destruct G as (buf3 & nrm3 & -> & L5 & L6 & B4 & B5).
  match goal with |- context [for_range 0 hop ?b (buf3, nrm3)] =>
    rewrite (@for_pair T fzero hop (k * hop + hop + wl - hop) (fun _ _ => fzero) (fun _ _ => fzero) b buf3 nrm3) end.
  2:{ lia. }
  2:{ intros i a b Hi Hla Hlb Ha. destruct (Nat.ltb_spec (k * hop + hop + wl) hop); [lia|]. rewrite set_ok by lia. cbn [bind]. rewrite set_ok by lia. reflexivity. }
  2:{ intros i a b Hi Hla Hlb Ha. exfalso. lia. }
  cbn [bind]. rewrite slice_ok with (d := fzero) by (rewrite ?tab_length; lia). cbn [bind].
  replace (k * hop + hop - k * hop) with hop by lia. eexists. split.
  - do 3 f_equal. apply tab_ext. intros i Hi. rewrite nth_tab by lia.
    destruct (Nat.leb_spec (k * hop + hop + wl - hop) (k * hop + i)); [lia|]. cbn [andb]. rewrite B4, B2 by exact Hi. reflexivity.
  - assert (Lk : length (ys ++ [y]) = k + 1) by (rewrite app_length; reflexivity).
    constructor; cbn [is_win is_hop is_window is_time is_pos is_out is_count is_norm is_buf]; rewrite ?Lk, ?tab_length; try reflexivity; try lia.
    + intros p Hp. rewrite nth_tab by lia. destruct (B5 p) as [-> _]; [lia|].
      destruct (Nat.leb_spec (k * hop + hop + wl - hop) p), (Nat.ltb_spec p (k * hop + hop + wl - hop + hop)); cbn [andb]; try reflexivity.
      rewrite ola_far; [reflexivity|nia].
    + intros p Hp. rewrite nth_tab by lia. destruct (B5 p) as [_ ->]; [lia|].
      destruct (Nat.leb_spec (k * hop + hop + wl - hop) p), (Nat.ltb_spec p (k * hop + hop + wl - hop + hop)); cbn [andb]; try reflexivity.
      rewrite ola_far; [reflexivity|nia].
Qed.
Lemma flush_ok wl hop window ys st : str_inv wl hop window ys st -> 0 < hop <= wl -> 0 < length ys ->
  exists st', flush st = Done (st', tab (wl - hop) (fun i => stream_out window wl hop ys (length ys * hop + i))) /\ flush st' = Done (st', []).
Proof.
  intros [H1 H2 H3 H4 H5 H6 H7 H8 H9 H10 H11] Hh Hk. destruct st as [wl_ hop_ window_ buf nrm time pos out cnt].
  cbn [is_win is_hop is_window is_time is_pos is_out is_count is_norm is_buf] in *. subst wl_ hop_ window_ cnt pos out. unfold flush at 1.
  set (k := length ys) in *. destruct (Nat.eqb_spec k 0); [lia|]. destruct (Nat.ltb_spec (k * hop + wl) hop); [nia|].
  assert (Hke : k * hop + wl - hop = k * hop + (wl - hop)) by lia. rewrite Hke.
  destruct (Nat.leb_spec (k * hop + (wl - hop)) (k * hop)).
  - replace (wl - hop) with 0 by lia. eexists. split; [reflexivity|]. unfold flush. destruct (Nat.eqb_spec k 0); [reflexivity|].
    destruct (Nat.ltb_spec (k * hop + wl) hop); [lia|]. destruct (Nat.leb_spec (k * hop + wl - hop) (k * hop)); [reflexivity|lia].
  - rewrite norm_range_ok by lia. cbn [bind]. rewrite slice_ok with (d := fzero) by (rewrite ?tab_length; lia). cbn [bind].
    replace (k * hop + (wl - hop) - k * hop) with (wl - hop) by lia. eexists. split.
    + do 2 f_equal. apply tab_ext. intros i Hi. rewrite nth_tab by lia.
      destruct (Nat.leb_spec (k * hop) (k * hop + i)), (Nat.ltb_spec (k * hop + i) (k * hop + (wl - hop))); try lia. cbn [andb].
      rewrite H10, H11 by lia. reflexivity.
    + unfold flush. destruct (Nat.eqb_spec k 0); [reflexivity|].
      destruct (Nat.ltb_spec (k * hop + wl) hop); [lia|]. destruct (Nat.leb_spec (k * hop + wl - hop) (k * hop + (wl - hop))); [reflexivity|lia].
Qed.
Lemma flush_empty wl hop window st : str_inv wl hop window [] st -> flush st = Done (st, []).
Proof.
  intros [H1 H2 H3 H4 H5 H6 H7 H8 H9 H10 H11]. destruct st as [wl_ hop_ window_ buf nrm time pos out cnt].
  cbn [is_win is_hop is_window is_time is_pos is_out is_count is_norm is_buf length] in *. subst cnt. reflexivity.
Qed.
End LStft.

Section Conv.
Context {T : Type} {F : Float T} {X : FloatX T} {S : Type}.
Local Notation cx := (cx T).
Local Notation nthf l i := (nth i l fzero).
Variable op : S -> list cx -> exec (S * list cx * rres).
(* in every state reachable from s, the transform keeps the buffer length *)
Definition keeps (s : S) : Prop := exists P : S -> Prop, P s /\ forall s z s' y r, P s -> op s z = Done (s', y, r) -> length y = length z /\ P s'.
(* moreover it always returns *)
Definition answers (s : S) : Prop := exists P : S -> Prop, P s /\ forall s z, P s -> exists s' y r, op s z = Done (s', y, r) /\ length y = length z /\ P s'.
Lemma answers_keeps s : answers s -> keeps s.
Proof.
  intros (P & Hs & HP). exists P. split; [exact Hs|]. intros s0 z s' y r H0 E. destruct (HP s0 z H0) as (s1 & y1 & r1 & E1 & H1). rewrite E in E1. injection E1 as -> -> ->. exact H1.
Qed.
Lemma istft_frames_runs window hop (P : S -> Prop) : (forall s z s' y r, P s -> op s z = Done (s', y, r) -> length y = length z /\ P s') -> forall frames idx s os s' ys os', P s ->
  istft_frames op window hop idx s frames os = Done (s', ys, os', ROk) -> runs op s frames s' ys /\ forall f, In f frames -> length f = length window.
Proof.
  intros Hk. induction frames as [|f rest IH]; intros idx s os s' ys os' Hs; cbn [istft_frames].
  - intros [= <- <- <-]. split; [constructor|intros f []].
  - destruct (Nat.eqb_spec (length f) (length window)); cbn [negb]; try discriminate.
    destruct (op s f) as [[[s1 y] [|?]]| |] eqn:E; cbn [bind]; try discriminate.
    destruct (overlap _ _ _ _) as [os1| |]; cbn [bind]; try discriminate.
    destruct (istft_frames op window hop (idx + 1) s1 rest os1) as [[[[s2 ys2] os2] r2]| |] eqn:E2; cbn [bind]; try discriminate.
    intros [= <- <- <- ->]. destruct (Hk _ _ _ _ _ Hs E) as [Hy Hs1]. apply IH in E2; [|exact Hs1]. destruct E2 as [H1 H2]. split.
    + econstructor; [exact E|exact Hy|exact H1].
    + intros g [<-|Hg]; [assumption|apply H2, Hg].
Qed.
Lemma istft_runs window hop frames s out scr s' ys o scr' : keeps s ->
  istft op s frames window hop out scr = Done (s', ys, o, scr', ROk) ->
  0 < hop /\ length scr = length out /\ runs op s frames s' ys /\ forall f, In f frames -> length f = length window.
Proof.
  intros (P & Hs & Hk). unfold istft. destruct (Nat.eqb_spec hop 0); try discriminate. destruct (Nat.eqb_spec (length scr) (length out)); cbn [negb]; try discriminate.
  destruct (istft_frames _ _ _ _ _ _ _) as [[[[s2 ys2] [o2 sc2]] [|?]]| |] eqn:E2; cbn [bind]; try discriminate.
  destruct (normalize _ _); cbn [bind]; try discriminate. intros [= <- <- <- <-]. apply (istft_frames_runs _ _ P Hk) in E2; [|exact Hs]. destruct E2. repeat split; auto; lia.
Qed.
End Conv.

(* ---------------- no panics for hop <= window length ---------------- *)
Section Total.
Context {T : Type} {F : Float T} {X : FloatX T} {S : Type}.
Local Notation cx := (cx T).
Local Notation nthf l i := (nth i l fzero).
Variable op : S -> list cx -> exec (S * list cx * rres).
Record str_len (wl hop : nat) (st : istream (T := T)) : Prop := {
  sl_win : is_win st = wl; sl_hop : is_hop st = hop; sl_window : wl <= length (is_window st);
  sl_time : length (is_time st) = wl; sl_len : length (is_norm st) = length (is_buf st);
  sl_room : is_pos st + wl <= length (is_buf st); sl_out : is_out st + hop <= is_pos st + wl }.
Lemma push_total wl hop st s fr : str_len wl hop st -> 0 < hop <= wl ->
  (exists s' y r, op s fr = Done (s', y, r) /\ length y = length fr) ->
  exists s' st' r, push_frame op s st fr = Done (s', st', r) /\ str_len wl hop st' /\
    (forall piece, r = Ok piece -> length piece = hop).
Proof.
  intros [H1 H2 H3 H4 H5 H6 H7] Hh (s' & y & r & Eo & Hy). destruct st as [wl_ hop_ window buf nrm time pos out cnt].
  cbn [is_win is_hop is_window is_time is_pos is_out is_count is_norm is_buf] in *. subst wl_ hop_. unfold push_frame.
  destruct (Nat.eqb_spec (length fr) wl) as [Hf|Hf]; cbn [negb].
  2:{ do 3 eexists. split; [reflexivity|]. split; [constructor; cbn; solve [reflexivity|assumption]|discriminate]. }
  rewrite Hf, H4, Nat.eqb_refl. cbn [negb]. rewrite Eo. cbn [bind]. destruct r as [|e].
  2:{ do 3 eexists. split; [reflexivity|]. split; [constructor; cbn; solve [reflexivity|assumption|lia]|discriminate]. }
  match goal with |- context [for_range 0 wl ?b (buf, nrm)] =>
    rewrite (@for_pair T fzero wl pos (fun i v => fadd v (fmul (re (nth i y czero)) (nthf window i))) (fun i v => fadd v (fmul (nthf window i) (nthf window i))) b buf nrm) end.
  2:{ lia. }
  2:{ intros i a b Hi Hla Hlb Ha. rewrite (@get_nth _ window _ fzero) by lia. cbn [bind]. rewrite (@get_nth _ y _ czero) by lia. cbn [bind].
      rewrite (@get_nth _ a _ fzero) by lia. cbn [bind]. rewrite set_ok by lia. cbn [bind].
      rewrite (@get_nth _ b _ fzero) by lia. cbn [bind]. rewrite set_ok by lia. reflexivity. }
  2:{ intros i a b Hi Hla Hlb Ha. exfalso. lia. }
  cbn [bind]. rewrite norm_range_ok by (rewrite ?tab_length; lia). cbn [bind]. rewrite !tab_length.
  set (buf2 := tab (length buf) _). set (nrm2 := tab (length nrm) _).
  assert (L3 : length buf2 = length buf) by apply tab_length. assert (L4 : length nrm2 = length buf) by (unfold nrm2; rewrite tab_length; exact H5).
  clearbody buf2 nrm2.
  match goal with |- context [if ?b then (resize _ _ _, resize _ _ _) else _] =>
    assert (G : exists buf3 nrm3, (if b then (resize buf2 (pos + hop + wl) fzero, resize nrm2 (pos + hop + wl) fzero) else (buf2, nrm2)) = (buf3, nrm3) /\
      length buf3 = Nat.max (length buf) (pos + hop + wl) /\ length nrm3 = length buf3) end.
  { destruct (Nat.ltb_spec (length buf) (pos + hop + wl)); do 2 eexists; (split; [reflexivity|]); rewrite ?resize_length; lia. }
  destruct G as (buf3 & nrm3 & -> & L5 & L6).
  match goal with |- context [for_range 0 hop ?b (buf3, nrm3)] =>
    rewrite (@for_pair T fzero hop (pos + hop + wl - hop) (fun _ _ => fzero) (fun _ _ => fzero) b buf3 nrm3) end.
  2:{ lia. }
  2:{ intros i a b Hi Hla Hlb Ha. destruct (Nat.ltb_spec (pos + hop + wl) hop); [lia|]. rewrite set_ok by lia. cbn [bind]. rewrite set_ok by lia. reflexivity. }
  2:{ intros i a b Hi Hla Hlb Ha. exfalso. lia. }
  cbn [bind]. rewrite slice_ok with (d := fzero) by (rewrite ?tab_length; lia). cbn [bind]. do 3 eexists. split; [reflexivity|]. split.
  - constructor; cbn [is_win is_hop is_window is_time is_pos is_out is_count is_norm is_buf]; rewrite ?tab_length; try reflexivity; try lia; assumption.
  - intros piece [= <-]. rewrite tab_length. lia.
Qed.
Lemma flush_total wl hop st : str_len wl hop st -> 0 < hop <= wl -> exists st' piece, flush st = Done (st', piece) /\ str_len wl hop st'.
Proof.
  intros [H1 H2 H3 H4 H5 H6 H7] Hh. destruct st as [wl_ hop_ window buf nrm time pos out cnt].
  cbn [is_win is_hop is_window is_time is_pos is_out is_count is_norm is_buf] in *. subst wl_ hop_. unfold flush.
  destruct (Nat.eqb_spec cnt 0); [do 2 eexists; split; [reflexivity|]; constructor; cbn; solve [reflexivity|assumption]|].
  destruct (Nat.ltb_spec (pos + wl) hop); [lia|]. destruct (Nat.leb_spec (pos + wl - hop) out); [do 2 eexists; split; [reflexivity|]; constructor; cbn; solve [reflexivity|assumption]|].
  rewrite norm_range_ok by lia. cbn [bind]. rewrite slice_ok with (d := fzero) by (rewrite ?tab_length; lia). cbn [bind]. do 2 eexists. split; [reflexivity|].
  constructor; cbn [is_win is_hop is_window is_time is_pos is_out is_count is_norm is_buf]; rewrite ?tab_length; try reflexivity; try lia; assumption.
Qed.
Lemma len_new wl hop window : 0 < hop -> wl <= length window -> exists st, istream_new wl hop window = Ok st /\ (hop <= wl -> str_len wl hop st).
Proof.
  intros Hh Hw. unfold istream_new. destruct (Nat.eqb_spec hop 0); [lia|]. eexists. split; [reflexivity|]. intros Hle.
  constructor; cbn [is_win is_hop is_window is_time is_pos is_out is_count is_norm is_buf]; rewrite ?repeat_length; try reflexivity; lia.
Qed.

(* ---------------- hop > window length: the third push panics ---------------- *)
Lemma norm_range_panic a b (buf nrm : list T) : a <= length nrm -> length nrm < b -> length nrm = length buf -> norm_range a b (buf, nrm) = Panic.
Proof.
  intros Ha Hb Hl. unfold norm_range, for_range. set (body := fun i '(buf, nrm) => _).
  assert (G : forall n i bf nm, length bf = length buf -> length nm = length nrm -> i <= length nrm -> length nrm < i + n -> for_n n i body (bf, nm) = Panic).
  { induction n as [|n IH]; intros i bf nm L1 L2 Hi Hn; [lia|]. cbn [for_n]. unfold body at 1.
    destruct (Nat.eq_dec i (length nrm)) as [->|Hne].
    - rewrite get_panic by lia. reflexivity.
    - rewrite (@get_nth _ nm i fzero) by lia. cbn [bind]. destruct (fltb _ _).
      + rewrite (@get_nth _ bf i fzero) by lia. cbn [bind]. rewrite set_ok by lia. cbn [bind]. rewrite set_ok by lia. cbn [bind].
        apply IH; rewrite ?upd_length; lia.
      + cbn [bind]. rewrite set_ok by lia. cbn [bind]. apply IH; rewrite ?upd_length; lia. }
  apply G; lia.
Qed.
Record str_wide (wl hop k : nat) (st : istream (T := T)) : Prop := {
  sw_win : is_win st = wl; sw_hop : is_hop st = hop; sw_window : wl <= length (is_window st);
  sw_time : length (is_time st) = wl; sw_len : length (is_norm st) = length (is_buf st);
  sw_pos : is_pos st = k * hop; sw_out : is_out st = k * hop;
  sw_room : length (is_buf st) = wl + hop * 2 }.
Lemma push_wide wl hop k st s fr s' y : str_wide wl hop k st -> wl < hop -> op s fr = Done (s', y, ROk) -> length fr = wl -> length y = length fr ->
  (k <= 1 -> exists st' piece, push_frame op s st fr = Done (s', st', Ok piece) /\ str_wide wl hop (k + 1) st') /\
  (k = 2 -> push_frame op s st fr = Panic).
Proof.
  intros [H1 H2 H3 H4 H5 H6 H7 H8] Hh Eo Hf Hy. destruct st as [wl_ hop_ window buf nrm time pos out cnt].
  cbn [is_win is_hop is_window is_time is_pos is_out is_count is_norm is_buf] in *. subst wl_ hop_ pos out. unfold push_frame.
  rewrite Hf, H4, Nat.eqb_refl. cbn [negb]. rewrite Eo. cbn [bind].
  match goal with |- context [for_range 0 wl ?b (buf, nrm)] =>
    pose proof (@for_pair T fzero wl (k * hop) (fun i v => fadd v (fmul (re (nth i y czero)) (nthf window i))) (fun i v => fadd v (fmul (nthf window i) (nthf window i))) b buf nrm) as E1 end.
  assert (G : k <= 2 -> forall i (a b : list T), i < wl -> length a = length buf -> length b = length buf ->
     (w <- get window i ;; z <- get y i ;;
        v <- get a (k * hop + i) ;; a <- set a (k * hop + i) (fadd v (fmul (re z) w)) ;;
        q <- get b (k * hop + i) ;; b <- set b (k * hop + i) (fadd q (fmul w w)) ;; Done (a, b)) =
     Done (upd a (k * hop + i) (fadd (nth (k * hop + i) a fzero) (fmul (re (nth i y czero)) (nthf window i))),
           upd b (k * hop + i) (fadd (nth (k * hop + i) b fzero) (fmul (nthf window i) (nthf window i))))).
  { intros Hk i a b Hi Hla Hlb. assert (k * hop <= 2 * hop) by nia. rewrite (@get_nth _ window _ fzero) by lia. cbn [bind]. rewrite (@get_nth _ y _ czero) by lia. cbn [bind].
    rewrite (@get_nth _ a _ fzero) by lia. cbn [bind]. rewrite set_ok by lia. cbn [bind].
    rewrite (@get_nth _ b _ fzero) by lia. cbn [bind]. rewrite set_ok by lia. reflexivity. }
  split; intros Hk.
  - rewrite E1; [|lia|intros; apply G; lia|intros; exfalso; nia]. cbn [bind]. rewrite norm_range_ok by (rewrite ?tab_length; nia). cbn [bind]. rewrite !tab_length.
    destruct (Nat.ltb_spec (length buf) (k * hop + hop + wl)); [nia|].
    match goal with |- context [for_range 0 hop ?b (?x, ?z)] =>
      rewrite (@for_pair T fzero hop (k * hop + hop + wl - hop) (fun _ _ => fzero) (fun _ _ => fzero) b x z) end.
    + cbn [bind]. rewrite !tab_length. rewrite slice_ok with (d := fzero) by (rewrite ?tab_length; nia). cbn [bind]. do 2 eexists. split; [reflexivity|].
      constructor; cbn [is_win is_hop is_window is_time is_pos is_out is_count is_norm is_buf]; rewrite ?tab_length; try reflexivity; try lia; assumption.
    + rewrite !tab_length. lia.
    + rewrite !tab_length. intros i a b Hi Hla Hlb Ha. destruct (Nat.ltb_spec (k * hop + hop + wl) hop); [lia|]. rewrite set_ok by lia. cbn [bind]. rewrite set_ok by lia. reflexivity.
    + rewrite !tab_length. intros i a b Hi Hla Hlb Ha. exfalso. nia.
  - rewrite E1; [|lia|intros; apply G; lia|intros; exfalso; nia]. cbn [bind]. rewrite norm_range_panic; [reflexivity| | |]; rewrite ?tab_length; nia.
Qed.
End Total.

(* ---------------- the rayon versions ---------------- *)
Section LPar.
Context {T : Type} {F : Float T} {X : FloatX T}.
Local Notation cx := (cx T).
Local Notation nthf l i := (nth i l fzero).
Variable c : cfg.
Lemma push_loop signal window start : for_range 0 (length window) (fun j f => x <- wsample signal window start j ;; Done (f ++ [mkcx x fzero])) [] = Done (wframe signal window start).
Proof.
  destruct (@for_inv _ (fun k f => f = firstn k (wframe signal window start)) (fun j f => x <- wsample signal window start j ;; Done (f ++ [mkcx x fzero])) 0 (length window) []) as (f & E & Hf).
  - lia.
  - reflexivity.
  - intros j f Hj ->. exists (firstn (Datatypes.S j) (wframe signal window start)). split; [|reflexivity].
    unfold wframe. rewrite !firstn_tab by lia. rewrite tab_S. unfold wsample. destruct (Nat.ltb_spec (start + j) (length signal)).
    + rewrite !get_nth with (d := fzero) by lia. reflexivity.
    + reflexivity.
  - rewrite E, Hf, firstn_all2; [reflexivity|]. rewrite wframe_length. lia.
Qed.
Lemma fft_fresh_new z : 0 < length z -> c_std c = true \/ is_pow2 (length z) = true ->
  (exists p, fft c new_planner z = Done (p, fft_fresh c z, ROk)) /\ (exists p, ifft c new_planner z = Done (p, ifft_fresh c z, ROk)).
Proof.
  intros Hn Hs. destruct (scalar_steady2 Hn Hs (@upto_new T F c (length z))) as (P & H & HP). destruct (HP _ z H eq_refl) as [(s1 & E1 & _) (s2 & E2 & _)]. eauto.
Qed.
Lemma par_frames_ok signal window hop : 0 < length window -> c_std c = true \/ is_pow2 (length window) = true -> forall sched output,
  NoDup sched -> (forall i, In i sched -> i < length output) ->
  exists out', par_frames c signal window hop sched output = Done (out', ROk) /\ length out' = length output /\
    forall i, i < length output -> nth i out' [] = if in_dec Nat.eq_dec i sched then fft_fresh c (wframe signal window (i * hop)) else nth i output [].
Proof.
  intros Hn Hs. induction sched as [|k sched IH]; intros output Hnd Hin; cbn [par_frames].
  - exists output. split; [reflexivity|]. split; [reflexivity|]. intros i Hi. destruct (in_dec Nat.eq_dec i []) as [[]|]; reflexivity.
  - rewrite push_loop. cbn [bind]. destruct (@fft_fresh_new (wframe signal window (k * hop))) as [[p E] _]; try (rewrite wframe_length; assumption).
    rewrite E. cbn [bind]. rewrite set_ok by (apply Hin; left; reflexivity). cbn [bind].
    inversion Hnd as [|? ? Hk Hnd']; subst.
    destruct (IH (upd output k (fft_fresh c (wframe signal window (k * hop)))) Hnd') as (out' & E' & Hl & H').
    { rewrite upd_length. intros i Hi. apply Hin. right. exact Hi. }
    rewrite upd_length in *. exists out'. split; [exact E'|]. split; [exact Hl|]. intros i Hi. rewrite H' by exact Hi.
    rewrite nth_upd by (apply Hin; left; reflexivity).
    destruct (in_dec Nat.eq_dec i sched) as [Hi1|Hi1], (in_dec Nat.eq_dec i (k :: sched)) as [Hi2|Hi2]; try reflexivity.
    + exfalso. apply Hi2. right. exact Hi1.
    + destruct Hi2 as [->|Hi2]; [rewrite Nat.eqb_refl; reflexivity|contradiction].
    + destruct (Nat.eqb_spec i k) as [->|]; [exfalso; apply Hi2; left; reflexivity|reflexivity].
Qed.
Lemma contribution_ok window fr : length fr = length window -> 0 < length window -> c_std c = true \/ is_pow2 (length window) = true ->
  contribution c window fr = Done (Ok (tab (length window) (fun j => fmul (re (nth j (ifft_fresh c fr) czero)) (nthf window j)),
                                       tab (length window) (fun j => fmul (nthf window j) (nthf window j)))).
Proof.
  intros Hl Hn Hs. unfold contribution. rewrite <- Hl in Hn, Hs. destruct (fft_fresh_new fr Hn Hs) as [_ [p E]].
  destruct (fresh_length c fr Hn Hs) as [_ Hlen]. rewrite E. cbn [bind].
  match goal with |- context [for_range 0 (length window) ?b (?x, ?z)] =>
    rewrite (@for_pair T fzero (length window) 0 (fun i _ => fmul (re (nth i (ifft_fresh c fr) czero)) (nthf window i)) (fun i _ => fmul (nthf window i) (nthf window i)) b x z) end.
  - cbn [bind]. rewrite !repeat_length. do 2 f_equal. f_equal; apply tab_ext; intros p0 Hp; destruct (Nat.ltb_spec p0 (0 + length window)); try lia; cbn [Nat.leb andb]; rewrite Nat.sub_0_r; reflexivity.
  - reflexivity.
  - intros i a b Hi Hla Hlb Ha. rewrite repeat_length in *. rewrite (@get_nth _ (ifft_fresh c fr) _ czero) by lia. cbn [bind].
    rewrite (@get_nth _ window _ fzero) by lia. cbn [bind]. rewrite !set_ok by (cbn; lia). reflexivity.
  - rewrite repeat_length. intros i a b Hi Hla Hlb Ha. lia.
Qed.
Lemma par_map_ok {A B} (f : A -> exec B) (g : A -> B) (l : list A) (d : A) : (forall a, In a l -> f a = Done (g a)) -> forall sched slots,
  (forall i, In i sched -> i < length l) -> length slots = length l ->
  exists slots', par_map f l sched slots = Done slots' /\ length slots' = length l /\
    forall i, i < length l -> nth i slots' None = if in_dec Nat.eq_dec i sched then Some (g (nth i l d)) else nth i slots None.
Proof.
  intros Hf. induction sched as [|k sched IH]; intros slots Hin Hl; cbn [par_map].
  - exists slots. split; [reflexivity|]. split; [exact Hl|]. intros i Hi. destruct (in_dec Nat.eq_dec i []) as [[]|]; reflexivity.
  - assert (Hk : k < length l) by (apply Hin; left; reflexivity). rewrite (@get_nth _ l k d) by exact Hk. cbn [bind].
    rewrite Hf by (apply nth_In; exact Hk). cbn [bind]. rewrite set_ok by lia. cbn [bind].
    destruct (IH (upd slots k (Some (g (nth k l d))))) as (s' & E & Hl' & H'); [intros i Hi; apply Hin; right; exact Hi|rewrite upd_length; exact Hl|].
    exists s'. split; [exact E|]. split; [exact Hl'|]. intros i Hi. rewrite H' by exact Hi. rewrite nth_upd by lia.
    destruct (in_dec Nat.eq_dec i sched) as [Hi1|Hi1], (in_dec Nat.eq_dec i (k :: sched)) as [Hi2|Hi2]; try reflexivity.
    + exfalso. apply Hi2. right. exact Hi1.
    + destruct Hi2 as [->|Hi2]; [rewrite Nat.eqb_refl; reflexivity|contradiction].
    + destruct (Nat.eqb_spec i k) as [->|]; [exfalso; apply Hi2; left; reflexivity|reflexivity].
Qed.
Lemma collect_ok {B} (l : list B) : collect (map (fun b => Some (Ok b)) l) = Done (Ok l).
Proof. induction l as [|b l IH]; cbn [map collect]; [reflexivity|]. rewrite IH. reflexivity. Qed.
Lemma add_partials_ok window hop Y out0 scr0 : length out0 = length scr0 -> forall ys idx, ys = skipn idx Y ->
  add_partials (length window) hop idx
    (map (fun y => (tab (length window) (fun j => fmul (re (nth j y czero)) (nthf window j)), tab (length window) (fun j => fmul (nthf window j) (nthf window j)))) ys)
    (tab (length out0) (fun p => ola (gsig window Y) (length window) hop p idx (nthf out0 p)),
     tab (length scr0) (fun p => ola (gwin window) (length window) hop p idx (nthf scr0 p))) =
  Done (tab (length out0) (fun p => ola (gsig window Y) (length window) hop p (idx + length ys) (nthf out0 p)),
     tab (length scr0) (fun p => ola (gwin window) (length window) hop p (idx + length ys) (nthf scr0 p))).
Proof.
  intros Hl. induction ys as [|y rest IH]; intros idx Hy; cbn [map add_partials length].
  - rewrite Nat.add_0_r. reflexivity.
  - assert (Hidx : idx < length Y).
    { destruct (Nat.lt_ge_cases idx (length Y)); [assumption|]. rewrite skipn_all2 in Hy by lia. discriminate. }
    rewrite (skipn_cons Y [] Hidx) in Hy. injection Hy as Hy1 Hy2.
    match goal with |- context [for_range 0 (length window) ?b (?x, ?z)] =>
      rewrite (@for_pair T fzero (length window) (idx * hop) (fun i v => fadd v (fmul (re (nth i y czero)) (nthf window i))) (fun i v => fadd v (fmul (nthf window i) (nthf window i))) b x z) end.
    + cbn [bind]. rewrite !tab_length.
      erewrite (@tab_ext _ (length out0)), (@tab_ext _ (length scr0)).
      * erewrite (IH (idx + 1) Hy2). replace (idx + Datatypes.S (length rest)) with (idx + 1 + length rest) by lia. reflexivity.
      * intros p Hp. cbn beta. rewrite nth_tab by exact Hp. rewrite Nat.add_1_r. reflexivity.
      * intros p Hp. cbn beta. rewrite nth_tab by exact Hp. rewrite Nat.add_1_r. cbn [ola].
        replace (gsig window Y idx (p - idx * hop)) with (fmul (re (nth (p - idx * hop) y czero)) (nthf window (p - idx * hop))) by (unfold gsig; rewrite <- Hy1; reflexivity).
        reflexivity.
    + rewrite !tab_length. exact Hl.
    + rewrite !tab_length. intros i a b Hi Hla Hlb Ha. destruct (Nat.ltb_spec (idx * hop + i) (length a)); [|lia].
      rewrite (@get_nth _ a _ fzero) by lia. cbn [bind]. rewrite get_tab by lia. cbn [bind]. rewrite set_ok by lia. cbn [bind].
      rewrite (@get_nth _ b _ fzero) by lia. cbn [bind]. rewrite get_tab by lia. cbn [bind]. rewrite set_ok by lia. reflexivity.
    + rewrite !tab_length. intros i a b Hi Hla Hlb Ha. destruct (Nat.ltb_spec (idx * hop + i) (length a)); [lia|reflexivity].
Qed.
Lemma inverse_parallel_ok sched frames window hop out : 0 < hop -> 0 < length window -> c_std c = true \/ is_pow2 (length window) = true ->
  (forall f, In f frames -> length f = length window) -> Permutation sched (seq 0 (length frames)) ->
  inverse_parallel c sched frames window hop out = Done (tab (length out) (fun p =>
     let q := ola (gwin window) (length window) hop p (length frames) fzero in
     if fltb eps8 q then fdiv (ola (gsig window (map (ifft_fresh c) frames)) (length window) hop p (length frames) (nthf out p)) q else fzero), ROk).
Proof.
  intros Hh Hn Hs Hf Hp. unfold inverse_parallel. destruct (Nat.eqb_spec hop 0); [lia|].
  set (g := fun fr : list cx => Ok (tab (length window) (fun j => fmul (re (nth j (ifft_fresh c fr) czero)) (nthf window j)), tab (length window) (fun j => fmul (nthf window j) (nthf window j)))).
  destruct (@par_map_ok _ _ (contribution c window) g frames [] (fun a Ha => @contribution_ok window a (Hf a Ha) Hn Hs) sched (map (fun _ => None) frames)) as (slots & E & Hl & Hsl).
  - intros i Hi. apply (Permutation_in _ Hp), in_seq in Hi. lia.
  - apply map_length.
  - rewrite E. cbn [bind].
    assert (Es : slots = map (fun b => Some (Ok b)) (map (fun y => (tab (length window) (fun j => fmul (re (nth j y czero)) (nthf window j)), tab (length window) (fun j => fmul (nthf window j) (nthf window j)))) (map (ifft_fresh c) frames))).
    { rewrite !map_map. apply list_ext with (d := None); [rewrite map_length; exact Hl|]. intros i Hi. rewrite Hl in Hi. rewrite Hsl by exact Hi.
      destruct (in_dec Nat.eq_dec i sched) as [_|Hni].
      - symmetry. rewrite (@nth_indep _ _ i None (Some (g []))) by (rewrite map_length; exact Hi). exact (map_nth (fun fr => Some (g fr)) frames [] i).
      - exfalso. apply Hni. apply (Permutation_in _ (Permutation_sym Hp)), in_seq. lia. }
    rewrite Es, collect_ok. cbn [bind].
    pose proof (@add_partials_ok window hop (map (ifft_fresh c) frames) out (repeat fzero (length out)) ltac:(rewrite repeat_length; reflexivity) (map (ifft_fresh c) frames) 0 eq_refl) as Ea.
    cbn [ola plus] in Ea. rewrite <- !list_tab in Ea. rewrite map_length in Ea. rewrite Ea. cbn [bind]. rewrite !tab_length, repeat_length.
    rewrite for_map with (d := fzero) (g := fun i v => let q := ola (gwin window) (length window) hop i (length frames) fzero in if fltb eps8 q then fdiv v q else fzero).
    + cbn [bind]. rewrite tab_length. do 2 f_equal. apply tab_ext. intros p Hp0. destruct (Nat.ltb_spec p (length out)); [|lia]. cbn [Nat.leb andb]. rewrite nth_tab by lia. reflexivity.
    + lia.
    + rewrite tab_length. intros i a Hi Ha Hia. rewrite get_tab by lia. cbn [bind]. rewrite nth_repeat. cbn zeta. destruct (fltb _ _).
      * rewrite (@get_nth _ a _ fzero) by lia. cbn [bind]. rewrite set_ok by lia. rewrite Hia. reflexivity.
      * apply set_ok. lia.
    + rewrite tab_length. lia.
Qed.
End LPar.

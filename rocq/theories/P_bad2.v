(* Property C101: a value that is not a number is never hidden by the multi-dimensional transforms, the cosine, sine and Hartley
   transforms, the chirp-z transform, Goertzel's algorithm and the analytic signal. *)
From Coq Require Import ZArith ZifyBool ZifyNat.
From Flocq Require Import Core BinarySingleNaN.
From Verif Require Import M_fft L_fft L_obj L_nd M_nd M_trig M_cep M_wave L_wave L_trig P_dctp P_bad L_bad L_ieee L_ieeex.
Ltac Zify.zify_post_hook ::= Z.div_mod_to_equations.
Set Implicit Arguments.
Open Scope nat_scope.

(* ---------- proofs: several dimensions ---------- *)
Section Nd.
Context {T : Type} {F : Float T}.
Variables (c : cfg) (P : T -> Prop).
Hypothesis HP : absorbing F P.
Local Notation cx := (cx T).
Local Notation bad := (tainted P).
Local Notation nthc l i := (nth i l czero).
Definition line_bad (start stride n : nat) (d d' : list cx) : Prop := length d' = length d /\
  ((exists i, i < n /\ bad (nthc d (start + i * stride))) -> forall i, i < n -> bad (nthc d' (start + i * stride))) /\
  (forall q, (forall i, i < n -> q <> start + i * stride) -> nthc d' q = nthc d q).
Definition lines_bad (K : nat) (start : nat -> nat) (stride n : nat) (d d' : list cx) : Prop := length d' = length d /\
  (forall j, j < K -> (exists i, i < n /\ bad (nthc d (start j + i * stride))) -> forall i, i < n -> bad (nthc d' (start j + i * stride))) /\
  (forall q, (forall j i, j < K -> i < n -> q <> start j + i * stride) -> nthc d' q = nthc d q).
Lemma lb_0 start stride n d : lines_bad 0 start stride n d d.
Proof. split; [reflexivity|]. split; intros; [lia|reflexivity]. Qed.
Lemma lb_S K j start stride n d d1 d2 : separate K start stride n -> j < K -> lines_bad j start stride n d d1 ->
  line_bad (start j) stride n d1 d2 -> lines_bad (S j) start stride n d d2.
Proof.
  intros Hsep Hj (L1 & A1 & B1) (L2 & A2 & B2). split; [congruence|]. split.
  - intros j' Hj' Hb i Hi. destruct (Nat.eq_dec j' j) as [->|Hne].
    + apply A2; [|exact Hi]. destruct Hb as (i0 & Hi0 & Hb). exists i0. split; [exact Hi0|]. rewrite B1; [exact Hb|].
      intros j' i' Hj1 Hi1 E. assert (j = j') by (apply (Hsep j j' i0 i'); auto; lia). lia.
    + rewrite B2; [apply A1; [lia|exact Hb|exact Hi]|]. intros i' Hi' E. apply Hne. apply (Hsep j' j i i'); auto; lia.
  - intros q Hq. rewrite B2; [apply B1|]; intros; apply Hq; lia.
Qed.
Lemma fft_all p x : Inv c p -> 0 < length x -> c_std c = true \/ is_pow2 (length x) = true ->
  exists p' y, fft c p x = Done (p', y, ROk) /\ Inv c p' /\ length y = length x /\ (some_bad P x -> all_bad P y).
Proof.
  intros HI Hn Hs. destruct (@fft_ok T F c p x HI Hn Hs) as (p' & y & E & HI' & L & _). exists p', y. split; [exact E|]. split; [exact HI'|]. split; [exact L|].
  intros Hb. destruct (@fft_bad T F c P HP p x HI Hn Hs Hb) as (p2 & y2 & E2 & _ & B).
  rewrite E in E2. assert (Ey : y = y2) by exact (f_equal (fun r => match r with Done (_, z, _) => z | _ => [] end) E2). rewrite Ey. exact B.
Qed.
Lemma line_some start stride n d : (exists i, i < n /\ bad (nthc d (start + i * stride))) -> some_bad P (line start stride n d).
Proof. intros (i & Hi & Hb). eexists. split; [|exact Hb]. unfold line, tab. apply in_map_iff. exists i. split; [reflexivity|apply in_seq; lia]. Qed.
Lemma slice_lb p data start n : Inv c p -> 0 < n -> c_std c = true \/ is_pow2 n = true -> start + n <= length data ->
  exists p' data', fft_slice c start n (p, data) = Done (p', data', ROk) /\ Inv c p' /\ line_bad start 1 n data data'.
Proof.
  intros HI Hn Hs Hl. unfold fft_slice. destruct (Nat.leb_spec (start + n) (length data)); [|lia].
  assert (El : firstn n (skipn start data) = line start 1 n data).
  { apply list_ext with (d := czero); unfold line; rewrite ?tab_length, ?firstn_length, ?skipn_length; [lia|]. intros i Hi.
    rewrite nth_firstn, nth_tab, nth_skipn by lia. f_equal. lia. }
  assert (Ll : length (line start 1 n data) = n) by apply tab_length.
  rewrite El. destruct (@fft_all p (line start 1 n data) HI) as (p' & y & E & HI' & Ly & B); [lia|rewrite Ll; exact Hs|]. rewrite Ll in Ly. rewrite E. cbn [bind].
  exists p'. eexists. split; [reflexivity|]. split; [exact HI'|]. split; [rewrite !app_length, firstn_length, skipn_length; lia|]. split.
  - intros Hb i Hi. rewrite app_nth2; rewrite firstn_length; [|lia]. rewrite app_nth1 by lia. apply all_nth; [apply B, line_some; exact Hb|lia].
  - intros q Hq. destruct (Nat.lt_ge_cases q start) as [H1|H1].
    + rewrite app_nth1 by (rewrite firstn_length; lia). apply nth_firstn. exact H1.
    + assert (start + n <= q) by (destruct (Nat.lt_ge_cases q (start + n)); [exfalso; apply (Hq (q - start)); lia|assumption]).
      rewrite app_nth2; rewrite firstn_length; [|lia]. rewrite app_nth2 by lia. rewrite Ly, nth_skipn. f_equal. lia.
Qed.
Lemma strided_lb p data scratch start stride n : Inv c p -> 0 < n -> c_std c = true \/ is_pow2 n = true -> length scratch = n -> 0 < stride ->
  start + (n - 1) * stride < length data ->
  exists p' data' scratch', strided_slice c start stride (p, data, scratch) = Done (p', data', scratch', ROk) /\ Inv c p' /\ line_bad start stride n data data' /\ length scratch' = n.
Proof.
  intros HI Hn Hs Hsc Hst Hl. destruct (@strided_slice_any T F c p data scratch start stride n HI Hn Hs Hsc Hst Hl) as (p' & d' & s' & y & q & E & HI' & Ef & (L & A & B) & Ls).
  exists p', d', s'. split; [exact E|]. split; [exact HI'|]. split; [|exact Ls]. split; [exact L|]. split; [|exact B].
  intros Hb i Hi. rewrite A by exact Hi. assert (Ll : length (line start stride n data) = n) by apply tab_length.
  destruct (@fft_all p (line start stride n data) HI) as (p2 & y2 & E2 & _ & Ly & Hall); [lia|rewrite Ll; exact Hs|].
  rewrite Ef in E2. assert (Ey : y = y2) by exact (f_equal (fun r => match r with Done (_, z, _) => z | _ => [] end) E2). subst y2.
  apply all_nth; [apply Hall, line_some; exact Hb|lia].
Qed.
Lemma rows_lb p data rows cols : Inv c p -> 0 < cols -> c_std c = true \/ is_pow2 cols = true -> rows * cols <= length data ->
  exists p' data', for_try rows 0 (fun r => fft_slice c (r * cols) cols) (p, data) = Done (p', data', ROk) /\ Inv c p' /\ lines_bad rows (fun r => r * cols) 1 cols data data'.
Proof.
  intros Hf Hc Hs Hl.
  destruct (@for_try_inv _ (fun r '(p', d) => lines_bad r (fun r => r * cols) 1 cols data d /\ Inv c p') rows
     (fun r => fft_slice c (r * cols) cols) 0 (p, data)) as ([p' d] & E & H1 & H2).
  - split; [apply lb_0|exact Hf].
  - intros r [q d] Hr [Hd Hk]. destruct (@slice_lb q d (r * cols) cols) as (q' & d' & E & Hk' & Hd'); auto.
    { destruct Hd as [-> _]. nia. }
    exists (q', d'). split; [exact E|]. split; [|exact Hk'].
    eapply lb_S with (K := rows); [apply rows_separate|lia|exact Hd|exact Hd'].
  - exists p', d. auto.
Qed.
Lemma cols_lb p data scratch rows cols : Inv c p -> 0 < rows -> 0 < cols -> c_std c = true \/ is_pow2 rows = true -> length data = rows * cols -> length scratch = rows ->
  exists p' data' scratch', for_try cols 0 (fun k => strided_slice c k cols) (p, data, scratch) = Done (p', data', scratch', ROk) /\
    Inv c p' /\ lines_bad cols (fun k => k) cols rows data data' /\ length scratch' = rows.
Proof.
  intros Hf Hr Hc Hs Hl Hsc.
  destruct (@for_try_inv _ (fun k '(p', d, s) => lines_bad k (fun k => k) cols rows data d /\ Inv c p' /\ length s = rows) cols
     (fun k => strided_slice c k cols) 0 (p, data, scratch)) as ([[p' d] s] & E & H1 & H2).
  - split; [apply lb_0|]. split; [exact Hf|exact Hsc].
  - intros k [[q d] s] Hk (Hd & Hkp & Hls). destruct (@strided_lb q d s k cols rows) as (q' & d' & s' & E & Hk' & Hd' & Ls'); auto.
    { destruct Hd as [-> _]. rewrite Hl. nia. }
    exists (q', d', s'). split; [exact E|]. split; [|split; [exact Hk'|exact Ls']].
    eapply lb_S with (K := cols); [apply cols_separate|lia|exact Hd|exact Hd'].
  - exists p', d, s. tauto.
Qed.
Lemma depth_lb p data scratch depth rows cols : Inv c p -> 0 < depth -> 0 < rows -> 0 < cols -> c_std c = true \/ is_pow2 depth = true ->
  length data = depth * rows * cols -> length scratch = depth ->
  exists p' data' scratch', for_try rows 0 (fun r => for_try cols 0 (fun k => strided_slice c (r * cols + k) (rows * cols))) (p, data, scratch) = Done (p', data', scratch', ROk) /\
    Inv c p' /\ lines_bad (rows * cols) (fun j => j) (rows * cols) depth data data' /\ length scratch' = depth.
Proof.
  intros Hf Hd Hr Hc Hs Hl Hsc.
  destruct (@for_try_nest _ (fun k '(p', d, s) => lines_bad k (fun k => k) (rows * cols) depth data d /\ Inv c p' /\ length s = depth) rows cols
     (fun r k => strided_slice c (r * cols + k) (rows * cols)) (p, data, scratch)) as ([[p' d] s] & E & H1 & H2).
  - split; [apply lb_0|]. split; [exact Hf|exact Hsc].
  - intros a b [[q d] s] Ha Hb (Hdd & Hkp & Hls). assert (Hlt : a * cols + b < rows * cols) by nia.
    destruct (@strided_lb q d s (a * cols + b) (rows * cols) depth) as (q' & d' & s' & E & Hk' & Hd' & Ls'); auto; [nia| |].
    { destruct Hdd as [-> _]. rewrite Hl. nia. }
    exists (q', d', s'). split; [exact E|]. split; [|split; [exact Hk'|exact Ls']].
    eapply lb_S with (K := rows * cols); [apply cols_separate|exact Hlt|exact Hdd|exact Hd'].
  - exists p', d, s. tauto.
Qed.
Lemma plane_lb p data scratch depth rows cols : Inv c p -> 0 < depth -> 0 < rows -> 0 < cols -> c_std c = true \/ is_pow2 rows = true ->
  length data = depth * rows * cols -> length scratch = rows ->
  exists p' data' scratch', for_try depth 0 (fun d => for_try cols 0 (fun k => strided_slice c (d * rows * cols + k) cols)) (p, data, scratch) = Done (p', data', scratch', ROk) /\
    Inv c p' /\ lines_bad (depth * cols) (plane_start rows cols) cols rows data data' /\ length scratch' = rows.
Proof.
  intros Hf Hd Hr Hc Hs Hl Hsc.
  destruct (@for_try_nest _ (fun k '(p', d, s) => lines_bad k (plane_start rows cols) cols rows data d /\ Inv c p' /\ length s = rows) depth cols
     (fun d k => strided_slice c (d * rows * cols + k) cols) (p, data, scratch)) as ([[p' d] s] & E & H1 & H2).
  - split; [apply lb_0|]. split; [exact Hf|exact Hsc].
  - intros a b [[q d] s] Ha Hb (Hdd & Hkp & Hls). destruct (divmod_pair a Hb) as [E1 E2].
    assert (Est : plane_start rows cols (a * cols + b) = a * rows * cols + b) by (unfold plane_start; rewrite E1, E2; reflexivity).
    destruct (@strided_lb q d s (a * rows * cols + b) cols rows) as (q' & d' & s' & E & Hk' & Hd' & Ls'); auto.
    { destruct Hdd as [-> _]. rewrite Hl. assert ((a + 1) * (rows * cols) <= depth * (rows * cols)) by (apply Nat.mul_le_mono_r; lia). nia. }
    exists (q', d', s'). split; [exact E|]. split; [|split; [exact Hk'|exact Ls']].
    eapply lb_S with (K := depth * cols); [apply plane_separate; exact Hc|nia|exact Hdd|rewrite Est; exact Hd'].
  - exists p', d, s. tauto.
Qed.
Lemma rows3_lb p data depth rows cols : Inv c p -> 0 < cols -> c_std c = true \/ is_pow2 cols = true -> length data = depth * rows * cols ->
  exists p' data', for_try depth 0 (fun d => for_try rows 0 (fun r => fft_slice c (d * rows * cols + r * cols) cols)) (p, data) = Done (p', data', ROk) /\
    Inv c p' /\ lines_bad (depth * rows) (fun r => r * cols) 1 cols data data'.
Proof.
  intros Hf Hc Hs Hl.
  destruct (@for_try_nest _ (fun r '(p', d) => lines_bad r (fun r => r * cols) 1 cols data d /\ Inv c p') depth rows
     (fun d r => fft_slice c (d * rows * cols + r * cols) cols) (p, data)) as ([p' d] & E & H1 & H2).
  - split; [apply lb_0|exact Hf].
  - intros a b [q d] Ha Hb [Hd Hk]. replace (a * rows * cols + b * cols) with ((a * rows + b) * cols) by ring.
    destruct (@slice_lb q d ((a * rows + b) * cols) cols) as (q' & d' & E & Hk' & Hd'); auto.
    { destruct Hd as [-> _]. rewrite Hl. assert (a * rows + b + 1 <= depth * rows) by nia. nia. }
    exists (q', d'). split; [exact E|]. split; [|exact Hk'].
    eapply lb_S with (K := depth * rows); [apply rows_separate|nia|exact Hd|exact Hd'].
  - exists p', d. auto.
Qed.
Lemma bad_all (d : list cx) : (forall q, q < length d -> bad (nthc d q)) -> forall w, In w d -> bad w.
Proof. intros H w Hw. destruct (In_nth _ _ czero Hw) as (i & Hi & <-). apply H. exact Hi. Qed.
End Nd.

(* ---------- theorems ---------- *)
Theorem C101_fft2d : forall (T : Type) (F : Float T) (P : T -> Prop) (c : cfg) p (x scratch : list (cx T)) rows cols z, absorbing F P -> reachable c p ->
  length_ok c rows -> length_ok c cols -> length x = rows * cols -> length scratch = rows -> In z x -> tainted P z ->
  exists p' y scr, fft2d_inplace c p x rows cols scratch = Done (p', y, scr, ROk) /\ length y = length x /\ forall w, In w y -> tainted P w.
Proof.
  intros T F P c p x scratch rows cols z HP Hp [Hr1 Hr2] [Hc1 Hc2] Hx Hsc Hz Hb. unfold fft2d_inplace. rewrite Hx, Nat.eqb_refl. cbn [negb].
  destruct (Nat.eqb_spec rows 0); [lia|]. destruct (Nat.eqb_spec cols 0); [lia|]. cbn [orb]. rewrite Hsc, Nat.eqb_refl. cbn [negb].
  destruct (@rows_lb T F c P HP p x rows cols (reachable_Inv Hp) Hc1 Hc2 ltac:(lia)) as (p1 & d1 & E1 & I1 & (L1 & A1 & _)). rewrite E1. cbn [bind].
  destruct (@cols_lb T F c P HP p1 d1 scratch rows cols I1 Hr1 Hc1 Hr2 ltac:(lia) Hsc) as (p2 & d2 & s2 & E2 & I2 & (L2 & A2 & _) & _). rewrite E2.
  exists p2, d2, s2. split; [reflexivity|]. split; [congruence|]. apply bad_all. intros q Hq.
  destruct (In_nth _ _ czero Hz) as (i & Hi & Ei).
  assert (D : i = i / cols * cols + i mod cols * 1) by (pose proof (Nat.div_mod_eq i cols); nia).
  assert (M : i mod cols < cols) by (apply Nat.mod_upper_bound; lia). assert (R : i / cols < rows) by (apply Nat.div_lt_upper_bound; nia).
  assert (D' : q = q mod cols + q / cols * cols) by (pose proof (Nat.div_mod_eq q cols); nia).
  assert (M' : q mod cols < cols) by (apply Nat.mod_upper_bound; lia). assert (R' : q / cols < rows) by (apply Nat.div_lt_upper_bound; nia).
  rewrite D'. apply A2; [exact M'| |exact R']. exists (i / cols). split; [exact R|].
  replace (q mod cols + i / cols * cols) with (i / cols * cols + q mod cols * 1) by lia. apply A1; [exact R| |exact M'].
  exists (i mod cols). split; [exact M|]. rewrite <- D, Ei. exact Hb.
Qed.
Print Assumptions C101_fft2d.
Theorem C101_fft3d : forall (T : Type) (F : Float T) (P : T -> Prop) (c : cfg) p (x tube row col : list (cx T)) depth rows cols z, absorbing F P -> reachable c p ->
  length_ok c depth -> length_ok c rows -> length_ok c cols -> length x = depth * rows * cols -> length tube = depth -> length row = rows -> length col = cols -> In z x -> tainted P z ->
  exists p' y scr, fft3d_inplace c p x depth rows cols tube row col = Done (p', y, scr, ROk) /\ length y = length x /\ forall w, In w y -> tainted P w.
Proof.
  intros T F P c p x tube row col depth rows cols z HP Hp [Hd1 Hd2] [Hr1 Hr2] [Hc1 Hc2] Hx Ht Hrw Hcl Hz Hb. unfold fft3d_inplace. rewrite Hx, Nat.eqb_refl. cbn [negb].
  destruct (Nat.eqb_spec depth 0); [lia|]. destruct (Nat.eqb_spec rows 0); [lia|]. destruct (Nat.eqb_spec cols 0); [lia|]. cbn [orb]. rewrite Ht, Hrw, Hcl, !Nat.eqb_refl. cbn [andb negb].
  destruct (@depth_lb T F c P HP p x tube depth rows cols (reachable_Inv Hp) Hd1 Hr1 Hc1 Hd2 Hx Ht) as (p1 & d1 & s1 & E1 & I1 & (L1 & A1 & _) & _). rewrite E1. cbn [bind].
  destruct (@plane_lb T F c P HP p1 d1 row depth rows cols I1 Hd1 Hr1 Hc1 Hr2 ltac:(lia) Hrw) as (p2 & d2 & s2 & E2 & I2 & (L2 & A2 & _) & _). rewrite E2. cbn [bind].
  destruct (@rows3_lb T F c P HP p2 d2 depth rows cols I2 Hc1 Hc2 ltac:(lia)) as (p3 & d3 & E3 & I3 & (L3 & A3 & _)). rewrite E3. cbn [bind].
  eexists p3, d3, _. split; [reflexivity|]. split; [congruence|]. apply bad_all. intros q Hq.
  destruct (In_nth _ _ czero Hz) as (i & Hi & Ei). rewrite Hx in Hi. assert (Hq' : q < depth * rows * cols) by congruence.
  (* coordinates of the bad sample: plane a, row b, column k; of the output: plane a', row b', column k' *)
  assert (S : forall i, i < depth * rows * cols -> exists a b k, a < depth /\ b < rows /\ k < cols /\ i = (a * rows + b) * cols + k).
  { clear - Hc1 Hr1. intros i Hi. exists (i / cols / rows), ((i / cols) mod rows), (i mod cols). pose proof (Nat.div_mod_eq i cols). pose proof (Nat.div_mod_eq (i / cols) rows).
    assert (i / cols < depth * rows) by (apply Nat.div_lt_upper_bound; lia). split; [apply Nat.div_lt_upper_bound; lia|]. split; [apply Nat.mod_upper_bound; lia|]. split; [apply Nat.mod_upper_bound; lia|].
    replace (i / cols / rows * rows + (i / cols) mod rows) with (i / cols) by lia. lia. }
  destruct (S i Hi) as (a & b & k & Ha & Hbb & Hk & Di). destruct (S q Hq') as (a' & b' & k' & Ha' & Hb' & Hk' & Dq).
  assert (J : forall a b, a < depth -> b < rows -> a * rows + b < depth * rows) by (clear; intros; nia).
  rewrite Dq. replace ((a' * rows + b') * cols + k') with ((a' * rows + b') * cols + k' * 1) by lia. apply A3; [apply J; assumption| |exact Hk'].
  exists k. split; [exact Hk|].
  assert (V1 : forall d, d < depth -> tainted P (nth ((d * rows + b) * cols + k) d1 czero)).
  { intros d Hd. replace ((d * rows + b) * cols + k) with ((b * cols + k) + d * (rows * cols)) by ring. apply A1; [clear - Hbb Hk; nia| |exact Hd].
    exists a. split; [exact Ha|]. replace (b * cols + k + a * (rows * cols)) with i by (rewrite Di; ring). rewrite Ei. exact Hb. }
  assert (PS : plane_start rows cols (a' * cols + k) = a' * rows * cols + k) by (unfold plane_start; destruct (divmod_pair a' Hk) as [-> ->]; reflexivity).
  replace ((a' * rows + b') * cols + k * 1) with (plane_start rows cols (a' * cols + k) + b' * cols) by (rewrite PS; ring). apply A2; [clear - Ha' Hk; nia| |exact Hb'].
  exists b. split; [exact Hbb|]. rewrite PS. replace (a' * rows * cols + k + b * cols) with ((a' * rows + b) * cols + k) by ring. apply V1. exact Ha'.
Qed.
Print Assumptions C101_fft3d.

(* ---------- transforms by direct summation ---------- *)
Section Sums.
Context {T : Type} {F : Float T}.
Variable P : T -> Prop.
Hypothesis HP : absorbing F P.
Lemma sum_keeps (f : nat -> T -> T) l : forall i s, P s -> P (enum_sum f i l s).
Proof. induction l as [|a l IH]; intros i s H; cbn [enum_sum]; [exact H|]. apply IH, (ab_add HP). auto. Qed.
Lemma sum_bad (f : nat -> T -> T) l r : (forall i a, P a -> P (f i a)) -> In r l -> P r -> forall i s, P (enum_sum f i l s).
Proof.
  intros Hf. induction l as [|a l IH]; intros Hr Hb i s; [destruct Hr|]. cbn [enum_sum]. destruct Hr as [->|Hr]; [apply sum_keeps, (ab_add HP); right; apply Hf; exact Hb|apply IH; assumption].
Qed.
Lemma fill_bad n (f : nat -> exec T) : (forall k, k < n -> exists v, f k = Done v /\ P v) -> exists y, fill (zvec n) f = Done y /\ length y = n /\ forall v, In v y -> P v.
Proof.
  intros H. rewrite (@fill_tab T (zvec n) f (fun k => match f k with Done v => v | _ => fzero end)).
  - rewrite zvec_length. eexists. split; [reflexivity|]. split; [apply tab_length|]. intros v Hv. unfold tab in Hv. apply in_map_iff in Hv. destruct Hv as (k & <- & Hk). apply in_seq in Hk.
    destruct (H k ltac:(lia)) as (v & -> & Hv). exact Hv.
  - rewrite zvec_length. intros k Hk. destruct (H k Hk) as (v & -> & _). reflexivity.
Qed.
Lemma get0 (x : list T) r : In r x -> exists a l, x = a :: l /\ get x 0 = Done a.
Proof. destruct x as [|a l]; intros H; [destruct H|]. exists a, l. auto. Qed.
End Sums.
Lemma in_mid {A} (x : list A) i d : 0 < i -> i < length x - 1 -> In (nth i x d) (skipn 1 (firstn (length x - 1) x)).
Proof.
  intros H1 H2. assert (E : nth (i - 1) (skipn 1 (firstn (length x - 1) x)) d = nth i x d) by (rewrite nth_skipn, nth_firstn by lia; f_equal; lia).
  rewrite <- E. apply nth_In. rewrite skipn_length, firstn_length. lia.
Qed.
Lemma in_tail {A} (x : list A) i d : 0 < i -> i < length x -> In (nth i x d) (skipn 1 x).
Proof.
  intros H1 H2. assert (E : nth (i - 1) (skipn 1 x) d = nth i x d) by (rewrite nth_skipn; f_equal; lia).
  rewrite <- E. apply nth_In. rewrite skipn_length. lia.
Qed.
(* the nine direct sums *)
Theorem C101_sums : forall (T : Type) (F : Float T) (P : T -> Prop) (x : list T) r, absorbing F P -> In r x -> P r ->
  forall f, In f [@dct1 T F; @dct2 T F; @dct3 T F; @dct4 T F; @dst1 T F; @dst2 T F; @dst3 T F; @dst4 T F; @dht T F] ->
  exists y, f x = Done y /\ length y = length x /\ forall v, In v y -> P v.
Proof.
  intros T F P x r HP Hr Hb f Hf. pose proof (ab_mul HP) as pm. pose proof (ab_add HP) as pa. pose proof (ab_div HP) as pd. pose proof (ab_neg HP) as pn.
  destruct (In_nth x r fzero Hr) as (i & Hi & Ei).
  assert (D : forall k0 factor, (forall i a, P a -> P (fmul a (k0 i))) -> forall s, P (enum_sum (fun i v => fmul v (k0 i)) factor x s)) by (intros k0 n Hk s; apply (sum_bad HP) with (r := r); auto).
  assert (D3 : forall (k0 : nat -> T), exists x0, get x 0 = Done x0 /\ P (enum_sum (fun i v => fmul v (k0 i)) 1 (skipn 1 x) (fdiv x0 two))).
  { intros k0. exists (nth 0 x fzero). split; [apply get_nth; lia|]. destruct (Nat.eq_dec i 0) as [->|Hne].
    - apply (sum_keeps HP). apply pd. rewrite Ei. exact Hb.
    - apply (sum_bad HP) with (r := r); auto. rewrite <- Ei. apply in_tail; lia. }
  cbn [In] in Hf. repeat (destruct Hf as [<-|Hf]); [| | | | | | | | |destruct Hf].
  - unfold dct1. destruct x as [|a [|b l]]; [destruct Hr| |].
    + destruct Hr as [->|[]]. eexists. split; [reflexivity|]. split; [reflexivity|]. intros v [<-|[]]. auto.
    + set (x := a :: b :: l) in *. apply fill_bad. intros k Hk. unfold dct1_sum.
      rewrite (@get_nth _ x 0 fzero) by lia. cbn [bind]. rewrite (@get_nth _ x (length x - 1) fzero) by lia. cbn [bind]. eexists. split; [reflexivity|].
      destruct (Nat.eq_dec i 0) as [->|Hne]; [apply (sum_keeps HP), pa; left; rewrite Ei; exact Hb|].
      destruct (Nat.eq_dec i (length x - 1)) as [->|Hne2]; [apply (sum_keeps HP), pa; right; rewrite Ei; destruct (Nat.even k); auto|].
      apply (sum_bad HP) with (r := r); auto. rewrite <- Ei. apply in_mid; lia.
  - apply fill_bad. intros k Hk. eexists. split; [reflexivity|]. apply D. auto.
  - apply fill_bad. intros k Hk. unfold dct3_sum. edestruct D3 as (x0 & -> & H). cbn [bind]. eexists. split; [reflexivity|]. exact H.
  - apply fill_bad. intros k Hk. eexists. split; [reflexivity|]. apply D. auto.
  - apply fill_bad. intros k Hk. eexists. split; [reflexivity|]. apply D. auto.
  - apply fill_bad. intros k Hk. eexists. split; [reflexivity|]. apply D. auto.
  - apply fill_bad. intros k Hk. unfold dst3_sum. edestruct D3 as (x0 & -> & H). cbn [bind]. eexists. split; [reflexivity|]. exact H.
  - apply fill_bad. intros k Hk. eexists. split; [reflexivity|]. apply D. auto.
  - apply fill_bad. intros k Hk. eexists. split; [reflexivity|]. apply (sum_bad HP) with (r := r); auto.
Qed.
Print Assumptions C101_sums.
(* the chirp-z transform: both parts of every bin, for any w and a *)
Theorem C101_czt : forall (T : Type) (F : Float T) (X : FloatX T) (P : T -> Prop) (x : list T) m w a r, absorbing F P -> In r x -> P r ->
  forall z, In z (czt x m w a) -> P (re z) /\ P (im z).
Proof.
  intros T F X P x m w a r HP Hr Hb z Hz. pose proof (ab_mul HP) as pm. pose proof (ab_add HP) as pa. unfold czt, tab in Hz. apply in_map_iff in Hz. destruct Hz as (k & <- & _).
  enough (G : forall wk ai wnk ap o, P (re (czt_bin wk ai x wnk ap o)) /\ P (im (czt_bin wk ai x wnk ap o))) by apply G. intros wk ai.
  assert (K : forall l wnk ap o, P (re o) /\ P (im o) -> P (re (czt_bin wk ai l wnk ap o)) /\ P (im (czt_bin wk ai l wnk ap o))).
  { induction l as [|v l IH]; intros wnk ap o Ho; cbn [czt_bin]; [exact Ho|]. apply IH. cbn [re im]. destruct Ho. auto 10. }
  induction x as [|v l IH]; intros wnk ap o; [destruct Hr|]. cbn [czt_bin].
  destruct Hr as [->|Hr]; [apply K; cbn [re im]; auto 10|apply IH; exact Hr].
Qed.
Print Assumptions C101_czt.
(* Goertzel, when the square root keeps the property too *)
Theorem C101_goertzel : forall (T : Type) (F : Float T) (X : FloatX T) (P : T -> Prop) (x : list T) rate freq r, absorbing F P -> (forall a, P a -> P (fsqrt a)) ->
  In r x -> P r -> fleb rate fzero = false -> exists v, goertzel x rate freq = Ok v /\ P v.
Proof.
  intros T F X P x rate freq r HP HQ Hr Hb Hrate. pose proof (ab_mul HP) as pm. pose proof (ab_add HP) as pa. pose proof (ab_sub HP) as ps. unfold goertzel. destruct x as [|a0 l0] eqn:Ex; [destruct Hr|]. rewrite <- Ex in *. clear Ex a0 l0. rewrite Hrate.
  match goal with |- context [goertzel_step ?co] => set (coeff := co) end. clearbody coeff.
  assert (K : forall l s, P (fst s) -> P (fst (fold_left (goertzel_step coeff) l s))).
  { induction l as [|v l IH]; intros [s1 s2] Hs; cbn [fold_left]; [exact Hs|]. apply IH. cbn [goertzel_step fst] in *. auto 10. }
  assert (K2 : forall s, P (fst (fold_left (goertzel_step coeff) x s))).
  { clear Hrate. induction x as [|v l IH]; [destruct Hr|]. intros [s1 s2]. cbn [fold_left]. destruct Hr as [->|Hr]; [apply K; cbn [goertzel_step fst]; auto 10|apply IH; exact Hr]. }
  specialize (K2 (fzero, fzero)). destruct (fold_left (goertzel_step coeff) x (fzero, fzero)) as [s1 s2]. cbn [fst] in K2. eexists. split; [reflexivity|]. apply HQ. auto 10.
Qed.
Print Assumptions C101_goertzel.
(* the analytic signal: the bin at frequency 0 is kept by the mask *)
Theorem C101_hilbert : forall (T : Type) (F : Float T) (X : FloatX T) (P : T -> Prop) (c : cfg) (x : list T) r, absorbing F P -> is_pow2 (length x) = true -> In r x -> P r ->
  exists y, hilbert c x = Done (Ok y) /\ length y = length x /\ forall w, In w y -> tainted P w.
Proof.
  intros T F X P c x r HP Hp Hr Hb. assert (Hn : 0 < length x) by (destruct x; [destruct Hr|cbn; lia]).
  unfold hilbert, via_spectrum, pow2_check. destruct (Nat.eqb_spec (length x) 0); [lia|]. rewrite Hp. cbn [negb].
  assert (Lw : length (widen x) = length x) by apply map_length.
  destruct (@fft_all T F c P HP new_planner (widen x) (Inv_new c)) as (p & y & E & HI & L & B); [lia|right; rewrite Lw; exact Hp|].
  rewrite E. cbn [bind]. rewrite Lw in L.
  assert (By : all_bad P y). { apply B. exists (mkcx r fzero). split; [unfold widen; apply in_map_iff; exists r; auto|left; exact Hb]. }
  assert (OL : forall f lo hi l i, length (on_range (T := T) f lo hi i l) = length l) by (intros f lo hi; induction l as [|z l IH]; intros i; cbn [on_range length]; [reflexivity|f_equal; apply IH]).
  assert (O0 : forall f lo hi z (l : list (cx T)), 0 < lo -> exists l', on_range f lo hi 0 (z :: l) = z :: l').
  { intros f lo hi z l Hlo. cbn [on_range]. destruct (Nat.leb_spec lo 0); [lia|]. cbn [andb]. eauto. }
  assert (Lm : length (hilbert_mask (length x) y) = length x) by (unfold hilbert_mask; destruct (Nat.even (length x)); rewrite !OL; exact L).
  destruct (@ifft_bad T F c P HP p (hilbert_mask (length x) y) HI) as (p' & w & E' & L' & B'); [lia|right; rewrite Lm; exact Hp| |].
  - destruct y as [|z y']; [cbn in L; lia|]. exists z. split; [|apply By; left; reflexivity]. unfold hilbert_mask. destruct (Nat.even (length x)) eqn:Ev.
    + edestruct (O0 dbl 1) as [l1 E1]; [lia|]. rewrite E1. edestruct (O0 (fun _ => czero)) as [l2 E2]; [|rewrite E2; left; reflexivity]. lia.
    + edestruct (O0 dbl 1) as [l1 E1]; [lia|]. rewrite E1. edestruct (O0 (fun _ => czero)) as [l2 E2]; [|rewrite E2; left; reflexivity]. lia.
  - rewrite E'. cbn [bind]. exists w. split; [reflexivity|]. split; [congruence|exact B'].
Qed.
Print Assumptions C101_hilbert.
(* DCT-II through the real FFT (DctPlanner), whatever the planner has done, with the table of any longer length *)
Theorem C101_dct2_planner : forall (T : Type) (F : Float T) (P : T -> Prop) (c : cfg) (v : rpath) p (x out cs : list T) r, absorbing F P -> dreach c p ->
  length_ok c (length x) -> length out = length x -> length x <= length cs -> In r x -> P r ->
  exists p' y, dct2_with_table c v p x out cs = Done (p', y, ROk) /\ length y = length x /\ forall w, In w y -> P w.
Proof.
  intros T F P c v p x out cs r HP HD [Hn Hs] Ho Hcs Hr Hb. pose proof (ab_mul HP) as pm. pose proof (ab_add HP) as pa.
  destruct (dreach_inv HD) as [_ HR]. unfold dct2_with_table. rewrite Ho, Nat.eqb_refl. cbn [negb].
  destruct (slice_grow (dp_buf p) (2 * length x) fzero) as (b & Eb & Lb). rewrite Eb. cbn [bind].
  rewrite mirror_buf by exact Lb. cbn [bind].
  destruct (slice_grow (dp_spec p) (length x + 1) czero) as (s & Es & Ls). rewrite Es. cbn [bind].
  assert (Lm : length (mirrored x) = 2 * length x) by (unfold mirrored; rewrite app_length, rev_length; lia).
  assert (Ld : length (mirrored x) / 2 = length x) by (rewrite Lm, Nat.mul_comm; apply Nat.div_mul; lia).
  assert (Rn : reachable c (@new_planner T)) by (apply reachable_new).
  destruct (@C98_rfft T F P c v new_planner (dp_rfft p) (mirrored x) s r HP Rn HR) as (rp' & p' & y & E & Ly & B).
  - lia.
  - exists (length x). exact Lm.
  - rewrite Ld. exact Hs.
  - rewrite Ld. exact Ls.
  - unfold mirrored. apply in_or_app. left. exact Hr.
  - exact Hb.
  - rewrite E. cbn [bind]. rewrite Ld in Ly.
    match goal with |- context [for_range 0 (length x) ?body out] => destruct (@for_inv (list T) (fun i o => length o = length x /\ forall k, k < i -> P (nth k o fzero)) body 0 (length x) out) as (o & E' & Lo & Bo) end.
    + lia.
    + split; [exact Ho|lia].
    + intros k o Hk [Lo Bo]. rewrite (@get_nth _ y k czero) by lia. cbn [bind]. rewrite (@get_nth _ cs k fzero) by lia. cbn [bind]. rewrite set_ok by lia. eexists. split; [reflexivity|].
      split; [rewrite upd_length; exact Lo|]. intros i Hi. rewrite nth_upd by lia. destruct (Nat.eqb_spec i k) as [->|]; [|apply Bo; lia].
      assert (Bk : tainted P (nth k y czero)) by (apply B, nth_In; lia). destruct Bk; auto 10.
    + rewrite E'. cbn [bind]. eexists _, o. split; [reflexivity|]. split; [exact Lo|]. intros w Hw. destruct (In_nth _ _ fzero Hw) as (i & Hi & <-). apply Bo. lia.
Qed.
Print Assumptions C101_dct2_planner.
(* one level of the Haar wavelet: both coefficients of the sample's pair *)
Theorem C101_haar : forall (T : Type) (F : Float T) (P : T -> Prop) (x : list T) i, absorbing F P -> 2 * (i / 2) + 1 < length x -> P (nth i x fzero) ->
  exists avg diff, haar_forward x = Done (avg, diff) /\ i / 2 < length avg /\ length diff = length avg /\ P (nth (i / 2) avg fzero) /\ P (nth (i / 2) diff fzero).
Proof.
  intros T F P x i HP Hi Hb. rewrite haar_forward_ok. do 2 eexists. split; [reflexivity|]. rewrite !tab_length. assert (Hd : i / 2 < length x / 2) by lia. split; [exact Hd|]. split; [reflexivity|].
  rewrite !nth_tab by exact Hd. unfold hav, hdf. assert (C : i = 2 * (i / 2) \/ i = 2 * (i / 2) + 1) by lia.
  split; apply (ab_div HP); [apply (ab_add HP)|apply (ab_sub HP)]; destruct C as [C|C]; rewrite C in Hb; auto.
Qed.
Print Assumptions C101_haar.
(* not at every length: the last sample of an odd number is dropped, so a NaN there is hidden *)
Theorem C101_haar_odd_refuted : forall (f : fmt) (o : libm f), exists (x avg diff : list (num f)), In B754_nan x /\ haar_forward (F := ieee o) x = Done (avg, diff) /\ avg <> [] /\
  forall a, In a (avg ++ diff) -> is_finite a = true.
Proof.
  intros f o. exists [B754_zero false; B754_zero false; B754_nan]. rewrite haar_forward_ok. do 2 eexists. split; [right; right; left; reflexivity|]. split; [reflexivity|].
  split; [discriminate|]. intros a Ha. change (In a [@hav _ (ieee o) [B754_zero false; B754_zero false; B754_nan] 0; @hdf _ (ieee o) [B754_zero false; B754_zero false; B754_nan] 0]) in Ha.
  cbn [In] in Ha.
  clear - Ha. destruct f; destruct Ha as [<-|[<-|[]]]; vm_compute; reflexivity.
Qed.
Print Assumptions C101_haar_odd_refuted.
(* f32 and f64: infinities and NaN, through every one of the transforms; the square root of IEEE 754 *)
Theorem C101_ieee : forall (f : fmt) (o : libm f) (x : libx f), absorbing (ieee o) (fun a => is_finite a = false) /\ absorbing (ieee o) (fun a => is_nan a = true) /\
  (forall a, is_finite a = false -> is_finite (@fsqrt _ (ieeex x) a) = false) /\ (forall a, is_nan a = true -> is_nan (@fsqrt _ (ieeex x) a) = true).
Proof.
  intros f o x. split; [apply absorbing_nonfinite|]. split; [apply absorbing_nan|]. split; intros [s|s| |s m e B] H; try discriminate H; try reflexivity. destruct s; reflexivity.
Qed.
Print Assumptions C101_ieee.
(* an infinite sample in the middle of a 3 x 5 array, a 2 x 3 x 4 array and a signal of 8, on new objects *)
Example C101_example : let zero := B754_zero false : num B32 in let inf := B754_infinity false : num B32 in
  let g := fun n k => repeat (mkcx zero zero) k ++ mkcx inf zero :: repeat (mkcx zero zero) (n - 1 - k) in
  length_ok (cfg_std F32) 3 /\ length_ok (cfg_std F32) 5 /\ length (g 15 7) = 3 * 5 /\ length (g 24 11) = 2 * 3 * 4 /\ In (mkcx inf zero) (g 15 7) /\
  tainted (fun a => is_finite a = false) (mkcx inf zero) /\ length (repeat zero 3 ++ inf :: repeat zero 4) = 8 /\ is_pow2 8 = true /\ In inf (repeat zero 3 ++ inf :: repeat zero 4) /\ is_finite inf = false.
Proof.
  cbv zeta. unfold length_ok, tainted. repeat match goal with |- _ /\ _ => split end; try reflexivity; try (cbn; lia); try (left; reflexivity); try (right; reflexivity); apply in_or_app; right; left; reflexivity.
Qed.

(* Property C97: the Haar wavelet in IEEE arithmetic. *)
From Coq Require Import Reals Lra Lia ZArith.
From Flocq Require Import Core BinarySingleNaN.
From Verif Require Import M_wave L_wave P_wave L_err L_flx L_pi L_ierr L_ieee.
Set Implicit Arguments.

(* ---- specification ---- *)
Open Scope R_scope.
(* a whole number of steps 2^e, at most 2^m of them: 16-bit audio is graded 15 (-15) *)
Definition graded (f : fmt) (m e : Z) (x : num f) : Prop := fin x /\ exists k : Z, val x = IZR k * bpow radix2 e /\ (Z.abs k <= 2 ^ m)%Z.
(* the lengths for which the multi-level inverse does not panic (C40) *)
Definition levels_fit (n levels : nat) : Prop := forall j, (0 < j < levels)%nat -> Nat.even (Nat.iter j half_up n) = true.
(* the smallest subnormal number *)
Definition step_min (f : fmt) : R := bpow radix2 (3 - emaxf f - precf f).

(* ------------------------------------------------------------ what the loops do, for any arithmetic *)
Section Frame.
Context {T : Type} {F : Float T}.
Definition av (a b : T) : T := fdiv (fadd a b) (flit 2).
Definition df (a b : T) : T := fdiv (fsub a b) (flit 2).
Variables (L : nat) (I : nat -> T -> Prop) (E : nat -> T -> T -> Prop).
Hypothesis I_av : forall j a b, (j < L)%nat -> I j a -> I j b -> I (S j) (av a b).
Hypothesis E_top : forall x, I L x -> E L x x.
Hypothesis E_back : forall j a b y, (j < L)%nat -> I j a -> I j b -> E (S j) (av a b) y -> E j a (fadd y (df a b)) /\ E j b (fsub y (df a b)).
Lemma multi_frame levels : forall j x, (j + levels = L)%nat -> levels_fit (length x) levels ->
  (forall i, (i < length x)%nat -> I j (nth i x fzero)) ->
  exists a ds out, haar_forward_multi x levels = Done (a, ds) /\ haar_inverse_multi a ds = Done out /\
    length out = (if levels =? 0 then length x else 2 * half_up (length x))%nat /\
    (forall i, (i < length x)%nat -> E j (nth i x fzero) (nth i out fzero)).
Proof.
  unfold haar_forward_multi, haar_inverse_multi. induction levels as [|k IH]; intros j x Hj H HI; cbn [multi_forward].
  - exists x, [], x. repeat split. intros i Hi. replace j with L by lia. apply E_top. replace L with j by lia. apply HI, Hi.
  - set (p := pad_even x). assert (Lp : length p = (2 * half_up (length x))%nat) by apply pad_even_length.
    assert (HP : forall i, (i < length p)%nat -> I j (nth i p fzero)).
    { intros i Hi. unfold p. rewrite pad_even_nth. fold p. destruct (Nat.ltb_spec i (length x)) as [A|A]; [apply HI, A|].
      destruct (Nat.ltb_spec i (length p)); [|lia]. apply HI. destruct (length x); [|lia]. unfold half_up in Lp. cbn in Lp. lia. }
    rewrite haar_forward_ok. cbn [bind]. fold p. set (a := tab _ (hav _)). set (d := tab _ (hdf _)).
    assert (La : length a = half_up (length x)) by (unfold a; rewrite tab_length, Lp; symmetry; rewrite Nat.mul_comm; symmetry; apply Nat.div_mul; lia).
    assert (Ld : length d = half_up (length x)) by (unfold d; rewrite tab_length, Lp, Nat.mul_comm; apply Nat.div_mul; lia).
    assert (Na : forall i, (i < half_up (length x))%nat -> nth i a fzero = av (nth (2 * i) p fzero) (nth (2 * i + 1) p fzero)).
    { intros i Hi. unfold a. rewrite nth_tab; [reflexivity|]. rewrite <- La in Hi. unfold a in Hi. rewrite tab_length in Hi. exact Hi. }
    assert (Nd : forall i, (i < half_up (length x))%nat -> nth i d fzero = df (nth (2 * i) p fzero) (nth (2 * i + 1) p fzero)).
    { intros i Hi. unfold d. rewrite nth_tab; [reflexivity|]. rewrite <- Ld in Hi. unfold d in Hi. rewrite tab_length in Hi. exact Hi. }
    destruct (IH (S j) a) as (c & ds & out & E1 & E2 & Lo & HE); [lia| | |].
    { intros q Hq. rewrite La, <- iter_r. apply H. lia. }
    { intros i Hi. rewrite La in Hi. rewrite Na by exact Hi. apply I_av; [lia|apply HP; lia|apply HP; lia]. }
    rewrite E1. cbn [bind]. rewrite La in Lo, HE.
    assert (Lo' : length out = half_up (length x)).
    { rewrite Lo. destruct (Nat.eqb_spec k 0) as [|Hk]; [reflexivity|]. assert (Ev : Nat.even (half_up (length x)) = true) by (apply (H 1%nat); lia).
      apply even_half in Ev. unfold half_up at 1. assert (W : (forall q, (2 * q + 1) / 2 = q)%nat) by (intros q; rewrite Nat.mul_comm, Nat.div_add_l by lia; cbn; lia).
      rewrite Ev, W. lia. }
    exists c, (d :: ds). eexists. split; [reflexivity|]. rewrite multi_inverse_cons, E2. cbn [bind]. rewrite haar_inverse_ok by lia. split; [reflexivity|].
    rewrite tab_length, Lo'. split; [reflexivity|]. intros i Hi.
    assert (Hip : (i < 2 * half_up (length x))%nat) by (rewrite <- Lp; unfold p; rewrite pad_even_length; pose proof (Nat.div_mod_eq (length x + 1) 2); pose proof (Nat.mod_upper_bound (length x + 1) 2); lia).
    rewrite nth_tab by lia. replace (nth i x fzero) with (nth i p fzero) by (unfold p; rewrite pad_even_nth; destruct (Nat.ltb_spec i (length x)); [reflexivity|lia]).
    unfold hmg. set (q := (i / 2)%nat). assert (Hq : (q < half_up (length x))%nat) by (unfold q; apply Nat.div_lt_upper_bound; lia).
    destruct (@E_back j (nth (2 * q) p fzero) (nth (2 * q + 1) p fzero) (nth q out fzero)) as [B1 B2]; [lia|apply HP; lia|apply HP; lia|rewrite <- Na by exact Hq; apply HE, Hq|].
    rewrite Nd by exact Hq. destruct (Nat.even i) eqn:Ei.
    + replace i with (2 * q)%nat at 1 by (symmetry; apply even_half, Ei). exact B1.
    + replace i with (2 * q + 1)%nat at 1 by (symmetry; apply odd_half, Ei). exact B2.
Qed.
End Frame.

(* ------------------------------------------------------------ exact operations *)
Section Exact.
Variables (f : fmt) (o : libm f).
Local Notation G := (ieee o).
Local Notation prec := (precf f).
Local Notation emax := (emaxf f).
Local Notation emin := (3 - emaxf f - precf f)%Z.
Lemma two_ok : fin (@flit _ G 2%Q) /\ val (@flit _ G 2%Q) = 2. Proof. exact (lit2 o). Qed.
Lemma two_sign : Bsign (@flit _ G 2%Q) = false.
Proof. clear. cbn [flit ieee]. destruct f; vm_compute; reflexivity. Qed.
Lemma grid_format k q : (Z.abs k <= 2 ^ prec)%Z -> (emin <= q)%Z -> generic_format radix2 (SpecFloat.fexp prec emax) (IZR k * bpow radix2 q).
Proof.
  intros Hk Hq. apply (@generic_format_FLT radix2 (SpecFloat.emin prec emax) prec).
  assert (P : (0 < prec)%Z) by (clear; destruct f; reflexivity).
  destruct (Z.eq_dec (Z.abs k) (2 ^ prec)) as [A|A].
  - exists (Flocq.Core.Defs.Float radix2 (Z.sgn k) (prec + q)).
    + unfold F2R. cbn [Fnum Fexp]. rewrite bpow_plus, <- Rmult_assoc. f_equal. rewrite <- (IZR_Zpower radix2) by lia. rewrite <- mult_IZR. f_equal.
      change (Zpower radix2 prec) with (2 ^ prec)%Z. rewrite <- A. symmetry. rewrite Z.mul_comm. apply Z.abs_sgn.
    + cbn [Fnum]. apply Z.le_lt_trans with 1%Z; [lia|]. apply (Z.pow_gt_1 2); [lia|exact P].
    + cbn [Fexp]. unfold SpecFloat.emin. lia.
  - exists (Flocq.Core.Defs.Float radix2 k q); [reflexivity|cbn [Fnum]; change (Zpower radix2 prec) with (2 ^ prec)%Z; change (radix2 : Z) with 2%Z; lia|cbn [Fexp]; unfold SpecFloat.emin; lia].
Qed.
Lemma exact_rn r : generic_format radix2 (SpecFloat.fexp prec emax) r -> rn f r = r.
Proof. intros H. unfold rn. apply round_generic; [typeclasses eauto|exact H]. Qed.
(* signs of zero results *)
Lemma add_exact (a b : num f) r : fin a -> fin b -> val a + val b = r -> generic_format radix2 (SpecFloat.fexp prec emax) r -> Rabs r < bpow radix2 emax ->
  fin (@fadd _ G a b) /\ val (@fadd _ G a b) = r /\ (r = 0 -> Bsign (@fadd _ G a b) = (Bsign a && Bsign b)%bool).
Proof.
  intros Ha Hb Hr Hf Hm. cbn [fadd ieee]. pose proof (Bplus_correct prec emax (precf_pos f) (precf_emax f) mode_NE a b Ha Hb) as P.
  change (round radix2 (SpecFloat.fexp prec emax) (round_mode mode_NE) (B2R a + B2R b)) with (rn f (val a + val b)) in P.
  rewrite Hr, (exact_rn Hf), Rlt_bool_true in P by exact Hm. destruct P as (P1 & P2 & P3). split; [exact P2|]. split; [exact P1|]. intros Z.
  rewrite P3. change (B2R a + B2R b) with (val a + val b). rewrite Hr, Z, Rcompare_Eq by reflexivity. reflexivity.
Qed.
Lemma sub_exact (a b : num f) r : fin a -> fin b -> val a - val b = r -> generic_format radix2 (SpecFloat.fexp prec emax) r -> Rabs r < bpow radix2 emax ->
  fin (@fsub _ G a b) /\ val (@fsub _ G a b) = r /\ (r = 0 -> Bsign (@fsub _ G a b) = (Bsign a && negb (Bsign b))%bool).
Proof.
  intros Ha Hb Hr Hf Hm. cbn [fsub ieee]. pose proof (Bminus_correct prec emax (precf_pos f) (precf_emax f) mode_NE a b Ha Hb) as P.
  change (round radix2 (SpecFloat.fexp prec emax) (round_mode mode_NE) (B2R a - B2R b)) with (rn f (val a - val b)) in P.
  rewrite Hr, (exact_rn Hf), Rlt_bool_true in P by exact Hm. destruct P as (P1 & P2 & P3). split; [exact P2|]. split; [exact P1|]. intros Z.
  rewrite P3. change (B2R a - B2R b) with (val a - val b). rewrite Hr, Z, Rcompare_Eq by reflexivity. reflexivity.
Qed.
Lemma half_exact (a : num f) r : fin a -> val a / 2 = r -> generic_format radix2 (SpecFloat.fexp prec emax) r -> Rabs r < bpow radix2 emax ->
  fin (@fdiv _ G a (@flit _ G 2%Q)) /\ val (@fdiv _ G a (@flit _ G 2%Q)) = r /\ Bsign (@fdiv _ G a (@flit _ G 2%Q)) = Bsign a.
Proof.
  intros Ha Hr Hf Hm. destruct two_ok as [F2 V2]. set (t := @flit _ G 2%Q) in *. cbn [fdiv ieee].
  assert (Nz : B2R t <> 0) by (change (B2R t) with (val t); rewrite V2; lra).
  pose proof (Bdiv_correct prec emax (precf_pos f) (precf_emax f) mode_NE a t Nz) as P.
  change (round radix2 (SpecFloat.fexp prec emax) (round_mode mode_NE) (B2R a / B2R t)) with (rn f (val a / val t)) in P.
  rewrite V2, Hr, (exact_rn Hf), Rlt_bool_true in P by exact Hm. destruct P as (P1 & P2 & P3).
  assert (Fd : is_finite (Bdiv mode_NE a t) = true) by (rewrite P2; exact Ha).
  split; [exact Fd|]. split; [exact P1|]. rewrite P3; [|destruct (Bdiv mode_NE a t); try discriminate Fd; reflexivity].
  unfold t. rewrite two_sign. apply Bool.xorb_false_r.
Qed.
Lemma sign_neg (x : num f) : fin x -> Bsign x = true -> val x <= 0.
Proof.
  intros Hf Hs. destruct x as [s|s| |s m e H]; try discriminate Hf; [cbn; lra|]. cbn in Hs. subst s. unfold val, B2R. cbn [cond_Zopp].
  apply Rlt_le, F2R_lt_0. cbn. lia.
Qed.
Lemma sign_pos (x : num f) : fin x -> Bsign x = false -> 0 <= val x.
Proof.
  intros Hf Hs. destruct x as [s|s| |s m e H]; try discriminate Hf; [cbn; lra|]. cbn in Hs. subst s. unfold val, B2R. cbn [cond_Zopp].
  apply Rlt_le, F2R_gt_0. cbn. lia.
Qed.
Lemma same_bits (x y : num f) : fin x -> fin y -> val y = val x -> (val x = 0 -> Bsign y = true -> Bsign x = true) -> x <> B754_zero true -> y = x.
Proof.
  intros Hx Hy Hv Hs Hn. apply B2R_Bsign_inj; [exact Hy|exact Hx|exact Hv|].
  destruct (Bsign x) eqn:Sx, (Bsign y) eqn:Sy; try reflexivity.
  - pose proof (sign_neg Hx Sx). pose proof (sign_pos Hy Sy). assert (Z : val x = 0) by lra.
    exfalso. destruct x as [s|s| |s m e H']; try discriminate Hx.
    + cbn in Sx. subst s. apply Hn. reflexivity.
    + unfold val, B2R in Z. cbn in Sx. subst s. cbn [cond_Zopp] in Z. pose proof (@F2R_lt_0 radix2 (Flocq.Core.Defs.Float radix2 (- Zpos m) e) ltac:(cbn; lia)). cbn in *. lra.
  - assert (Z : val x = 0) by (pose proof (sign_neg Hy Sy); pose proof (sign_pos Hx Sx); lra). discriminate (Hs Z eq_refl).
Qed.
End Exact.

Theorem C97_lossless : forall (f : fmt) (o : libm f) (m e : Z) (levels : nat) (x : list (num f)),
  (0 <= m)%Z -> (m + Z.of_nat levels <= precf f)%Z -> (3 - emaxf f - precf f <= e - Z.of_nat levels)%Z -> (m + e + 1 < emaxf f)%Z ->
  (forall s, In s x -> graded m e s) -> levels_fit (length x) levels ->
  exists a ds out, haar_forward_multi (F := ieee o) x levels = Done (a, ds) /\ haar_inverse_multi (F := ieee o) a ds = Done out /\
    length out = (if levels =? 0 then length x else 2 * half_up (length x))%nat /\
    forall i s, nth_error x i = Some s -> exists r, nth_error out i = Some r /\ fin r /\ val r = val s /\ (s <> B754_zero true -> r = s).
Proof.
  intros f o m e levels x Hm Hp He Hx Hg Hl.
  set (I := fun (j : nat) (s : num f) => graded (m + Z.of_nat j) (e - Z.of_nat j) s).
  set (E := fun (j : nat) (s r : num f) => fin r /\ val r = val s /\ (val s = 0 -> Bsign r = true -> Bsign s = true)).
  assert (BIG : forall k j, (Z.abs k <= 2 ^ (m + Z.of_nat j + 1))%Z -> Rabs (IZR k * bpow radix2 (e - Z.of_nat j)) < bpow radix2 (emaxf f)).
  { intros k j Hk. rewrite Rabs_mult, <- abs_IZR, (Rabs_pos_eq (bpow radix2 _)) by apply bpow_ge_0.
    apply Rle_lt_trans with (bpow radix2 (m + Z.of_nat j + 1) * bpow radix2 (e - Z.of_nat j)).
    - apply Rmult_le_compat_r; [apply bpow_ge_0|]. rewrite <- (IZR_Zpower radix2) by lia. apply IZR_le. exact Hk.
    - rewrite <- bpow_plus. apply bpow_lt. lia. }
  assert (FMT : forall k j, (j < levels)%nat -> (Z.abs k <= 2 ^ (m + Z.of_nat j + 1))%Z -> generic_format radix2 (SpecFloat.fexp (precf f) (emaxf f)) (IZR k * bpow radix2 (e - Z.of_nat j)) /\ generic_format radix2 (SpecFloat.fexp (precf f) (emaxf f)) (IZR k * bpow radix2 (e - Z.of_nat (S j)))).
  { intros k j Hj Hk. assert (Z.abs k <= 2 ^ precf f)%Z by (eapply Z.le_trans; [exact Hk|]; apply Z.pow_le_mono_r; lia). split; apply grid_format; try assumption; lia. }
  assert (DBL : forall j, bpow radix2 (e - Z.of_nat j) = 2 * bpow radix2 (e - Z.of_nat (S j))).
  { intros j. change 2 with (bpow radix2 1). rewrite <- bpow_plus. f_equal. lia. }
  assert (GRO : forall j, (2 ^ (m + Z.of_nat j + 1) = 2 * 2 ^ (m + Z.of_nat j))%Z) by (intros j; rewrite Z.pow_add_r by lia; change (2 ^ 1)%Z with 2%Z; lia).
  (* both halves *)
  assert (AV : forall j a b, (j < levels)%nat -> I j a -> I j b -> I (S j) (av (F := ieee o) a b) /\ fin (df (F := ieee o) a b) /\
     val (av (F := ieee o) a b) = (val a + val b) / 2 /\ val (df (F := ieee o) a b) = (val a - val b) / 2 /\
     (val a + val b = 0 -> Bsign (av (F := ieee o) a b) = (Bsign a && Bsign b)%bool)).
  { intros j a b Hj [Fa (ka & Va & Ka)] [Fb (kb & Vb & Kb)].
    assert (K1 : (Z.abs (ka + kb) <= 2 ^ (m + Z.of_nat j + 1))%Z) by (rewrite GRO; lia).
    assert (K2 : (Z.abs (ka - kb) <= 2 ^ (m + Z.of_nat j + 1))%Z) by (rewrite GRO; lia).
    destruct (FMT (ka + kb)%Z j Hj K1) as [F1 F1']. destruct (FMT (ka - kb)%Z j Hj K2) as [F2 F2'].
    destruct (@add_exact f o a b (IZR (ka + kb) * bpow radix2 (e - Z.of_nat j))) as (A1 & A2 & A3); [assumption|assumption|rewrite Va, Vb, plus_IZR; ring|exact F1|apply BIG, K1|].
    destruct (@sub_exact f o a b (IZR (ka - kb) * bpow radix2 (e - Z.of_nat j))) as (S1 & S2 & S3); [assumption|assumption|rewrite Va, Vb, minus_IZR; ring|exact F2|apply BIG, K2|].
    assert (SM : forall k, (Z.abs k <= 2 ^ (m + Z.of_nat j + 1))%Z -> Rabs (IZR k * bpow radix2 (e - Z.of_nat (S j))) < bpow radix2 (emaxf f)) by (intros k Hk; apply BIG; eapply Z.le_trans; [exact Hk|apply Z.pow_le_mono_r; lia]).
    destruct (@half_exact f o (@fadd _ (ieee o) a b) (IZR (ka + kb) * bpow radix2 (e - Z.of_nat (S j)))) as (H1 & H2 & H3); [exact A1|rewrite A2, DBL; field|exact F1'|apply SM, K1|].
    destruct (@half_exact f o (@fsub _ (ieee o) a b) (IZR (ka - kb) * bpow radix2 (e - Z.of_nat (S j)))) as (J1 & J2 & J3); [exact S1|rewrite S2, DBL; field|exact F2'|apply SM, K2|].
    split; [|split; [|split; [|split]]].
    - split; [exact H1|]. exists (ka + kb)%Z. split; [exact H2|]. eapply Z.le_trans; [exact K1|apply Z.pow_le_mono_r; lia].
    - exact J1.
    - unfold av. rewrite H2, Va, Vb, plus_IZR, (DBL j). field.
    - unfold df. rewrite J2, Va, Vb, minus_IZR, (DBL j). field.
    - intros Z. unfold av. rewrite H3. apply A3. rewrite <- Z, Va, Vb, plus_IZR. ring. }
  assert (REP : forall j s, (j < levels)%nat -> I j s -> generic_format radix2 (SpecFloat.fexp (precf f) (emaxf f)) (val s) /\ Rabs (val s) < bpow radix2 (emaxf f)).
  { intros j s Hj [Fs (k & Vs & Ks)]. assert (K1 : (Z.abs k <= 2 ^ (m + Z.of_nat j + 1))%Z) by (rewrite GRO; lia). rewrite Vs. split; [apply (FMT k j Hj K1)|apply BIG, K1]. }
  destruct (@multi_frame _ (ieee o) levels I E) with (levels := levels) (j := 0%nat) (x := x) as (a & ds & out & E1 & E2 & Lo & HE).
  - intros j a b Hj Ha Hb. apply (AV j a b Hj Ha Hb).
  - intros s [Fs _]. split; [exact Fs|]. split; [reflexivity|]. auto.
  - intros j a b y Hj Ha Hb (Fy & Vy & Sy). destruct (AV j a b Hj Ha Hb) as ([Fv _] & Fd & Vv & Vd & Sv).
    destruct (REP j a Hj Ha) as [Ga Ba]. destruct (REP j b Hj Hb) as [Gb Bb].
    destruct (@add_exact f o y (df (F := ieee o) a b) (val a)) as (A1 & A2 & A3); [exact Fy|exact Fd|rewrite Vy, Vv, Vd; field|exact Ga|exact Ba|].
    destruct (@sub_exact f o y (df (F := ieee o) a b) (val b)) as (S1 & S2 & S3); [exact Fy|exact Fd|rewrite Vy, Vv, Vd; field|exact Gb|exact Bb|].
    split; (split; [assumption|split; [assumption|intros Z Hs]]).
    + rewrite (A3 Z) in Hs. apply andb_prop in Hs. destruct Hs as [Y D]. pose proof (sign_neg Fy Y). pose proof (sign_neg Fd D).
      assert (N : val a + val b = 0) by lra. assert (V0 : val (av (F := ieee o) a b) = 0) by (rewrite Vv, N; field).
      pose proof (Sy V0 Y) as W. rewrite (Sv N) in W. apply andb_prop in W. apply W.
    + rewrite (S3 Z) in Hs. apply andb_prop in Hs. destruct Hs as [Y D]. apply Bool.negb_true_iff in D. pose proof (sign_neg Fy Y). pose proof (sign_pos Fd D).
      assert (N : val a + val b = 0) by lra. assert (V0 : val (av (F := ieee o) a b) = 0) by (rewrite Vv, N; field).
      pose proof (Sy V0 Y) as W. rewrite (Sv N) in W. apply andb_prop in W. apply W.
  - reflexivity.
  - exact Hl.
  - intros i Hi. unfold I. rewrite Z.add_0_r, Z.sub_0_r. apply Hg, nth_In, Hi.
  - exists a, ds, out. split; [exact E1|]. split; [exact E2|]. split; [exact Lo|]. intros i s Hs.
    assert (Hi : (i < length x)%nat) by (apply nth_error_Some; congruence). pose proof (nth_error_nth x i (@fzero _ (ieee o)) Hs) as N.
    destruct (HE i Hi) as (Fr & Vr & Sr). rewrite N in Vr, Sr. exists (nth i out (@fzero _ (ieee o))). split; [|split; [exact Fr|split; [exact Vr|]]].
    + apply nth_error_nth'. rewrite Lo. destruct (levels =? 0); [exact Hi|]. unfold half_up. pose proof (Nat.div_mod_eq (length x + 1) 2). pose proof (Nat.mod_upper_bound (length x + 1) 2). lia.
    + apply same_bits; [apply Hg, nth_error_In with i, Hs|exact Fr|exact Vr|exact Sr].
Qed.
Print Assumptions C97_lossless.
(* 16-bit samples in f32 through nine levels, 24-bit samples in f64 through 29 *)
Theorem C97_pcm : forall (o : libm B32) (p : libm B64) (levels : nat) (x : list (num B32)) (y : list (num B64)),
  (forall s, In s x -> graded 15 (-15) s) -> (forall s, In s y -> graded 23 (-23) s) ->
  ((levels <= 9)%nat -> levels_fit (length x) levels -> exists a ds out, haar_forward_multi (F := ieee o) x levels = Done (a, ds) /\ haar_inverse_multi (F := ieee o) a ds = Done out /\
    forall i s, nth_error x i = Some s -> exists r, nth_error out i = Some r /\ val r = val s) /\
  ((levels <= 30)%nat -> levels_fit (length y) levels -> exists a ds out, haar_forward_multi (F := ieee p) y levels = Done (a, ds) /\ haar_inverse_multi (F := ieee p) a ds = Done out /\
    forall i s, nth_error y i = Some s -> exists r, nth_error out i = Some r /\ val r = val s).
Proof.
  intros o p levels x y Hx Hy. split; intros Hl Hf.
  - destruct (@C97_lossless B32 o 15 (-15) levels x) as (a & ds & out & E1 & E2 & _ & H); [lia|unfold precf, emaxf; lia|unfold precf, emaxf; lia|unfold precf, emaxf; lia|exact Hx|exact Hf|].
    exists a, ds, out. split; [exact E1|]. split; [exact E2|]. intros i s Hs. destruct (H i s Hs) as (r & R1 & _ & R2 & _). eauto.
  - destruct (@C97_lossless B64 p 23 (-23) levels y) as (a & ds & out & E1 & E2 & _ & H); [lia|unfold precf, emaxf; lia|unfold precf, emaxf; lia|unfold precf, emaxf; lia|exact Hy|exact Hf|].
    exists a, ds, out. split; [exact E1|]. split; [exact E2|]. intros i s Hs. destruct (H i s Hs) as (r & R1 & _ & R2 & _). eauto.
Qed.
Print Assumptions C97_pcm.

(* ------------------------------------------------------------ any signal: the error of a round trip *)
Section Err.
Variables (f : fmt) (o : libm f).
Local Notation G := (ieee o).
Lemma double_format (t : num f) : generic_format radix2 (SpecFloat.fexp (precf f) (emaxf f)) (2 * val t).
Proof.
  destruct (FLT_format_B2R (precf f) (emaxf f) (precf_pos f) t) as [g E1 E2 E3]. apply (@generic_format_FLT radix2 (SpecFloat.emin (precf f) (emaxf f)) (precf f)).
  exists (Flocq.Core.Defs.Float radix2 (Fnum g) (Fexp g + 1)); [|exact E2|cbn [Fexp]; lia].
  unfold val. rewrite E1. unfold F2R. cbn [Fnum Fexp]. rewrite bpow_plus. change (bpow radix2 1) with 2. ring.
Qed.
Lemma rn_le r B : generic_format radix2 (SpecFloat.fexp (precf f) (emaxf f)) B -> Rabs r <= B -> Rabs (rn f r) <= B.
Proof. intros HB H. unfold rn. apply abs_round_le_generic; [apply fexp_correct, precf_pos|typeclasses eauto|exact HB|exact H]. Qed.
Lemma step_eta : step_min f = 2 * etaf f.
Proof. unfold step_min, etaf, SpecFloat.emin. field. Qed.
(* one rounded operation of each kind, with its size kept *)
Lemma add_err (a b : num f) B : fin a -> fin b -> generic_format radix2 (SpecFloat.fexp (precf f) (emaxf f)) B -> B <= maxf f -> Rabs (val a + val b) <= B ->
  fin (@fadd _ G a b) /\ Rabs (val (@fadd _ G a b)) <= B /\ Rabs (val (@fadd _ G a b) - (val a + val b)) <= v0 f * Rabs (val a + val b) + etaf f.
Proof.
  intros Ha Hb HB HM H. cbn [fadd ieee]. pose proof (Bplus_correct (precf f) (emaxf f) (precf_pos f) (precf_emax f) mode_NE a b Ha Hb) as P.
  change (round radix2 (SpecFloat.fexp (precf f) (emaxf f)) (round_mode mode_NE) (B2R a + B2R b)) with (rn f (val a + val b)) in P. rewrite rn_fits in P by lra.
  destruct P as (P1 & P2 & _). split; [exact P2|]. match type of P1 with B2R ?z = _ => change (B2R z) with (val z) in P1 end. rewrite P1. split; [apply rn_le; assumption|apply rn_err].
Qed.
Lemma sub_err (a b : num f) B : fin a -> fin b -> generic_format radix2 (SpecFloat.fexp (precf f) (emaxf f)) B -> B <= maxf f -> Rabs (val a - val b) <= B ->
  fin (@fsub _ G a b) /\ Rabs (val (@fsub _ G a b)) <= B /\ Rabs (val (@fsub _ G a b) - (val a - val b)) <= v0 f * Rabs (val a - val b) + etaf f.
Proof.
  intros Ha Hb HB HM H. cbn [fsub ieee]. pose proof (Bminus_correct (precf f) (emaxf f) (precf_pos f) (precf_emax f) mode_NE a b Ha Hb) as P.
  change (round radix2 (SpecFloat.fexp (precf f) (emaxf f)) (round_mode mode_NE) (B2R a - B2R b)) with (rn f (val a - val b)) in P. rewrite rn_fits in P by lra.
  destruct P as (P1 & P2 & _). split; [exact P2|]. match type of P1 with B2R ?z = _ => change (B2R z) with (val z) in P1 end. rewrite P1. split; [apply rn_le; assumption|apply rn_err].
Qed.
Lemma half_err (a : num f) B : fin a -> generic_format radix2 (SpecFloat.fexp (precf f) (emaxf f)) B -> B <= maxf f -> Rabs (val a / 2) <= B ->
  fin (@fdiv _ G a (@flit _ G 2%Q)) /\ Rabs (val (@fdiv _ G a (@flit _ G 2%Q))) <= B /\ Rabs (val (@fdiv _ G a (@flit _ G 2%Q)) - val a / 2) <= v0 f * Rabs (val a / 2) + etaf f.
Proof.
  intros Ha HB HM H. destruct (two_ok o) as [F2 V2]. set (t := @flit _ G 2%Q) in *. cbn [fdiv ieee].
  assert (Nz : B2R t <> 0) by (change (B2R t) with (val t); rewrite V2; lra).
  pose proof (Bdiv_correct (precf f) (emaxf f) (precf_pos f) (precf_emax f) mode_NE a t Nz) as P.
  change (round radix2 (SpecFloat.fexp (precf f) (emaxf f)) (round_mode mode_NE) (B2R a / B2R t)) with (rn f (val a / val t)) in P.
  rewrite V2, rn_fits in P by lra. destruct P as (P1 & P2 & _). split; [unfold fin; rewrite P2; exact Ha|]. change (B2R (Bdiv mode_NE a t)) with (val (Bdiv mode_NE a t)) in P1. rewrite P1. split; [apply rn_le; assumption|apply rn_err].
Qed.
(* average and detail of two samples no larger than t *)
Lemma pair_err (t a b : num f) : fin t -> fin a -> fin b -> 2 * val t <= maxf f -> Rabs (val a) <= val t -> Rabs (val b) <= val t ->
  fin (av (F := G) a b) /\ Rabs (val (av (F := G) a b)) <= val t /\ Rabs (val (av (F := G) a b) - (val a + val b) / 2) <= 2 * v0 f * val t + 3 / 2 * etaf f /\
  fin (df (F := G) a b) /\ Rabs (val (df (F := G) a b)) <= val t /\ Rabs (val (df (F := G) a b) - (val a - val b) / 2) <= 2 * v0 f * val t + 3 / 2 * etaf f.
Proof.
  intros Ft Fa Fb Hm Ha Hb. pose proof (v0_pos f) as V. pose proof (Rabs_pos (val a)) as T0.
  assert (FT : generic_format radix2 (SpecFloat.fexp (precf f) (emaxf f)) (val t)) by apply generic_format_B2R.
  assert (H1 : Rabs (val a + val b) <= 2 * val t) by (eapply Rle_trans; [apply Rabs_triang|lra]).
  assert (H2 : Rabs (val a - val b) <= 2 * val t) by (eapply Rle_trans; [apply Rabs_triang|rewrite Rabs_Ropp; lra]).
  destruct (@add_err a b (2 * val t) Fa Fb (double_format t) Hm H1) as (A1 & A2 & A3).
  destruct (@sub_err a b (2 * val t) Fa Fb (double_format t) Hm H2) as (S1 & S2 & S3).
  assert (HH : forall r, Rabs r <= 2 * val t -> Rabs (r / 2) <= val t) by (intros r Hr; unfold Rdiv; rewrite Rabs_mult, (Rabs_pos_eq (/ 2)) by lra; lra).
  destruct (@half_err _ (val t) A1 FT ltac:(lra) (HH _ A2)) as (B1 & B2 & B3).
  destruct (@half_err _ (val t) S1 FT ltac:(lra) (HH _ S2)) as (D1 & D2 & D3).
  assert (Q : forall s r q, Rabs r <= 2 * val t -> Rabs s <= 2 * val t -> Rabs (s - r) <= v0 f * Rabs r + etaf f -> Rabs (q - s / 2) <= v0 f * Rabs (s / 2) + etaf f ->
     Rabs (q - r / 2) <= 2 * v0 f * val t + 3 / 2 * etaf f).
  { intros s r q Hr Hs E1 E2. replace (q - r / 2) with ((q - s / 2) + (s - r) / 2) by field. eapply Rle_trans; [apply Rabs_triang|].
    replace (Rabs ((s - r) / 2)) with (Rabs (s - r) / 2) by (unfold Rdiv; rewrite Rabs_mult, (Rabs_pos_eq (/ 2)) by lra; reflexivity).
    pose proof (HH s Hs). pose proof (Rmult_le_compat_l (v0 f) _ _ (Rlt_le _ _ V) H). pose proof (Rmult_le_compat_l (v0 f) _ _ (Rlt_le _ _ V) Hr). lra. }
  split; [exact B1|]. split; [exact B2|]. split; [apply (Q _ _ _ H1 A2 A3 B3)|]. split; [exact D1|]. split; [exact D2|apply (Q _ _ _ H2 S2 S3 D3)].
Qed.
End Err.

Theorem C97_error : forall (f : fmt) (o : libm f) (levels : nat) (x : list (num f)) (top : num f),
  (levels <= 1000)%nat -> fin top -> 4 * val top <= maxf f -> (forall s, In s x -> fin s /\ Rabs (val s) <= val top) -> levels_fit (length x) levels ->
  exists a ds out, haar_forward_multi (F := ieee o) x levels = Done (a, ds) /\ haar_inverse_multi (F := ieee o) a ds = Done out /\
    length out = (if levels =? 0 then length x else 2 * half_up (length x))%nat /\
    forall i s, nth_error x i = Some s -> exists r, nth_error out i = Some r /\ fin r /\
      Rabs (val r - val s) <= 6 * INR levels * (bpow radix2 (- precf f) * val top + step_min f).
Proof.
  intros f o levels x top HL Ft Hm Hs Hl. change (bpow radix2 (- precf f)) with (v0 f). set (t := val top) in *. set (u := v0 f). set (h := etaf f).
  pose proof (v0_pos f) as U. pose proof (v0_small f) as US. pose proof (etaf_pos f) as ET. fold u in U, US. fold h in ET. rewrite step_eta. fold h.
  assert (H1 : h <= / 1000000) by (unfold h, etaf, SpecFloat.emin; apply Rle_trans with (bpow radix2 (-20)); [apply Rle_trans with (bpow radix2 (3 - emaxf f - precf f)); [pose proof (bpow_gt_0 radix2 (3 - emaxf f - precf f)); lra|apply bpow_le; clear; destruct f; cbn; lia]|change (bpow radix2 (-20)) with (/ 1048576); lra]).
  pose proof (maxf_ge1 f) as M1.
  set (c := u * t + 2 * h).
  set (I := fun (_ : nat) (s : num f) => fin s /\ Rabs (val s) <= t).
  set (E := fun (j : nat) (s r : num f) => fin r /\ Rabs (val r - val s) <= 6 * INR (levels - j) * c).
  destruct (@multi_frame _ (ieee o) levels I E) with (levels := levels) (j := 0%nat) (x := x) as (a & ds & out & E1 & E2 & Lo & HE).
  - intros j a b _ [Fa Ha] [Fb Hb]. destruct (@pair_err f o top a b Ft Fa Fb ltac:(fold t; pose proof (Rabs_pos (val a)); lra) Ha Hb) as (P1 & P2 & _). split; assumption.
  - intros s [Fs _]. split; [exact Fs|]. rewrite Nat.sub_diag. replace (val s - val s) with 0 by ring. rewrite Rabs_R0. cbn [INR]. lra.
  - intros j a b y Hj [Fa Ha] [Fb Hb] [Fy Ey].
    assert (T0 : 0 <= t) by (pose proof (Rabs_pos (val a)); lra).
    destruct (@pair_err f o top a b Ft Fa Fb ltac:(fold t; lra) Ha Hb) as (Fv & Bv & Ev & Fd & Bd & Ed). fold t u h in Bv, Ev, Bd, Ed.
    set (v := val (av (F := ieee o) a b)) in *. set (d := val (df (F := ieee o) a b)) in *. set (k := INR (levels - S j)) in *.
    unfold E. replace (INR (levels - j)) with (k + 1) by (unfold k; rewrite <- S_INR; f_equal; lia).
    assert (K0 : 0 <= k) by apply pos_INR. assert (K1 : k <= 1000) by (unfold k; replace 1000 with (INR 1000) by (rewrite INR_IZR_INZ; reflexivity); apply le_INR; lia).
    assert (C0 : 0 <= c) by (unfold c; pose proof (Rmult_le_pos u t (Rlt_le _ _ U) T0); lra).
    (* the error before the last rounding *)
    set (e0 := 6 * k * c + 4 * u * t + 3 * h).
    assert (UT : u * t <= / 16777216 * t) by (apply Rmult_le_compat_r; assumption).
    assert (KC : k * c <= 1000 * c) by (apply Rmult_le_compat_r; assumption).
    assert (E0 : e0 <= t + / 10) by (unfold e0, c in *; lra).
    assert (E00 : 0 <= e0) by (unfold e0; pose proof (Rmult_le_pos k c K0 C0); pose proof (Rmult_le_pos u t (Rlt_le _ _ U) T0); lra).
    assert (W : forall z s, Rabs z <= t -> Rabs (s - z) <= e0 -> Rabs s <= maxf f).
    { intros z s Hz Hd. replace s with (z + (s - z)) by ring. eapply Rle_trans; [apply Rabs_triang|]. lra. }
    assert (MF : generic_format radix2 (SpecFloat.fexp (precf f) (emaxf f)) (maxf f)) by apply maxf_format.
    assert (LAST : forall z s q, Rabs z <= t -> Rabs (s - z) <= e0 -> Rabs (q - s) <= u * Rabs s + h -> Rabs (q - z) <= 6 * (k + 1) * c).
    { intros z s q Hz H2 H3. replace (q - z) with ((q - s) + (s - z)) by ring. eapply Rle_trans; [apply Rabs_triang|].
      assert (H4 : Rabs s <= t + e0) by (replace s with (z + (s - z)) by ring; eapply Rle_trans; [apply Rabs_triang|lra]).
      pose proof (Rmult_le_compat_l u _ _ (Rlt_le _ _ U) H4) as H5.
      assert (H6 : u * e0 <= u * t + h).
      { assert (u * e0 <= / 16777216 * e0) by (apply Rmult_le_compat_r; assumption).
        assert (e0 <= 6000 * (u * t + 2 * h) + 4 * (u * t) + 3 * h) by (unfold e0, c in *; lra). pose proof (Rmult_le_pos u t (Rlt_le _ _ U) T0). lra. }
      replace (6 * (k + 1) * c) with (6 * k * c + 6 * c) by ring. unfold e0 in *. unfold c at 2. lra. }
    assert (S1 : Rabs (val y + d - val a) <= e0).
    { replace (val y + d - val a) with ((val y - v) + ((v - (val a + val b) / 2) + (d - (val a - val b) / 2))) by field.
      eapply Rle_trans; [apply Rabs_triang|]. pose proof (Rabs_triang (v - (val a + val b) / 2) (d - (val a - val b) / 2)). unfold e0. fold v in Ey. lra. }
    assert (S2 : Rabs (val y - d - val b) <= e0).
    { replace (val y - d - val b) with ((val y - v) + ((v - (val a + val b) / 2) - (d - (val a - val b) / 2))) by field.
      eapply Rle_trans; [apply Rabs_triang|]. pose proof (Rabs_triang (v - (val a + val b) / 2) (- (d - (val a - val b) / 2))) as X. rewrite Rabs_Ropp in X. unfold e0. fold v in Ey. unfold Rminus at 2. lra. }
    destruct (@add_err f o y (df (F := ieee o) a b) (maxf f) Fy Fd MF (Rle_refl _) (W _ _ Ha S1)) as (A1 & _ & A3).
    destruct (@sub_err f o y (df (F := ieee o) a b) (maxf f) Fy Fd MF (Rle_refl _) (W _ _ Hb S2)) as (B1 & _ & B3).
    split; (split; [assumption|]); [apply (LAST _ _ _ Ha S1 A3)|apply (LAST _ _ _ Hb S2 B3)].
  - reflexivity.
  - exact Hl.
  - intros i Hi. apply Hs, nth_In, Hi.
  - exists a, ds, out. split; [exact E1|]. split; [exact E2|]. split; [exact Lo|]. intros i s Hi.
    assert (Hi' : (i < length x)%nat) by (apply nth_error_Some; congruence). pose proof (nth_error_nth x i (@fzero _ (ieee o)) Hi) as N.
    destruct (HE i Hi') as (Fr & Vr). rewrite N, Nat.sub_0_r in Vr. exists (nth i out (@fzero _ (ieee o))). split; [|split; [exact Fr|exact Vr]].
    apply nth_error_nth'. rewrite Lo. destruct (levels =? 0); [exact Hi'|]. unfold half_up. pose proof (Nat.div_mod_eq (length x + 1) 2). pose proof (Nat.mod_upper_bound (length x + 1) 2). lia.
Qed.
Print Assumptions C97_error.

(* ------------------------------------------------------------ perfect reconstruction fails in general *)
(* 1 and 2^-30: the small sample comes back as 0 *)
Theorem C97_any_signal_refuted : forall o : libm B32, exists (x a d out : list (num B32)) (s r : num B32),
  (forall s, In s x -> fin s /\ Rabs (val s) <= 1) /\ haar_forward (F := ieee o) x = Done (a, d) /\ haar_inverse (F := ieee o) a d = Done out /\
  nth_error x 1 = Some s /\ nth_error out 1 = Some r /\ 0 < val s /\ val r = 0.
Proof.
  intros o. set (x := [norm B32 1 0; norm B32 1 (-30)]).
  destruct (@SF_val B32 (norm B32 1 0) false 8388608 (-23)) as [F0 V0]; [vm_compute; reflexivity|].
  destruct (@SF_val B32 (norm B32 1 (-30)) false 8388608 (-53)) as [F1 V1]; [vm_compute; reflexivity|].
  cbn [cond_Zopp] in V0, V1. change (bpow radix2 (-23)) with (/ 8388608) in V0. change (bpow radix2 (-53)) with (/ 9007199254740992) in V1.
  pose proof (haar_forward_ok (F := ieee o) x) as E. change (length x / 2)%nat with 1%nat in E.
  exists x. do 2 eexists. eexists. exists (norm B32 1 (-30)). eexists. split; [|split; [exact E|]].
  - intros s [<-|[<-|[]]]; (split; [assumption|]); [rewrite V0|rewrite V1]; rewrite Rabs_pos_eq; lra.
  - rewrite haar_inverse_ok by (rewrite !tab_length; lia). rewrite tab_length. split; [reflexivity|]. split; [reflexivity|]. split; [reflexivity|]. split; [rewrite V1; lra|].
    assert (Z : B2SF (hmg (F := ieee o) (tab 1 (hav (F := ieee o) x)) (tab 1 (hdf (F := ieee o) x)) 1) = SpecFloat.S754_zero false) by (vm_compute; reflexivity).
    unfold val. rewrite <- SF2R_B2SF. rewrite Z. reflexivity.
Qed.
Print Assumptions C97_any_signal_refuted.
(* two samples of the largest finite number: neither comes back as a number *)
Theorem C97_overflow_refuted : forall o : libm B32, exists (x a d out : list (num B32)),
  (forall s, In s x -> fin s) /\ haar_forward (F := ieee o) x = Done (a, d) /\ haar_inverse (F := ieee o) a d = Done out /\ length out = 2%nat /\ forall r, In r out -> ~ fin r.
Proof.
  intros o. set (x := [norm B32 16777215 104; norm B32 16777215 104]).
  pose proof (haar_forward_ok (F := ieee o) x) as E. change (length x / 2)%nat with 1%nat in E.
  exists x. do 2 eexists. eexists. split; [|split; [exact E|]].
  - intros s [<-|[<-|[]]]; vm_compute; reflexivity.
  - rewrite haar_inverse_ok by (rewrite !tab_length; lia). rewrite tab_length. split; [reflexivity|]. split; [reflexivity|].
    assert (Z : forall i, (i < 2)%nat -> is_finite_SF (B2SF (hmg (F := ieee o) (tab 1 (hav (F := ieee o) x)) (tab 1 (hdf (F := ieee o) x)) i)) = false).
    { intros [|[|i]] Hi; [vm_compute; reflexivity|vm_compute; reflexivity|lia]. }
    intros r Hr Fr. unfold fin in Fr. rewrite <- is_finite_SF_B2SF in Fr. destruct Hr as [<-|[<-|[]]]; [rewrite (Z 0%nat) in Fr by lia|rewrite (Z 1%nat) in Fr by lia]; discriminate Fr.
Qed.
Print Assumptions C97_overflow_refuted.

(* eight 16-bit samples with a silent one, three levels *)
Definition pcm (k : Z) : num B32 := norm B32 k (-15).
Definition tune8 : list (num B32) := map pcm [32767; -32768; 1; 0; 7; -9; 12345; -1]%Z.
Lemma pcm_graded k : (Z.abs k <= 2 ^ 15)%Z -> graded 15 (-15) (pcm k).
Proof.
  intros Hk. unfold pcm. assert (P : fin (norm B32 k (-15)) /\ val (norm B32 k (-15)) = rn B32 (IZR k * bpow radix2 (-15))).
  { apply norm_ok; [reflexivity|]. rewrite Rabs_mult, <- abs_IZR, (Rabs_pos_eq (bpow _ _)) by apply bpow_ge_0. apply IZR_le in Hk. change (IZR (2 ^ 15)) with 32768 in Hk.
    change (bpow radix2 (-15)) with (/ 32768). pose proof (maxf_ge1 B32). lra. }
  destruct P as [P1 P2]. split; [exact P1|]. exists k. split; [|exact Hk]. rewrite P2. apply exact_rn. apply grid_format; [cbn [precf]; eapply Z.le_trans; [exact Hk|]; cbn; lia|cbn; lia].
Qed.
Example C97_example : (forall s, In s tune8 -> graded 15 (-15) s) /\ levels_fit (length tune8) 3 /\ (forall s, In s tune8 -> s <> B754_zero true) /\
  4 * val (pcm 32768) <= maxf B32 /\ (forall s, In s tune8 -> fin s /\ Rabs (val s) <= val (pcm 32768)).
Proof.
  assert (G : forall s, In s tune8 -> graded 15 (-15) s) by (intros s Hs; apply in_map_iff in Hs; destruct Hs as (k & <- & Hk); apply pcm_graded; cbn in Hk; decompose [or] Hk; subst; try contradiction; cbn; lia).
  assert (T : val (pcm 32768) = 1).
  { destruct (@SF_val B32 (pcm 32768) false 8388608 (-23)) as [F0 V0]; [vm_compute; reflexivity|]. rewrite V0. cbn [cond_Zopp]. change (bpow radix2 (-23)) with (/ 8388608). lra. }
  split; [exact G|]. split; [|split; [|split]].
  - intros j Hj. assert (j = 1 \/ j = 2)%nat as [->| ->] by lia; reflexivity.
  - intros s Hs E. apply in_map_iff in Hs. destruct Hs as (k & <- & Hk). apply (f_equal (@B2SF _ _)) in E. revert E. cbn in Hk. decompose [or] Hk; subst; try contradiction; vm_compute; discriminate.
  - rewrite T. eapply Rle_trans; [|apply maxf_big]. assert (A : bpow radix2 2 <= bpow radix2 (emaxf B32 - 1)) by (apply bpow_le; cbn; lia). change (bpow radix2 2) with 4 in A. pose proof (bpow_gt_0 radix2 (emaxf B32 - 2)). lra.
  - intros s Hs. destruct (G s Hs) as [Fs (k & Vs & Hk)]. split; [exact Fs|]. rewrite T, Vs, Rabs_mult, <- abs_IZR, (Rabs_pos_eq (bpow _ _)) by apply bpow_ge_0.
    apply IZR_le in Hk. change (IZR (2 ^ 15)) with 32768 in Hk. change (bpow radix2 (-15)) with (/ 32768). lra.
Qed.

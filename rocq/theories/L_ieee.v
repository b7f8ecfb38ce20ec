(* IEEE binary32 and binary64 (Flocq's binary_float): infinities, NaN and gradual underflow included, round to nearest even. *)
From Coq Require Import Reals Lra Lia ZArith Qreals.
From Flocq Require Import Core Relative BinarySingleNaN.
From Verif Require Import L_err L_flx L_pi L_ierr.
Set Implicit Arguments.
Open Scope R_scope.

Inductive fmt := B32 | B64.
Definition precf (f : fmt) : Z := match f with B32 => 24 | B64 => 53 end.
Definition emaxf (f : fmt) : Z := match f with B32 => 128 | B64 => 1024 end.
#[global] Instance precf_pos f : Prec_gt_0 (precf f). Proof. destruct f; reflexivity. Qed.
#[global] Instance precf_emax f : Prec_lt_emax (precf f) (emaxf f). Proof. destruct f; reflexivity. Qed.
Definition num (f : fmt) : Type := binary_float (precf f) (emaxf f).
Definition norm (f : fmt) (m e : Z) : num f := binary_normalize (precf f) (emaxf f) (precf_pos f) (precf_emax f) mode_NE m e false.
(* x as f64 / x as f32 for an f32 x (src/num.rs 47-49, 84-86) *)
Definition conv (f : fmt) (x : num B32) : num f :=
  match x with
  | B754_zero s => B754_zero s
  | B754_infinity s => B754_infinity s
  | B754_nan => B754_nan
  | B754_finite s m e _ => binary_normalize (precf f) (emaxf f) (precf_pos f) (precf_emax f) mode_NE (cond_Zopp s (Zpos m)) e s
  end.
(* sin, cos and printing are taken from outside *)
Record libm (f : fmt) := { o_sin : num f -> num f; o_cos : num f -> num f; o_sincos : num f -> num f * num f; o_reparse : num f -> num f }.
(* src/num.rs 39-102. A literal is the quotient of its numerator and denominator, rounded once; that is Rust's reading of it when both
   are exact in binary32, as they are for every literal of the code the IEEE theorems speak of (not for the db4, sym4 and coif1 taps);
   pi is f32::consts::PI = 13176795 / 2^22 or f64::consts::PI = 7074237752028440 / 2^51. *)
Definition ieee (f : fmt) (o : libm f) : Float (num f) := {|
  fzero := B754_zero false; fone := norm f 1 0;
  fadd := Bplus mode_NE; fsub := Bminus mode_NE; fmul := Bmult mode_NE; fdiv := Bdiv mode_NE;
  fneg := @Bopp _ _; fmul_add := Bfma mode_NE;
  fcos := o_cos o; fsin := o_sin o; fsin_cos := o_sincos o;
  fpi := match f return num f with B32 => norm B32 13176795 (-22) | B64 => norm B64 7074237752028440 (-51) end;
  fofnat := fun n => conv f (norm B32 (Z.of_nat n) 0); fas := fun n => norm f (Z.of_nat n) 0; freparse := o_reparse o;
  flit := fun q => conv f (Bdiv mode_NE (norm B32 (Qnum q) 0) (norm B32 (Zpos (Qden q)) 0));
  fk707 := conv f (norm B32 11863283 (-24)); fk924 := conv f (norm B32 15500126 (-24)); fk383 := conv f (norm B32 12840725 (-25)) |}.

Section Ieee.
Variable f : fmt.
Local Notation prec := (precf f).
Local Notation emax := (emaxf f).
Local Notation emin := (SpecFloat.emin prec emax).
Definition fin (x : num f) : Prop := is_finite x = true.
Definition val (x : num f) : R := B2R x.
Definition rn (r : R) : R := round radix2 (SpecFloat.fexp prec emax) ZnearestE r.
Definition v0 : R := bpow radix2 (- prec).
Definition etaf : R := / 2 * bpow radix2 emin.
(* largest finite number *)
Definition maxf : R := (bpow radix2 prec - 1) * bpow radix2 (emax - prec).
Lemma v0_pos : 0 < v0. Proof. apply bpow_gt_0. Qed.
Lemma v0_small : v0 <= / 16777216.
Proof. unfold v0. apply Rle_trans with (bpow radix2 (Z.opp 24)); [apply bpow_le; destruct f; cbn; lia|]. right. reflexivity. Qed.
Lemma etaf_pos : 0 < etaf. Proof. unfold etaf. pose proof (bpow_gt_0 radix2 emin). lra. Qed.
Lemma rn_err r : Rabs (rn r - r) <= v0 * Rabs r + etaf.
Proof.
  destruct (@error_N_FLT radix2 emin prec (precf_pos f) (fun t => negb (Z.even t)) r) as (e & h & He & Hh & _ & E).
  unfold rn. change (SpecFloat.fexp prec emax) with (FLT_exp emin prec). rewrite E.
  replace (r * (1 + e) + h - r) with (e * r + h) by ring. eapply Rle_trans; [apply Rabs_triang|]. rewrite Rabs_mult.
  assert (E0 : / 2 * bpow radix2 (- prec + 1) = v0). { unfold v0. rewrite bpow_plus. change (bpow radix2 1) with 2. field. }
  rewrite E0 in He. unfold etaf. pose proof (Rabs_pos r). apply Rplus_le_compat; [apply Rmult_le_compat_r; assumption|exact Hh].
Qed.
Lemma maxf_format : generic_format radix2 (SpecFloat.fexp prec emax) maxf.
Proof.
  apply (@generic_format_FLT radix2 emin prec). exists (Flocq.Core.Defs.Float radix2 (2 ^ prec - 1) (emax - prec)).
  - unfold maxf, F2R. cbn [Fnum Fexp]. rewrite minus_IZR. f_equal. f_equal. destruct f; reflexivity.
  - cbn [Fnum]. destruct f; reflexivity.
  - cbn [Fexp]. destruct f; cbn; lia.
Qed.
Lemma maxf_lt : maxf < bpow radix2 emax.
Proof.
  unfold maxf. replace (bpow radix2 emax) with (bpow radix2 prec * bpow radix2 (emax - prec)) by (rewrite <- bpow_plus; f_equal; lia).
  pose proof (bpow_gt_0 radix2 (emax - prec)). lra.
Qed.
Lemma maxf_big : bpow radix2 (emax - 1) + bpow radix2 (emax - 2) <= maxf.
Proof.
  unfold maxf. replace (bpow radix2 (emax - 1)) with (bpow radix2 (prec - 1) * bpow radix2 (emax - prec)) by (rewrite <- bpow_plus; f_equal; lia).
  replace (bpow radix2 (emax - 2)) with (bpow radix2 (prec - 2) * bpow radix2 (emax - prec)) by (rewrite <- bpow_plus; f_equal; lia).
  replace (bpow radix2 (prec - 1)) with (bpow radix2 prec / 2) by (unfold Zminus; rewrite bpow_plus; reflexivity).
  replace (bpow radix2 (prec - 2)) with (bpow radix2 prec / 4) by (unfold Zminus; rewrite bpow_plus; reflexivity).
  assert (4 <= bpow radix2 prec). { change 4 with (bpow radix2 2). apply bpow_le. destruct f; cbn; lia. }
  pose proof (bpow_gt_0 radix2 (emax - prec)). nra.
Qed.
Lemma maxf_ge1 : 1 <= maxf.
Proof.
  pose proof maxf_big. pose proof (bpow_gt_0 radix2 (emax - 2)). assert (1 <= bpow radix2 (emax - 1)); [|lra].
  change 1 with (bpow radix2 0). apply bpow_le. destruct f; cbn; lia.
Qed.
Lemma rn_fits r : Rabs r <= maxf -> Rlt_bool (Rabs (rn r)) (bpow radix2 emax) = true.
Proof.
  intros H. apply Rlt_bool_true. eapply Rle_lt_trans; [|exact maxf_lt]. unfold rn.
  apply abs_round_le_generic; [apply fexp_correct, precf_pos|typeclasses eauto|exact maxf_format|exact H].
Qed.
Lemma norm_ok m e r : r = F2R (Flocq.Core.Defs.Float radix2 m e) -> Rabs r <= maxf -> fin (norm f m e) /\ val (norm f m e) = rn r.
Proof.
  intros -> H. pose proof (binary_normalize_correct prec emax (precf_pos f) (precf_emax f) mode_NE m e false) as P. cbv zeta in P.
  change (round radix2 (SpecFloat.fexp prec emax) (round_mode mode_NE) (F2R (Flocq.Core.Defs.Float radix2 m e))) with (rn (F2R (Flocq.Core.Defs.Float radix2 m e))) in P.
  rewrite (rn_fits _ H) in P. destruct P as (P1 & P2 & _). split; assumption.
Qed.
Lemma conv_ok (x : num B32) : is_finite x = true -> fin (conv f x) /\ val (conv f x) = B2R x.
Proof.
  destruct x as [s|s| |s m e Hb]; intros Hx; try discriminate Hx; [split; reflexivity|].
  set (x := B754_finite s m e Hb : num B32) in *. cbn [conv x].
  pose proof (binary_normalize_correct prec emax (precf_pos f) (precf_emax f) mode_NE (cond_Zopp s (Zpos m)) e s) as P. cbv zeta in P.
  assert (FM : generic_format radix2 (SpecFloat.fexp prec emax) (B2R x)).
  { pose proof (FLT_format_B2R 24 128 eq_refl x) as Q. destruct Q as [g E1 E2 E3]. apply (@generic_format_FLT radix2 emin prec). exists g; [exact E1| |].
    - eapply Z.lt_le_trans; [exact E2|]. destruct f; cbn; lia.
    - eapply Z.le_trans; [|exact E3]. destruct f; cbn; lia. }
  change (F2R (Flocq.Core.Defs.Float radix2 (cond_Zopp s (Z.pos m)) e)) with (B2R x) in P.
  rewrite round_generic in P; [|typeclasses eauto|exact FM].
  rewrite Rlt_bool_true in P.
  - destruct P as (P1 & P2 & _). split; assumption.
  - eapply Rlt_le_trans; [exact (abs_B2R_lt_emax 24 128 x)|]. apply bpow_le. destruct f; cbn; lia.
Qed.
Variable o : libm f.
Local Notation G := (ieee o).
Lemma one_ok : fin (@fone _ G) /\ val (@fone _ G) = 1.
Proof.
  destruct (@norm_ok 1 0 1) as [F E]; [unfold F2R; cbn; ring|rewrite Rabs_R1; exact maxf_ge1|]. split; [exact F|]. cbn [fone ieee]. rewrite E.
  unfold rn. apply round_generic; [typeclasses eauto|]. change 1 with (bpow radix2 0). apply (@generic_format_bpow radix2 (FLT_exp emin prec)). unfold FLT_exp. clear F E; clear o. destruct f; cbn; lia.
Qed.
Theorem ieee_bounded : L_ierr.bounded G fin val v0 etaf maxf.
Proof.
  pose proof v0_pos. pose proof v0_small. pose proof etaf_pos.
  split; [lra|lra|split; reflexivity|exact one_ok| | | | | |].
  - intros a Ha. cbn [fneg ieee]. unfold fin, val. rewrite is_finite_Bopp, B2R_Bopp. split; [exact Ha|reflexivity].
  - intros a b Ha Hb Hr. cbn [fadd ieee]. pose proof (Bplus_correct prec emax (precf_pos f) (precf_emax f) mode_NE a b Ha Hb) as P.
    change (round radix2 (SpecFloat.fexp prec emax) (round_mode mode_NE) (B2R a + B2R b)) with (rn (val a + val b)) in P. rewrite (rn_fits _ Hr) in P.
    destruct P as (P1 & P2 & _). split; [exact P2|]. unfold val at 1. rewrite P1. apply rn_err.
  - intros a b Ha Hb Hr. cbn [fsub ieee]. pose proof (Bminus_correct prec emax (precf_pos f) (precf_emax f) mode_NE a b Ha Hb) as P.
    change (round radix2 (SpecFloat.fexp prec emax) (round_mode mode_NE) (B2R a - B2R b)) with (rn (val a - val b)) in P. rewrite (rn_fits _ Hr) in P.
    destruct P as (P1 & P2 & _). split; [exact P2|]. unfold val at 1. rewrite P1. apply rn_err.
  - intros a b Ha Hb Hr. cbn [fmul ieee]. pose proof (Bmult_correct prec emax (precf_pos f) (precf_emax f) mode_NE a b) as P.
    change (round radix2 (SpecFloat.fexp prec emax) (round_mode mode_NE) (B2R a * B2R b)) with (rn (val a * val b)) in P. rewrite (rn_fits _ Hr) in P.
    destruct P as (P1 & P2 & _). split; [unfold fin in *; rewrite P2, Ha, Hb; reflexivity|]. unfold val at 1. rewrite P1. apply rn_err.
  - intros a b Ha Hb Hz Hr. cbn [fdiv ieee]. pose proof (Bdiv_correct prec emax (precf_pos f) (precf_emax f) mode_NE a b Hz) as P.
    change (round radix2 (SpecFloat.fexp prec emax) (round_mode mode_NE) (B2R a / B2R b)) with (rn (val a / val b)) in P. rewrite (rn_fits _ Hr) in P.
    destruct P as (P1 & P2 & _). split; [unfold fin in *; rewrite P2, Ha; reflexivity|]. unfold val at 1. rewrite P1. apply rn_err.
  - intros a b d Ha Hb Hd Hr. cbn [fmul_add ieee]. pose proof (Bfma_correct prec emax (precf_pos f) (precf_emax f) mode_NE a b d Ha Hb Hd) as P. cbv zeta in P.
    change (round radix2 (SpecFloat.fexp prec emax) (round_mode mode_NE) (B2R a * B2R b + B2R d)) with (rn (val a * val b + val d)) in P. rewrite (rn_fits _ Hr) in P.
    destruct P as (P1 & P2 & _). split; [exact P2|]. unfold val at 1. rewrite P1. apply rn_err.
Qed.
End Ieee.

(* ---------- constants ---------- *)
Section Const.
Variables (f : fmt) (o : libm f).
Local Notation G := (ieee o).
Lemma SF_val (x : num f) s m e : B2SF x = SpecFloat.S754_finite s m e -> fin x /\ val x = IZR (cond_Zopp s (Zpos m)) * bpow radix2 e.
Proof. intros H. unfold fin, val. rewrite <- SF2R_B2SF, <- is_finite_SF_B2SF, H. split; reflexivity. Qed.
Lemma nat_val n : INR n <= bpow radix2 100 -> fin (@fofnat _ G n) /\ val (@fofnat _ G n) = r24 (INR n).
Proof.
  intros H. cbn [fofnat ieee]. pose proof (pos_INR n) as H0.
  assert (P : fin (norm B32 (Z.of_nat n) 0) /\ val (norm B32 (Z.of_nat n) 0) = rn B32 (INR n)).
  { apply norm_ok; [unfold F2R; cbn [Fnum Fexp]; rewrite <- INR_IZR_INZ; cbn; ring|]. rewrite Rabs_pos_eq by exact H0. eapply Rle_trans; [exact H|].
    eapply Rle_trans; [|apply maxf_big]. pose proof (bpow_gt_0 radix2 (emaxf B32 - 2)). assert (bpow radix2 100 <= bpow radix2 (emaxf B32 - 1)) by (apply bpow_le; cbn; lia). lra. }
  destruct P as [P1 P2]. destruct (conv_ok f _ P1) as [F E]. split; [exact F|]. rewrite E. change (B2R (norm B32 (Z.of_nat n) 0)) with (val (norm B32 (Z.of_nat n) 0)). rewrite P2.
  unfold rn, r24. destruct n as [|n]; [cbn [INR]; rewrite !round_0; [reflexivity| |]; typeclasses eauto|].
  apply (@round_FLT_FLX radix2 (SpecFloat.emin 24 128) 24). rewrite Rabs_pos_eq by exact H0.
  apply Rle_trans with 1; [change 1 with (bpow radix2 0); apply bpow_le; cbn; lia|]. rewrite S_INR. pose proof (pos_INR n). lra.
Qed.
Lemma nat_pow2 n : is_pow2 n = true -> INR n <= bpow radix2 100 -> fin (@fofnat _ G n) /\ val (@fofnat _ G n) = INR n.
Proof.
  intros Hp H. destruct (@nat_val n H) as [F E]. split; [exact F|]. rewrite E. apply is_pow2_iff in Hp. destruct Hp as [L ->]. rewrite INR_pow2. apply r24_bpow.
Qed.
Lemma lit2 : fin (@flit _ G 2%Q) /\ val (@flit _ G 2%Q) = 2.
Proof.
  assert (P : fin (Bdiv mode_NE (norm B32 2 0) (norm B32 1 0) : num B32) /\ val (Bdiv mode_NE (norm B32 2 0) (norm B32 1 0) : num B32) = 2).
  { unfold fin, val. rewrite <- SF2R_B2SF, <- is_finite_SF_B2SF. assert (E : B2SF (Bdiv mode_NE (norm B32 2 0) (norm B32 1 0)) = SpecFloat.S754_finite false 8388608 (-22)) by (vm_compute; reflexivity).
    rewrite E. split; [reflexivity|]. unfold SF2R, F2R. cbn [Fnum Fexp cond_Zopp]. change (bpow radix2 (-22)) with (/ 4194304). lra. }
  destruct P as [P1 P2]. destruct (conv_ok f _ P1) as [F E]. split; [exact F|]. cbn [flit ieee Qnum Qden]. rewrite E. exact P2.
Qed.
End Const.
Lemma pi_ok f (o : libm f) : fin (@fpi _ (ieee o)) /\ Rabs (val (@fpi _ (ieee o)) - PI) <= v0 f * PI.
Proof.
  pose proof PI_bounds as B. cbn [fpi ieee]. unfold v0. destruct f; cbn [precf].
  - destruct (@SF_val B32 (norm B32 13176795 (-22)) false 13176795 (-22)) as [F E]; [vm_compute; reflexivity|]. split; [exact F|].
    rewrite E. cbn [cond_Zopp]. change (bpow radix2 (-22)) with (/ 4194304). change (bpow radix2 (- (24))) with (/ 16777216). apply Rabs_le. lra.
  - destruct (@SF_val B64 (norm B64 7074237752028440 (-51)) false 7074237752028440 (-51)) as [F E]; [vm_compute; reflexivity|]. split; [exact F|].
    rewrite E. cbn [cond_Zopp]. change (bpow radix2 (-51)) with (/ 2251799813685248). change (bpow radix2 (- (53))) with (/ 9007199254740992). apply Rabs_le. lra.
Qed.
Lemma lit_val f m e : B2SF (norm B32 (Zpos m) e) = SpecFloat.S754_finite false m e -> fin (conv f (norm B32 (Zpos m) e)) /\ val (conv f (norm B32 (Zpos m) e)) = IZR (Zpos m) * bpow radix2 e.
Proof. intros H. destruct (SF_val _ H) as [F E]. destruct (conv_ok f _ F) as [F' E']. split; [exact F'|]. rewrite E'. exact E. Qed.

(* ---------- sin and cos accurate to 2 units of 2^-prec ---------- *)
Section Trig.
Variables (f : fmt) (o : libm f).
Local Notation G := (ieee o).
Local Notation v0 := (v0 f).
Local Notation etaf := (etaf f).
Local Notation maxf := (maxf f).
Local Notation fin := (fin (f := f)).
Local Notation val := (val (f := f)).
Definition trig_ok : Prop := forall t, fin t ->
  fin (fst (o_sincos o t)) /\ fin (snd (o_sincos o t)) /\
  Rabs (val (fst (o_sincos o t)) - sin (val t)) <= 2 * v0 /\ Rabs (val (snd (o_sincos o t)) - cos (val t)) <= 2 * v0.
(* relative error that also covers the smallest normal numbers, down to size tiny *)
Definition ui : R := v0 * (1 + / 1024).
Definition tiny : R := bpow radix2 (13 - emaxf f).
Lemma tiny_pos : 0 < tiny. Proof. apply bpow_gt_0. Qed.
Lemma tiny_small : tiny <= bpow radix2 (Z.opp 115).
Proof. apply bpow_le. clear o. destruct f; cbn; lia. Qed.
Lemma p115 : bpow radix2 (Z.opp 115) <= / 1000000000000000000000000000000.
Proof. change (bpow radix2 (Z.opp 115)) with (/ 41538374868278621028243970633760768). lra. Qed.
Lemma tiny_1 : tiny <= / 1000000000000000000000000000000.
Proof. eapply Rle_trans; [exact tiny_small|exact p115]. Qed.
Lemma ui_v0 : v0 <= ui. Proof. unfold ui. pose proof (v0_pos f). lra. Qed.
Lemma ui_pos : 0 < ui. Proof. pose proof ui_v0. pose proof (v0_pos f). lra. Qed.
Lemma ui_small : ui <= / 10000000. Proof. unfold ui. pose proof (v0_small f). lra. Qed.
Lemma slack : 2 * etaf <= (ui - v0) * tiny.
Proof.
  right. unfold ui, tiny, L_ieee.v0, L_ieee.etaf. replace (2 * (/ 2 * bpow radix2 (SpecFloat.emin (precf f) (emaxf f)))) with (bpow radix2 (SpecFloat.emin (precf f) (emaxf f))) by field.
  replace (bpow radix2 (- precf f) * (1 + / 1024) - bpow radix2 (- precf f)) with (bpow radix2 (- precf f) * bpow radix2 (Z.opp 10)) by (change (bpow radix2 (Z.opp 10)) with (/ 1024); ring).
  rewrite <- !bpow_plus. f_equal. unfold SpecFloat.emin. lia.
Qed.
Lemma eta_small : etaf <= ui * / 1000000000000.
Proof. pose proof slack. pose proof tiny_1. pose proof tiny_pos. pose proof ui_v0. pose proof (v0_pos f). nra. Qed.
Lemma expi_i t a e : trig_ok -> fin t -> 0 <= e -> Rabs (val t - a) <= e -> fnear fin val tiny (1 + (3 * v0 + e)) 1 (cis a) (expi (F := G) t).
Proof.
  intros HT Ft He H. destruct (HT t Ft) as (F1 & F2 & E1 & E2). unfold expi. cbn [fsin_cos ieee]. destruct (o_sincos o t) as [sn cs]. cbn [fst snd] in *.
  pose proof (v0_pos f) as V. pose proof tiny_1.
  split; [lra|]. split; [lra|]. split; [rewrite Cabs_cis; lra|]. split; [split; assumption|].
  replace (cv val (mkcx cs sn) -c cis a) with ((cv val (mkcx cs sn) -c cis (val t)) +c (cis (val t) -c cis a)) by ring.
  eapply Rle_trans; [apply Cabs_tri|]. replace ((1 + (3 * v0 + e) - 1) * 1) with (3 * v0 + e) by ring.
  apply Rplus_le_compat; [|eapply Rle_trans; [apply chord|exact H]].
  apply (@Cabs_comp _ (2 * v0) (2 * v0)); [exact E2|exact E1|lra|nra].
Qed.
(* an operation whose exact result is at least tiny has relative error ui *)
Lemma rel_op r x : op_ok fin val v0 etaf maxf r x -> Rabs r <= maxf -> fin x /\ Rabs (val x - r) <= ui * (Rabs r + / 1000000000000).
Proof.
  intros H Hm. destruct (H Hm) as [F E]. split; [exact F|]. pose proof ui_v0. pose proof eta_small. pose proof (Rabs_pos r). nra.
Qed.
Lemma big_ok r : Rabs r <= bpow radix2 120 -> Rabs r <= maxf.
Proof.
  intros H. eapply Rle_trans; [exact H|]. eapply Rle_trans; [|apply maxf_big]. pose proof (bpow_gt_0 radix2 (emaxf f - 2)).
  assert (bpow radix2 120 <= bpow radix2 (emaxf f - 1)) by (apply bpow_le; clear; destruct f; cbn; lia). lra.
Qed.
Lemma p120 : 1000000000000000000000000000000000000 <= bpow radix2 120.
Proof. change (bpow radix2 120) with 1329227995784915872903807060280344576. lra. Qed.
Lemma p100 : 1000000000000000000000000000000 <= bpow radix2 100.
Proof. change (bpow radix2 100) with 1267650600228229401496703205376. lra. Qed.
Lemma angle_g r a b k X K : 0 <= r <= 3 -> fin a -> fin b -> fin k -> val k = K -> 1 <= K -> Rabs (val a * val b - X) <= r * (ui * Rabs X) -> Rabs X <= 1000000000000000000000000000000 ->
  fin (@fdiv _ G (@fmul _ G a b) k) /\ Rabs (val (@fdiv _ G (@fmul _ G a b) k) - X / K) <= ui * ((r + 2.01) * Rabs (X / K) + / 1000000).
Proof.
  intros Hr Fa Fb Fk Hk HK HX HB. pose proof ui_pos as U0. pose proof ui_small as U1. pose proof p120 as HM. pose proof (Rabs_pos X) as X0.
  assert (B1 : Rabs (val a * val b) <= (1 + 3 * ui) * Rabs X) by (apply Rabs_le_sum in HX; assert (0 <= ui * Rabs X) by nra; assert (r * (ui * Rabs X) <= 3 * (ui * Rabs X)) by (apply Rmult_le_compat_r; lra); lra).
  assert (P0 : Rabs (val a * val b) <= maxf) by (apply big_ok; nra).
  destruct (rel_op (@i_mul _ _ _ _ _ _ _ (ieee_bounded o) _ _ Fa Fb) P0) as [F1 E1]. set (p := @fmul _ G a b) in *.
  assert (E2 : Rabs (val p - X) <= ui * ((r + 1 + 3 * ui) * Rabs X + / 1000000000000)).
  { replace (val p - X) with ((val p - val a * val b) + (val a * val b - X)) by ring. eapply Rle_trans; [apply Rabs_triang|].
    assert (ui * (Rabs (val a * val b) + / 1000000000000) <= ui * ((1 + 3 * ui) * Rabs X + / 1000000000000)) by (apply Rmult_le_compat_l; lra). lra. }
  assert (K0 : 0 < / K) by (apply Rinv_0_lt_compat; lra). assert (K1 : / K <= 1) by (rewrite <- Rinv_1; apply Rinv_le_contravar; lra).
  assert (EX : Rabs (X / K) = Rabs X * / K) by (unfold Rdiv; rewrite Rabs_mult, (Rabs_pos_eq (/ K)); lra).
  set (x := Rabs (X / K)) in *. assert (x0 : 0 <= x) by apply Rabs_pos. assert (xB : x <= 1000000000000000000000000000000) by nra.
  assert (E3 : Rabs (val p / K - X / K) <= ui * ((r + 1 + 3 * ui) * x + / 1000000000000)).
  { replace (val p / K - X / K) with ((val p - X) * / K) by (unfold Rdiv; ring). rewrite Rabs_mult, (Rabs_pos_eq (/ K)) by lra.
    apply Rle_trans with (ui * ((r + 1 + 3 * ui) * Rabs X + / 1000000000000) * / K); [apply Rmult_le_compat_r; lra|]. rewrite EX. assert (ui * / 1000000000000 * / K <= ui * / 1000000000000) by (rewrite <- (Rmult_1_r (ui * / 1000000000000)) at 2; apply Rmult_le_compat_l; nra). lra. }
  assert (B2 : Rabs (val p / K) <= (1 + 5 * ui) * x + / 1000000000000). { pose proof E3 as Q. apply Rabs_le_sum in Q. fold x in Q. assert (Z0 : 0 <= ui * x) by nra. assert (r * (ui * x) <= 3 * (ui * x)) by (apply Rmult_le_compat_r; lra). assert (3 * ui * (ui * x) <= 1 * (ui * x)) by (apply Rmult_le_compat_r; lra). lra. }
  assert (P1 : Rabs (val p / val k) <= maxf) by (rewrite Hk; apply big_ok; nra).
  destruct (rel_op (fun h => @i_div _ _ _ _ _ _ _ (ieee_bounded o) p k F1 Fk ltac:(rewrite Hk; lra) h) P1) as [F2 E4]. split; [exact F2|]. rewrite Hk in E4.
  replace (val (@fdiv _ G p k) - X / K) with ((val (@fdiv _ G p k) - val p / K) + (val p / K - X / K)) by ring. eapply Rle_trans; [apply Rabs_triang|].
  assert (ui * (Rabs (val p / K) + / 1000000000000) <= ui * ((1 + 5 * ui) * x + / 1000000000000 + / 1000000000000)) by (apply Rmult_le_compat_l; lra).
  assert (ui * ((r + 1 + 3 * ui) * x) + ui * ((1 + 5 * ui) * x) <= ui * ((r + 2.01) * x)); [|lra]. assert (0 <= ui * x) by nra. assert (8 * ui * (ui * x) <= 0.01 * (ui * x)) by (apply Rmult_le_compat_r; lra). lra.
Qed.
Lemma angle_i a b k X K : fin a -> fin b -> fin k -> val k = K -> 1 <= K -> Rabs (val a * val b - X) <= ui * Rabs X -> Rabs X <= 1000000000000000000000000000000 ->
  fin (@fdiv _ G (@fmul _ G a b) k) /\ Rabs (val (@fdiv _ G (@fmul _ G a b) k) - X / K) <= ui * (3.01 * Rabs (X / K) + / 1000000).
Proof.
  intros Fa Fb Fk Hk HK HX HB. destruct (@angle_g 1 a b k X K ltac:(lra) Fa Fb Fk Hk HK ltac:(lra) HB) as [F E]. split; [exact F|].
  replace (1 + 2.01) with 3.01 in E by lra. exact E.
Qed.
(* -2 pi / n *)
Lemma tw_angle_i n : (32 <= n)%nat -> is_pow2 n = true -> INR n <= bpow radix2 100 ->
  fin (tw_angleI G n) /\ Rabs (val (tw_angleI G n) - - (2 * PI * INR 1 / INR n)) <= 0.62 * ui.
Proof.
  intros Hn Hp Hb. assert (HnR : 32 <= INR n). { replace 32 with (INR 32) by (cbn; lra). apply le_INR. exact Hn. }
  destruct (nat_pow2 o _ Hp Hb) as [Fn En]. destruct (lit2 o) as [F2 E2]. destruct (pi_ok o) as [Fp Ep].
  destruct (@i_neg _ _ _ _ _ _ _ (ieee_bounded o) _ F2) as [F2n E2n]. rewrite E2 in E2n.
  pose proof PI_RGT_0 as HP. pose proof PI_bounds as PB. pose proof ui_pos. pose proof ui_v0.
  assert (AX : Rabs (- (2) * PI) = 2 * PI) by (rewrite Rabs_mult, Rabs_Ropp, !Rabs_pos_eq by lra; reflexivity).
  unfold tw_angleI. destruct (@angle_i _ _ _ (- (2) * PI) (INR n) F2n Fp Fn En ltac:(lra)) as [F E].
  - rewrite E2n. replace (- (2) * val (@fpi _ G) - - (2) * PI) with (- (2) * (val (@fpi _ G) - PI)) by ring. rewrite Rabs_mult, AX, Rabs_Ropp, (Rabs_pos_eq 2) by lra. nra.
  - rewrite AX. lra.
  - split; [exact F|]. replace (- (2 * PI * INR 1 / INR n)) with (- (2) * PI / INR n) by (cbn [INR]; field; lra). eapply Rle_trans; [exact E|].
    assert (Q : Rabs (- (2) * PI / INR n) <= 0.1964).
    { unfold Rdiv. rewrite Rabs_mult, AX, (Rabs_pos_eq (/ INR n)) by (left; apply Rinv_0_lt_compat; lra).
      apply Rmult_le_reg_r with (INR n); [lra|]. rewrite Rmult_assoc, Rinv_l, Rmult_1_r by lra. lra. }
    assert (3.01 * Rabs (- (2) * PI / INR n) + / 1000000 <= 0.62) by lra. nra.
Qed.
Lemma step_i n : trig_ok -> (32 <= n)%nat -> is_pow2 n = true -> INR n <= bpow radix2 100 ->
  fnear fin val tiny (1 + 3.62 * ui) 1 (W n 1) (expi (F := G) (tw_angleI G n)).
Proof.
  intros HT Hn Hp Hb. destruct (tw_angle_i Hn Hp Hb) as [F E]. pose proof ui_pos. pose proof ui_v0.
  assert (E0 : 0 <= 0.62 * ui) by lra. apply (fnear_mono tiny_pos (expi_i _ HT F E0 E)); lra.
Qed.
Lemma gam_i : gam ui <= 3.01 * ui.
Proof. unfold gam. pose proof ui_pos. pose proof ui_small. nra. Qed.
Lemma gam_i0 : 0 <= gam ui.
Proof. unfold gam. pose proof ui_pos. nra. Qed.
(* accuracy of the table *)
Definition di (n : nat) : R := 6.7 * INR n * ui.
Lemma di_pos n : 0 <= di n. Proof. unfold di. pose proof ui_pos. pose proof (pos_INR n). nra. Qed.
(* the printed tables: sin, cos, printing and reading each accurate to 2 units *)
Definition print_ok : Prop :=
  (forall t, fin t -> fin (o_sin o t) /\ Rabs (val (o_sin o t) - sin (val t)) <= 2 * v0) /\
  (forall t, fin t -> fin (o_cos o t) /\ Rabs (val (o_cos o t) - cos (val t)) <= 2 * v0) /\
  (forall t, fin t -> Rabs (val t) <= 1.01 -> fin (o_reparse o t) /\ Rabs (val (o_reparse o t) - val t) <= 2 * v0).
Lemma pre_i n k : print_ok -> (32 <= n)%nat -> is_pow2 n = true -> INR n <= 1024 -> (k < n / 2)%nat ->
  cfin fin (nthc (F := G) (pre_table (F := G) n) k) /\ Cabs (cv val (nthc (F := G) (pre_table (F := G) n) k) -c W n k) <= 20 * ui.
Proof.
  intros (PS & PC & PR) Hn Hp Hb Hk. assert (HnR : 32 <= INR n). { replace 32 with (INR 32) by (cbn; lra). apply le_INR. exact Hn. }
  assert (Hk2 : 2 * INR k <= INR n). { replace 2 with (INR 2) by (cbn; lra). rewrite <- mult_INR. apply le_INR. pose proof (Nat.mul_div_le n 2 ltac:(lia)). lia. }
  pose proof (pos_INR k) as Hk0. pose proof p100 as H100. pose proof ui_pos as U0. pose proof ui_v0 as U1. pose proof ui_small as U2. pose proof PI_bounds as PB. pose proof (v0_pos f) as V0. pose proof (v0_small f) as V1.
  destruct (nat_pow2 o _ Hp ltac:(lra)) as [Fn En]. destruct (@nat_val f o k ltac:(lra)) as [Fk Ek]. rewrite r24_INR in Ek by lra.
  destruct (lit2 o) as [F2 E2]. destruct (pi_ok o) as [Fp Ep]. destruct (@i_neg _ _ _ _ _ _ _ (ieee_bounded o) _ F2) as [F2n E2n]. rewrite E2 in E2n.
  set (b := @fmul _ G (@fneg _ G (@flit _ G 2%Q)) (@fpi _ G)).
  assert (Vp : Rabs (val (@fpi _ G)) <= 3.2) by (apply Rabs_le_sum in Ep; rewrite (Rabs_pos_eq PI) in Ep by lra; nra).
  assert (R1 : Rabs (val (@fneg _ G (@flit _ G 2%Q)) * val (@fpi _ G)) <= 6.4) by (rewrite E2n, Rabs_mult, Rabs_Ropp, (Rabs_pos_eq 2) by lra; lra).
  destruct (rel_op (@i_mul _ _ _ _ _ _ _ (ieee_bounded o) _ _ F2n Fp)) as [Fb Eb]; [apply big_ok; pose proof p120; lra|]. fold b in Fb, Eb.
  assert (B1 : Rabs (val b - - (2) * PI) <= 2.1 * (ui * (2 * PI))).
  { replace (val b - - (2) * PI) with ((val b - val (@fneg _ G (@flit _ G 2%Q)) * val (@fpi _ G)) + - (2) * (val (@fpi _ G) - PI)) by (rewrite E2n; ring).
    eapply Rle_trans; [apply Rabs_triang|]. rewrite Rabs_mult, Rabs_Ropp, (Rabs_pos_eq 2) by lra.
    assert (X1 : ui * (Rabs (val (@fneg _ G (@flit _ G 2%Q)) * val (@fpi _ G)) + / 1000000000000) <= ui * (6.4 + / 1000000000000)) by (apply Rmult_le_compat_l; lra).
    assert (X2 : v0 * PI <= ui * PI) by (apply Rmult_le_compat_r; lra). nra. }
  assert (AX : Rabs (- (2) * PI * INR k) = 2 * PI * INR k) by (rewrite Rabs_mult, (Rabs_pos_eq (INR k)), Rabs_mult, Rabs_Ropp, !Rabs_pos_eq by lra; reflexivity).
  destruct (@angle_g 2.1 b _ _ (- (2) * PI * INR k) (INR n) ltac:(lra) Fb Fk Fn En ltac:(lra)) as [F E].
  { rewrite Ek, AX. replace (val b * INR k - - (2) * PI * INR k) with ((val b - - (2) * PI) * INR k) by ring. rewrite Rabs_mult, (Rabs_pos_eq (INR k)) by lra.
    replace (2.1 * (ui * (2 * PI * INR k))) with (2.1 * (ui * (2 * PI)) * INR k) by ring. apply Rmult_le_compat_r; assumption. }
  { rewrite AX. nra. }
  set (t := @fdiv _ G (@fmul _ G b (@fofnat _ G k)) (@fofnat _ G n)) in *.
  assert (ET : nthc (F := G) (pre_table (F := G) n) k = mkcx (o_reparse o (o_cos o t)) (o_reparse o (o_sin o t))) by (unfold nthc, pre_table; rewrite nth_tab by exact Hk; reflexivity).
  rewrite ET. assert (TA : Rabs (val t - - (2 * PI * INR k / INR n)) <= 13 * ui).
  { replace (- (2 * PI * INR k / INR n)) with (- (2) * PI * INR k / INR n) by (field; lra). eapply Rle_trans; [exact E|].
    assert (Q : Rabs (- (2) * PI * INR k / INR n) <= 3.1416).
    { unfold Rdiv. rewrite Rabs_mult, AX, (Rabs_pos_eq (/ INR n)) by (left; apply Rinv_0_lt_compat; lra).
      apply Rmult_le_reg_r with (INR n); [lra|]. rewrite Rmult_assoc, Rinv_l, Rmult_1_r by lra. nra. }
    assert ((2.1 + 2.01) * Rabs (- (2) * PI * INR k / INR n) + / 1000000 <= 13) by lra. nra. }
  destruct (PS t F) as [S1 S2]. destruct (PC t F) as [C1' C2].
  assert (SB : Rabs (val (o_sin o t)) <= 1.01) by (pose proof (SIN_bound (val t)); apply Rabs_le_inv in S2; apply Rabs_le; lra).
  assert (CB : Rabs (val (o_cos o t)) <= 1.01) by (pose proof (COS_bound (val t)); apply Rabs_le_inv in C2; apply Rabs_le; lra).
  destruct (PR _ S1 SB) as [S3 S4]. destruct (PR _ C1' CB) as [C3 C4].
  split; [split; assumption|]. unfold W. set (a := - (2 * PI * INR k / INR n)) in *.
  match goal with |- Cabs (?z -c _) <= _ => replace (z -c cis a) with ((z -c cis (val t)) +c (cis (val t) -c cis a)) by ring end.
  eapply Rle_trans; [apply Cabs_tri|]. apply Rle_trans with (6 * v0 + 13 * ui); [|lra].
  apply Rplus_le_compat; [|eapply Rle_trans; [apply chord|exact TA]].
  apply Rabs_le_inv in S2. apply Rabs_le_inv in C2. apply Rabs_le_inv in S4. apply Rabs_le_inv in C4.
  apply (@Cabs_comp _ (4 * v0) (4 * v0)); [| |lra|nra]; unfold cv, cis; cbn [re im Csub]; apply Rabs_le; lra.
Qed.
Lemma table_i c n : trig_ok -> c_precomp c = false \/ print_ok -> (32 <= n)%nat -> is_pow2 n = true -> INR n <= bpow radix2 100 -> 6.7 * INR n * ui <= 1 -> twI_ok G fin val c (di n) n.
Proof.
  intros HT Hc Hn Hp Hb Hs k Hk. unfold twf, lookup_pre. destruct (c_precomp c && _ && existsb (Nat.eqb n) pre_sizes)%bool eqn:EP.
  { apply andb_prop in EP. destruct EP as [E1 E2]. apply andb_prop in E1. destruct E1 as [E1 _]. destruct Hc as [Hc|Hc]; [congruence|].
    destruct (@pre_i n k Hc Hn Hp (pre_size_bound _ E2) Hk) as [F E]. split; [exact F|]. split; [apply Cabs_W|]. eapply Rle_trans; [exact E|].
    assert (HnR : 32 <= INR n). { replace 32 with (INR 32) by (cbn; lra). apply le_INR. exact Hn. } pose proof ui_pos. unfold di. nra. }
  pose proof ui_pos as U0. pose proof ui_small as U1. pose proof gam_i as G1. pose proof gam_i0 as G0. pose proof (maxf_big f). pose proof (bpow_gt_0 radix2 (emaxf f - 2)).
  assert (M4 : 4 <= maxf). { pose proof p120. pose proof (@big_ok 4) as Q. rewrite Rabs_pos_eq in Q by lra. apply Q. lra. }
  assert (S1 : (1 + 3.62 * ui) * (1 + gam ui) <= 1 + 6.7 * ui) by nra.
  assert (S0 : 1 <= (1 + 3.62 * ui) * (1 + gam ui)) by nra.
  assert (Hn2 : 2 * INR (n / 2) <= INR n). { replace 2 with (INR 2) by (cbn; lra). rewrite <- mult_INR. apply le_INR. apply Nat.mul_div_le. lia. }
  pose proof (pos_INR (n / 2)).
  assert (P : (1 + 6.7 * ui) ^ (n / 2) <= 1 + 2 * (INR (n / 2) * (6.7 * ui))) by (apply pow_linear; nra).
  assert (P2 : ((1 + 3.62 * ui) * (1 + gam ui)) ^ k <= 1 + di n).
  { apply Rle_trans with (((1 + 3.62 * ui) * (1 + gam ui)) ^ (n / 2)); [apply Rle_pow; [exact S0|lia]|].
    eapply Rle_trans; [apply pow_incr; split; [lra|exact S1]|]. unfold di. nra. }
  apply (@tw_tableI _ _ _ _ _ _ _ (ieee_bounded o) tiny ui tiny_pos ui_v0 slack (di n) ltac:(pose proof tiny_1; lra) n (3.62 * ui)); [apply step_i; assumption|exact Hk| |lra].
  unfold di in *. lra.
Qed.
Lemma QQ_i n : (32 <= n)%nat -> 6.7 * INR n * ui <= / 2 -> 1 <= QQ ui (di n) <= 1 + 7 * INR n * ui.
Proof.
  intros Hn Hb. assert (HnR : 32 <= INR n). { replace 32 with (INR 32) by (cbn; lra). apply le_INR. exact Hn. }
  pose proof ui_pos. pose proof ui_small. pose proof gam_i. pose proof gam_i0. unfold QQ.
  assert (A : 1 <= (1 + gam ui) * (1 + ui) <= 1 + 4.1 * ui) by nra.
  assert (B : 0 <= di n <= / 2) by (unfold di; nra). split; [rewrite Rmult_assoc; nra|].
  apply Rle_trans with ((1 + di n) * (1 + 4.1 * ui)); [rewrite Rmult_assoc; apply Rmult_le_compat_l; lra|].
  unfold di in *. nra.
Qed.
Lemma QQ_pow_i n m : (32 <= n)%nat -> 6.7 * INR n * ui <= / 2 -> 14 * (INR n * INR m * ui) <= 1 -> 1 <= QQ ui (di n) ^ m <= 1 + 14 * (INR n * INR m * ui).
Proof.
  intros Hn Hb Hm. destruct (QQ_i Hn Hb) as [A B]. pose proof ui_pos. pose proof (pos_INR n). pose proof (pos_INR m). assert (0 <= INR n * ui) by nra.
  split; [apply pow_R1_Rle; exact A|]. apply Rle_trans with ((1 + 7 * INR n * ui) ^ m); [apply pow_incr; lra|].
  eapply Rle_trans; [apply pow_linear; [nra|lra]|lra].
Qed.
(* the literals of the small kernels *)
Lemma kern_i : kernI_ok G fin val (/ 10000000).
Proof.
  pose proof cos4_lit. pose proof cos8_lit. pose proof sin8_lit.
  split; cbn [fk707 fk924 fk383 ieee].
  - destruct (@lit_val f 11863283 (-24)) as [F E]; [vm_compute; reflexivity|]. split; [exact F|]. rewrite E. change (bpow radix2 (-24)) with (/ 16777216). lra.
  - destruct (@lit_val f 15500126 (-24)) as [F E]; [vm_compute; reflexivity|]. split; [exact F|]. rewrite E. change (bpow radix2 (-24)) with (/ 16777216). lra.
  - destruct (@lit_val f 12840725 (-25)) as [F E]; [vm_compute; reflexivity|]. split; [exact F|]. rewrite E. change (bpow radix2 (-25)) with (/ 33554432). lra.
Qed.
(* the chirp, as long as i*i fits an f32 *)
Lemma chirp_i n : trig_ok -> (17 <= n)%nat -> INR n <= 4096 -> chirpI_at G fin val tiny (fun i => PI * (INR i * INR i) / INR n) n (9.7 * INR n * ui).
Proof.
  intros HT Hn Hb i Hi. assert (HnR : 17 <= INR n). { replace 17 with (INR 17) by (rewrite INR_IZR_INZ; reflexivity). apply le_INR. exact Hn. }
  pose proof p100 as HP. pose proof PI_bounds as PB. pose proof ui_pos as U0. pose proof ui_v0 as U1.
  assert (Hir : 0 <= INR i <= INR n) by (split; [apply pos_INR|apply le_INR; lia]).
  assert (H2 : 0 <= INR (i * i) <= INR n * INR n) by (rewrite mult_INR; nra).
  destruct (@nat_val f o n ltac:(lra)) as [Fn En]. rewrite r24_INR in En by lra.
  destruct (@nat_val f o (i * i) ltac:(nra)) as [Fi Ei]. rewrite r24_INR in Ei by nra. rewrite mult_INR in Ei, H2.
  destruct (pi_ok o) as [Fp Ep]. set (k := INR i * INR i) in *.
  assert (AX : Rabs (PI * k) = PI * k) by (apply Rabs_pos_eq; nra).
  destruct (@angle_i _ _ _ (PI * k) (INR n) Fp Fi Fn En ltac:(lra)) as [F E].
  - rewrite Ei. replace (val (@fpi _ G) * k - PI * k) with ((val (@fpi _ G) - PI) * k) by ring. rewrite Rabs_mult, AX, (Rabs_pos_eq k) by lra.
    apply Rle_trans with (v0 * PI * k); [apply Rmult_le_compat_r; lra|]. rewrite Rmult_assoc. apply Rmult_le_compat_r; [nra|exact U1].
  - rewrite AX. nra.
  - fold (blue_angle (F := G) n i) in F, E. 
    assert (Q : Rabs (PI * k / INR n) <= 3.15 * INR n).
    { unfold Rdiv. rewrite Rabs_mult, AX, (Rabs_pos_eq (/ INR n)) by (left; apply Rinv_0_lt_compat; lra).
      apply Rmult_le_reg_r with (INR n); [lra|]. rewrite Rmult_assoc, Rinv_l, Rmult_1_r by lra. nra. }
    assert (E1 : Rabs (val (blue_angle (F := G) n i) - PI * k / INR n) <= 9.5 * INR n * ui).
    { eapply Rle_trans; [exact E|]. assert (3.01 * Rabs (PI * k / INR n) + / 1000000 <= 9.5 * INR n) by lra. nra. }
    assert (E0 : 0 <= 9.5 * INR n * ui) by nra.
    split.
    + apply (fnear_mono tiny_pos (expi_i _ HT F E0 E1)); nra.
    + destruct (@i_neg _ _ _ _ _ _ _ (ieee_bounded o) _ F) as [F' E']. apply (fnear_mono tiny_pos (@expi_i (@fneg _ G (blue_angle (F := G) n i)) (- (PI * k / INR n)) (9.5 * INR n * ui) HT F' E0 ltac:(rewrite E'; replace (- val (blue_angle (F := G) n i) - - (PI * k / INR n)) with (- (val (blue_angle (F := G) n i) - PI * k / INR n)) by ring; rewrite Rabs_Ropp; exact E1))); nra.
Qed.
End Trig.

(* a library that rounds correctly *)
Definition near_float (f : fmt) (r : R) : num f :=
  norm f (ZnearestE (scaled_mantissa radix2 (SpecFloat.fexp (precf f) (emaxf f)) r)) (cexp radix2 (SpecFloat.fexp (precf f) (emaxf f)) r).
Definition exact_libm (f : fmt) : libm f :=
  {| o_sin := fun t => near_float f (sin (val t)); o_cos := fun t => near_float f (cos (val t));
     o_sincos := fun t => (near_float f (sin (val t)), near_float f (cos (val t))); o_reparse := fun x => x |}.
Lemma near_float_ok f r : Rabs r <= 1 -> fin (near_float f r) /\ Rabs (val (near_float f r) - r) <= 2 * v0 f.
Proof.
  intros H. assert (B : Rabs (rn f r) <= 1).
  { unfold rn. apply abs_round_le_generic; [apply fexp_correct, precf_pos|typeclasses eauto| |exact H].
    change 1 with (bpow radix2 0). apply (@generic_format_bpow radix2 (FLT_exp (SpecFloat.emin (precf f) (emaxf f)) (precf f))). unfold FLT_exp. destruct f; cbn; lia. }
  destruct (@norm_ok f (ZnearestE (scaled_mantissa radix2 (SpecFloat.fexp (precf f) (emaxf f)) r)) (cexp radix2 (SpecFloat.fexp (precf f) (emaxf f)) r) (rn f r) eq_refl) as [F E].
  - pose proof (maxf_ge1 f). lra.
  - split; [exact F|]. unfold near_float. rewrite E. unfold rn at 1. rewrite round_generic; [|typeclasses eauto|unfold rn; apply generic_format_round; [apply fexp_correct, precf_pos|typeclasses eauto]].
    eapply Rle_trans; [apply rn_err|]. pose proof (v0_pos f). pose proof (eta_small f). pose proof (Rabs_pos r). unfold ui in *. nra.
Qed.
Lemma exact_trig f : trig_ok (exact_libm f).
Proof.
  intros t Ft. cbn [exact_libm o_sincos fst snd]. destruct (SIN_bound (val t)). destruct (COS_bound (val t)).
  destruct (@near_float_ok f (sin (val t))) as [A B]; [apply Rabs_le; lra|]. destruct (@near_float_ok f (cos (val t))) as [C D]; [apply Rabs_le; lra|]. repeat split; assumption.
Qed.

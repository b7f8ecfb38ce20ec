(* The remaining f32/f64 operations (sqrt, comparisons, floor, max, conversion to usize) in IEEE arithmetic, and each
   operation as the rounding of its exact result. *)
From Coq Require Import Reals Lra Lia ZArith.
From Flocq Require Import Core BinarySingleNaN.
From Verif Require Import L_err L_flx L_pi L_ierr L_ieee.
Set Implicit Arguments.
Open Scope R_scope.

(* z as usize for an integral float z: saturating at 0 and 2^64 - 1 *)
Definition sat (z : Z) : nat := Z.to_nat (Z.min z (2 ^ 64 - 1)).
(* floor of s*m*2^e, and rounding to nearest with ties away from zero *)
Definition zfloor (s : bool) (m : positive) (e : Z) : Z := if (0 <=? e)%Z then (cond_Zopp s (Zpos m) * 2 ^ e)%Z else (cond_Zopp s (Zpos m) / 2 ^ (- e))%Z.
Definition zround (s : bool) (m : positive) (e : Z) : Z := cond_Zopp s (if (0 <=? e)%Z then (Zpos m * 2 ^ e)%Z else ((2 * Zpos m + 2 ^ (- e)) / (2 * 2 ^ (- e)))%Z).
Definition to_usize (g : bool -> positive -> Z -> Z) (f : fmt) (x : num f) : nat :=
  match x with
  | B754_infinity false => Z.to_nat (2 ^ 64 - 1)
  | B754_finite s m e _ => sat (g s m e)
  | _ => 0%nat
  end.
(* ln, log10 and powf are taken from outside *)
Record libx (f : fmt) := { o_ln : num f -> num f; o_log10 : num f -> num f; o_powf : num f -> num f -> num f }.
Definition ieeex (f : fmt) (x : libx f) : FloatX (num f) := {|
  fsqrt := Bsqrt mode_NE; fln := o_ln x; flog10 := o_log10 x; fpowf := o_powf x; fabs := @Babs _ _;
  fltb := @Bltb _ _; fleb := @Bleb _ _; feqb := @Beqb _ _;
  ffloor := @to_usize zfloor f; ffloorf := Bnearbyint mode_DN;
  fmaxf := fun a b => if is_nan a then b else if is_nan b then a else if Bltb a b then b else a;
  fround_nat := @to_usize zround f |}.

Section Ops.
Variables (f : fmt) (o : libm f) (x : libx f).
Local Notation G := (ieee o).
Local Notation H := (ieeex x).
Local Notation fin := (fin (f := f)).
Local Notation val := (val (f := f)).
Local Notation rn := (rn f).
Local Notation maxf := (maxf f).
Local Notation prec := (precf f).
Local Notation emax := (emaxf f).

Lemma val_format (a : num f) : generic_format radix2 (SpecFloat.fexp prec emax) (val a).
Proof. apply generic_format_B2R. Qed.
Lemma val_max (a : num f) : Rabs (val a) <= maxf.
Proof.
  unfold val, L_ieee.val, maxf, L_ieee.maxf. eapply Rle_trans; [apply abs_B2R_le_emax_minus_prec|].
  - exact (precf_pos f).
  - right. rewrite Rmult_minus_distr_r, <- bpow_plus. f_equal; [f_equal; lia|ring].
Qed.
Lemma rn_val (a : num f) : rn (val a) = val a.
Proof. apply round_generic; [typeclasses eauto|apply val_format]. Qed.
Lemma rn_mono a b : a <= b -> rn a <= rn b.
Proof. intros E. apply round_le; [apply fexp_correct, precf_pos|typeclasses eauto|exact E]. Qed.
Lemma rn_0 : rn 0 = 0. Proof. apply round_0. typeclasses eauto. Qed.
Lemma rn_ge (a : num f) r : val a <= r -> val a <= rn r.
Proof. intros E. rewrite <- (rn_val a). apply rn_mono, E. Qed.
Lemma rn_le (a : num f) r : r <= val a -> rn r <= val a.
Proof. intros E. rewrite <- (rn_val a). apply rn_mono, E. Qed.
Lemma rn_neg r : rn (- r) = - rn r.
Proof. apply round_NE_opp. Qed.
Lemma rn_pos r : 0 <= r -> 0 <= rn r.
Proof. intros E. rewrite <- rn_0. apply rn_mono, E. Qed.

Lemma add_r (a b : num f) : fin a -> fin b -> Rabs (val a + val b) <= maxf -> fin (@fadd _ G a b) /\ val (@fadd _ G a b) = rn (val a + val b).
Proof.
  intros Ha Hb Hr. cbn [fadd ieee]. pose proof (Bplus_correct prec emax (precf_pos f) (precf_emax f) mode_NE a b Ha Hb) as P.
  change (round radix2 (SpecFloat.fexp prec emax) (round_mode mode_NE) (B2R a + B2R b)) with (rn (val a + val b)) in P. rewrite (@rn_fits f _ Hr) in P.
  destruct P as (P1 & P2 & _). split; assumption.
Qed.
Lemma sub_r (a b : num f) : fin a -> fin b -> Rabs (val a - val b) <= maxf -> fin (@fsub _ G a b) /\ val (@fsub _ G a b) = rn (val a - val b).
Proof.
  intros Ha Hb Hr. cbn [fsub ieee]. pose proof (Bminus_correct prec emax (precf_pos f) (precf_emax f) mode_NE a b Ha Hb) as P.
  change (round radix2 (SpecFloat.fexp prec emax) (round_mode mode_NE) (B2R a - B2R b)) with (rn (val a - val b)) in P. rewrite (@rn_fits f _ Hr) in P.
  destruct P as (P1 & P2 & _). split; assumption.
Qed.
Lemma mul_r (a b : num f) : fin a -> fin b -> Rabs (val a * val b) <= maxf -> fin (@fmul _ G a b) /\ val (@fmul _ G a b) = rn (val a * val b).
Proof.
  intros Ha Hb Hr. cbn [fmul ieee]. pose proof (Bmult_correct prec emax (precf_pos f) (precf_emax f) mode_NE a b) as P.
  change (round radix2 (SpecFloat.fexp prec emax) (round_mode mode_NE) (B2R a * B2R b)) with (rn (val a * val b)) in P. rewrite (@rn_fits f _ Hr) in P.
  destruct P as (P1 & P2 & _). split; [|exact P1]. unfold L_ieee.fin in *. rewrite P2, Ha, Hb. reflexivity.
Qed.
Lemma div_r (a b : num f) : fin a -> fin b -> val b <> 0 -> Rabs (val a / val b) <= maxf -> fin (@fdiv _ G a b) /\ val (@fdiv _ G a b) = rn (val a / val b).
Proof.
  intros Ha Hb Hz Hr. cbn [fdiv ieee]. pose proof (Bdiv_correct prec emax (precf_pos f) (precf_emax f) mode_NE a b Hz) as P.
  change (round radix2 (SpecFloat.fexp prec emax) (round_mode mode_NE) (B2R a / B2R b)) with (rn (val a / val b)) in P. rewrite (@rn_fits f _ Hr) in P.
  destruct P as (P1 & P2 & _). split; [|exact P1]. unfold L_ieee.fin in *. rewrite P2, Ha. reflexivity.
Qed.
Lemma sqrt_r (a : num f) : fin a -> 0 <= val a -> fin (@fsqrt _ H a) /\ val (@fsqrt _ H a) = rn (sqrt (val a)).
Proof.
  intros Ha Hp. cbn [fsqrt ieeex]. destruct (Bsqrt_correct prec emax (precf_pos f) (precf_emax f) mode_NE a) as (P1 & P2 & _). split; [|exact P1].
  unfold L_ieee.fin in *. rewrite P2. destruct a as [s|s| |s m e Hb]; try discriminate Ha; [reflexivity|]. destruct s; [|reflexivity]. exfalso.
  unfold L_ieee.val, B2R in Hp. cbn [cond_Zopp] in Hp. pose proof (@F2R_lt_0 radix2 (Flocq.Core.Defs.Float radix2 (- Zpos m) e) ltac:(cbn; lia)). cbn in *. lra.
Qed.
Lemma abs_r (a : num f) : fin a -> fin (@fabs _ H a) /\ val (@fabs _ H a) = Rabs (val a).
Proof. intros Ha. cbn [fabs ieeex]. unfold L_ieee.fin, L_ieee.val in *. rewrite is_finite_Babs, B2R_Babs. split; [exact Ha|reflexivity]. Qed.
Lemma ltb_r (a b : num f) : fin a -> fin b -> @fltb _ H a b = Rlt_bool (val a) (val b).
Proof. intros Ha Hb. apply Bltb_correct; assumption. Qed.
Lemma leb_r (a b : num f) : fin a -> fin b -> @fleb _ H a b = Rle_bool (val a) (val b).
Proof. intros Ha Hb. apply Bleb_correct; assumption. Qed.
Lemma as_r n : INR n <= bpow radix2 100 -> fin (@fas _ G n) /\ val (@fas _ G n) = rn (INR n).
Proof.
  intros Hn. cbn [fas ieee]. apply norm_ok; [unfold F2R; cbn [Fnum Fexp]; rewrite <- INR_IZR_INZ; cbn; ring|]. rewrite Rabs_pos_eq by apply pos_INR. eapply Rle_trans; [exact Hn|].
  eapply Rle_trans; [|apply maxf_big]. pose proof (bpow_gt_0 radix2 (emax - 2)). assert (bpow radix2 100 <= bpow radix2 (emax - 1)) by (apply bpow_le; clear; destruct f; cbn; lia). lra.
Qed.
(* integers and half-integers below 2^24 are exact *)
Lemma int_format z k : (Z.abs z <= 2 ^ 24)%Z -> (-20 <= k <= 20)%Z -> rn (IZR z * bpow radix2 k) = IZR z * bpow radix2 k.
Proof.
  intros Hz Hk. apply round_generic; [typeclasses eauto|].
  destruct (Z.eq_dec (Z.abs z) (2 ^ 24)) as [E|E].
  - assert (F : Rabs (IZR z * bpow radix2 k) = bpow radix2 (24 + k)). { rewrite Rabs_mult, <- abs_IZR, E, (Rabs_pos_eq (bpow radix2 k)) by apply bpow_ge_0. rewrite bpow_plus. f_equal. }
    assert (F2 : IZR z * bpow radix2 k = bpow radix2 (24 + k) \/ IZR z * bpow radix2 k = - bpow radix2 (24 + k)). { rewrite <- F. unfold Rabs. destruct (Rcase_abs _); [right|left]; ring. }
    assert (FB : generic_format radix2 (SpecFloat.fexp prec emax) (bpow radix2 (24 + k))).
    { apply (@generic_format_bpow radix2 (FLT_exp (SpecFloat.emin prec emax) prec)). unfold FLT_exp. unfold SpecFloat.emin. clear - Hk. destruct f; cbn [precf emaxf]; lia. }
    destruct F2 as [->| ->]; [exact FB|apply generic_format_opp, FB].
  - apply (@generic_format_FLT radix2 (SpecFloat.emin prec emax) prec). exists (Flocq.Core.Defs.Float radix2 z k); [reflexivity| |].
    + cbn [Fnum]. assert ((2 ^ 24 <= radix2 ^ prec)%Z) by (clear; destruct f; cbn; lia). lia.
    + cbn [Fexp]. clear - Hk. destruct f; cbn; lia.
Qed.
Lemma as_exact n : INR n <= 16777216 -> fin (@fas _ G n) /\ val (@fas _ G n) = INR n.
Proof.
  intros Hn. destruct (@as_r n) as [F E]; [eapply Rle_trans; [exact Hn|]; pose proof p100; lra|]. split; [exact F|]. rewrite E.
  rewrite INR_IZR_INZ. rewrite <- (Rmult_1_r (IZR (Z.of_nat n))). change 1 with (bpow radix2 0). apply int_format; [|lia].
  rewrite Z.abs_eq by lia. apply le_IZR. rewrite <- INR_IZR_INZ. exact Hn.
Qed.
End Ops.

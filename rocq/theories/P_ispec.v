(* Property C93: the spectrogram's pixels and colours in f32 arithmetic. *)
From Coq Require Import Reals Lra Lia ZArith.
From Flocq Require Import Core BinarySingleNaN.
From Verif Require Import M_spec P_spec L_err L_flx L_pi L_ierr L_ieee L_ieeex P_ierr L_iwin P_iwin.
Set Implicit Arguments.
Open Scope R_scope.
Local Notation f32 := (L_ieee.num B32).
Local Notation fin := (fin (f := B32)).
Local Notation val := (val (f := B32)).
Local Notation rn := (rn B32).
Local Notation maxf := (maxf B32).

(* ---- specification ---- *)
(* a logarithm library: on the numbers from 1 to 2^23 it is monotone, between 0 and 100, 0 at 1, at least 1/2 from 2 on *)
Definition ln_ok (x : libx B32) : Prop := forall a b, fin a -> fin b -> 1 <= val a <= val b -> val b <= 8388608 ->
  fin (o_ln x a) /\ fin (o_ln x b) /\ 0 <= val (o_ln x a) <= val (o_ln x b) /\ val (o_ln x b) <= 100 /\
  (val a = 1 -> val (o_ln x a) = 0) /\ (2 <= val b -> / 2 <= val (o_ln x b)).
(* the logarithm of v is the float nearest to it *)
Definition ln_rounded (x : libx B32) (v : R) : Prop := forall a, fin a -> val a = v -> fin (o_ln x a) /\ val (o_ln x a) = rn (ln v).

(* ---- truncation to an integer ---- *)
Lemma zfloor_v s m e : zfloor s m e = Zfloor (F2R (Flocq.Core.Defs.Float radix2 (cond_Zopp s (Zpos m)) e)).
Proof.
  unfold zfloor, F2R. cbn [Fnum Fexp]. destruct (Z.leb_spec 0 e) as [E|E].
  - rewrite <- (IZR_Zpower radix2) by exact E. rewrite <- mult_IZR, Zfloor_IZR. reflexivity.
  - rewrite <- Zfloor_div by (apply Z.pow_nonzero; lia). f_equal. unfold Rdiv. f_equal. change (2 ^ (- e))%Z with (radix2 ^ (- e))%Z. rewrite (IZR_Zpower radix2) by lia. rewrite <- bpow_opp, Z.opp_involutive. reflexivity.
Qed.
Lemma zround_v m e : zround false m e = Zfloor (F2R (Flocq.Core.Defs.Float radix2 (Zpos m) e) + / 2).
Proof.
  unfold zround, F2R. cbn [Fnum Fexp cond_Zopp]. destruct (Z.leb_spec 0 e) as [E|E].
  - rewrite <- (IZR_Zpower radix2) by exact E. rewrite <- mult_IZR. symmetry. apply Zfloor_imp. rewrite plus_IZR. change (2 ^ e)%Z with (radix2 ^ e)%Z. lra.
  - assert (P : (0 < 2 ^ (- e))%Z) by (apply Z.pow_pos_nonneg; lia). rewrite <- Zfloor_div by lia. f_equal. rewrite plus_IZR, !mult_IZR. change (2 ^ (- e))%Z with (radix2 ^ (- e))%Z in *. rewrite (IZR_Zpower radix2) by lia.
    assert (Q : bpow radix2 e = / bpow radix2 (- e)) by (rewrite <- bpow_opp, Z.opp_involutive; reflexivity). rewrite Q. pose proof (bpow_gt_0 radix2 (- e)). field. lra.
Qed.
Lemma floor_v (x : libx B32) (a : f32) : fin a -> @ffloor _ (ieeex x) a = Z.to_nat (Z.min (Zfloor (val a)) (2 ^ 64 - 1)).
Proof.
  intros Fa. destruct a as [s|s| |s m e Hb]; try discriminate Fa.
  - cbn. rewrite Zfloor_IZR. reflexivity.
  - cbn [ffloor ieeex to_usize]. unfold sat. rewrite zfloor_v. reflexivity.
Qed.
Lemma round_v (x : libx B32) (a : f32) : fin a -> 0 <= val a -> @fround_nat _ (ieeex x) a = Z.to_nat (Z.min (Zfloor (val a + / 2)) (2 ^ 64 - 1)).
Proof.
  intros Fa Ha. destruct a as [s|s| |s m e Hb]; try discriminate Fa.
  - cbn [fround_nat ieeex to_usize]. replace (Zfloor (val (B754_zero s) + / 2)) with 0%Z; [reflexivity|]. symmetry. apply Zfloor_imp. cbn. lra.
  - destruct s; [exfalso; unfold L_ieee.val, B2R in Ha; pose proof (@F2R_lt_0 radix2 (Flocq.Core.Defs.Float radix2 (- Zpos m) e) ltac:(cbn; lia)); cbn in *; lra|].
    cbn [fround_nat ieeex to_usize]. unfold sat. rewrite zround_v. reflexivity.
Qed.
Lemma floor_mono x (a b : f32) : fin a -> fin b -> val a <= val b -> (@ffloor _ (ieeex x) a <= @ffloor _ (ieeex x) b)%nat.
Proof. intros Fa Fb E. rewrite !floor_v by assumption. pose proof (Zfloor_le _ _ E). lia. Qed.
Lemma floor_le x (a : f32) n : fin a -> val a < INR n + 1 -> (@ffloor _ (ieeex x) a <= n)%nat.
Proof.
  intros Fa E. rewrite floor_v by assumption. assert (Zfloor (val a) < Z.of_nat n + 1)%Z; [|lia]. apply lt_IZR. rewrite plus_IZR, <- INR_IZR_INZ. pose proof (Zfloor_lb (val a)). lra.
Qed.
Lemma floor_ge x (a : f32) n : fin a -> INR n <= val a -> INR n <= 16777216 -> (n <= @ffloor _ (ieeex x) a)%nat.
Proof.
  intros Fa E Hn. rewrite floor_v by assumption. assert (Z.of_nat n <= Zfloor (val a))%Z by (apply Zfloor_lub; rewrite <- INR_IZR_INZ; exact E).
  assert (Z.of_nat n <= 16777216)%Z by (apply le_IZR; rewrite <- INR_IZR_INZ; exact Hn). lia.
Qed.

(* ---- bins and pixels ---- *)
Section Bins.
Variables (o : libm B32) (x : libx B32).
Local Notation G := (ieee o).
Local Notation H := (ieeex x).
Lemma next_v n : INR n <= 4194304 -> fin (@fadd _ G (@fas _ G n) (@fone _ G)) /\ val (@fadd _ G (@fas _ G n) (@fone _ G)) = INR n + 1.
Proof.
  intros Hn. destruct (@as_exact _ o n ltac:(lra)) as [F V]. destruct (one_v o) as [F1 V1]. pose proof (pos_INR n). destruct (@add_r _ o _ _ F F1) as [Fs Vs]; [rewrite V, V1; apply maxf_sf; rewrite Rabs_pos_eq; lra|].
  split; [exact Fs|]. rewrite Vs, V, V1, <- S_INR, INR_IZR_INZ. rewrite <- (Rmult_1_r (IZR (Z.of_nat (S n)))). change 1 with (bpow radix2 0). apply int_format; [|lia].
  rewrite Z.abs_eq by lia. apply le_IZR. rewrite <- INR_IZR_INZ, S_INR. cbn. lra.
Qed.
(* the quotient before truncation *)
Definition place (b m : nat) : f32 := @fdiv _ G (@fmul _ G (@fas _ G m) (o_ln x (@fadd _ G (@fas _ G b) (@fone _ G)))) (o_ln x (@fadd _ G (@fas _ G m) (@fone _ G))).
Lemma place_ok b m : ln_ok x -> (1 <= m)%nat -> INR m <= 4194304 -> (b <= m)%nat ->
  fin (place b m) /\ 0 <= val (place b m) <= INR m + / 2 /\ (b = m -> INR m - / 2 <= val (place b m)) /\ (b = 0%nat -> val (place b m) = 0) /\
  exists l L, 0 <= l <= L /\ / 2 <= L /\ l = val (o_ln x (@fadd _ G (@fas _ G b) (@fone _ G))) /\ L = val (o_ln x (@fadd _ G (@fas _ G m) (@fone _ G))) /\ val (place b m) = rn (rn (INR m * l) / L).
Proof.
  intros HL H1 Hm Hb. assert (Hb' : INR b <= INR m) by (apply le_INR, Hb). assert (M1 : 1 <= INR m) by (change 1 with (INR 1); apply le_INR, H1). pose proof (pos_INR b) as B0.
  destruct (@next_v b ltac:(lra)) as [Fb Vb]. destruct (@next_v m Hm) as [Fm Vm]. destruct (HL _ _ Fb Fm) as (Fl & FL & Bl & BL & Z0 & HH); [lra|lra|]. specialize (HH ltac:(lra)).
  unfold place. set (l := o_ln x (@fadd _ G (@fas _ G b) (@fone _ G))) in *. set (L := o_ln x (@fadd _ G (@fas _ G m) (@fone _ G))) in *.
  destruct (@as_exact _ o m ltac:(lra)) as [Fa Va].
  assert (P : 0 <= INR m * val l <= INR m * val L) by (split; [apply Rmult_le_pos; lra|apply Rmult_le_compat_l; lra]).
  assert (PL : INR m * val L <= 4194304 * 100) by (apply Rmult_le_compat; lra).
  destruct (@mul_r _ o _ l Fa Fl) as [Fp Vp]; [rewrite Va; apply maxf_sf; rewrite Rabs_pos_eq; lra|]. rewrite Va in Vp.
  set (p := @fmul _ G (@fas _ G m) l) in *.
  assert (E : forall r, 0 <= r <= INR m * val L -> Rabs (rn r - r) <= / 2 * val L).
  { intros r Hr. eapply Rle_trans; [apply rn_err|]. pose proof (eta_small B32). pose proof (ui_small B32). assert (U : v0 B32 = / 16777216) by (unfold v0; cbn; lra). rewrite (Rabs_pos_eq r) by lra. rewrite U. assert (ui B32 <= / 1000000) by (unfold ui; rewrite U; lra).
    assert (INR m * val L <= 4194304 * val L) by (apply Rmult_le_compat_r; lra). lra. }
  assert (Bp : 0 <= val p <= (INR m + / 2) * val L).
  { rewrite Vp. split; [apply rn_pos; lra|]. pose proof (Rabs_le_inv _ _ (E _ P)). lra. }
  assert (Q : 0 <= val p / val L <= INR m + / 2).
  { split; [apply Rmult_le_pos; [lra|left; apply Rinv_0_lt_compat; lra]|]. apply Rmult_le_reg_r with (val L); [lra|]. unfold Rdiv. rewrite Rmult_assoc, Rinv_l by lra. lra. }
  destruct (@div_r _ o p L Fp FL) as [Fd Vd]; [lra|apply maxf_sf; rewrite Rabs_pos_eq; lra|].
  assert (HF : forall z : Z, (Z.abs z <= 2 ^ 24)%Z -> rn (IZR z * / 2) = IZR z * / 2) by (intros z Hz; apply (@int_format B32 z (Z.opp 1)); [exact Hz|lia]).
  assert (Zm : (0 <= Z.of_nat m <= 4194304)%Z) by (split; [lia|]; apply le_IZR; rewrite <- INR_IZR_INZ; exact Hm).
  split; [exact Fd|]. split; [|split; [|split]].
  - rewrite Vd. split; [apply rn_pos; lra|]. specialize (HF (2 * Z.of_nat m + 1)%Z ltac:(lia)). rewrite plus_IZR, mult_IZR, <- INR_IZR_INZ in HF.
    replace (INR m + / 2) with ((2 * INR m + 1) * / 2) by lra. rewrite <- HF. apply rn_mono. lra.
  - intros ->. rewrite Vd. specialize (HF (2 * Z.of_nat m - 1)%Z ltac:(lia)). rewrite minus_IZR, mult_IZR, <- INR_IZR_INZ in HF.
    replace (INR m - / 2) with ((2 * INR m - 1) * / 2) by lra. rewrite <- HF. apply rn_mono.
    apply Rmult_le_reg_r with (val L); [lra|]. replace (val p / val L * val L) with (val p) by (field; lra). rewrite Vp. change l with L. pose proof (Rabs_le_inv _ _ (E (INR m * val L) ltac:(lra))). lra.
  - intros ->. rewrite Vd, Vp, Z0, Rmult_0_r, rn_0 by (rewrite Vb; cbn; lra). unfold Rdiv. rewrite Rmult_0_l. apply rn_0.
  - exists (val l), (val L). split; [lra|]. split; [lra|]. split; [reflexivity|]. split; [reflexivity|]. rewrite Vd, Vp. reflexivity.
Qed.
Lemma pixel_place b m : (1 <= m)%nat -> @map_bin_to_pixel _ G H b m = @ffloor _ H (place b m).
Proof. intros Hm. unfold map_bin_to_pixel. destruct (Nat.eqb_spec m 0); [lia|]. reflexivity. Qed.
Lemma place_mono b b' m : ln_ok x -> (1 <= m)%nat -> INR m <= 4194304 -> (b <= b' <= m)%nat -> val (place b m) <= val (place b' m).
Proof.
  intros HL H1 Hm Hb. destruct (@place_ok b m HL H1 Hm ltac:(lia)) as (_ & _ & _ & _ & l & L & B1 & B2 & El & EL & E). destruct (@place_ok b' m HL H1 Hm ltac:(lia)) as (_ & _ & _ & _ & l' & L' & B1' & B2' & El' & EL' & E').
  rewrite E, E'. rewrite <- EL in EL'. subst L'. apply rn_mono. apply Rmult_le_compat_r; [left; apply Rinv_0_lt_compat; lra|]. apply rn_mono. apply Rmult_le_compat_l; [apply pos_INR|].
  assert (Hi : INR b <= INR b' <= INR m) by (split; apply le_INR; lia). destruct (@next_v b ltac:(lra)) as [Fb Vb]. destruct (@next_v b' ltac:(lra)) as [Fb' Vb']. destruct (HL _ _ Fb Fb') as (_ & _ & K & _); [rewrite Vb, Vb'; pose proof (pos_INR b); lra|lra|]. lra.
Qed.
End Bins.

Theorem C93_pixels : forall (o : libm B32) (x : libx B32) (m : nat), ln_ok x -> INR m <= 4194304 ->
  @map_bin_to_pixel _ (ieee o) (ieeex x) 0 m = 0%nat /\
  (forall b, (b <= m)%nat -> @map_bin_to_pixel _ (ieee o) (ieeex x) b m <= m)%nat /\
  (forall b b', (b <= b' <= m)%nat -> @map_bin_to_pixel _ (ieee o) (ieeex x) b m <= @map_bin_to_pixel _ (ieee o) (ieeex x) b' m)%nat /\
  (m - 1 <= @map_bin_to_pixel _ (ieee o) (ieeex x) m m)%nat /\
  (forall values, (length values <= m + 1)%nat -> exists l, @log_scale_bins _ (ieee o) (ieeex x) values m = Done l /\ length l = (m + 1)%nat).
Proof.
  intros o x m HL Hm. assert (B : forall b, (b <= m)%nat -> (@map_bin_to_pixel _ (ieee o) (ieeex x) b m <= m)%nat).
  { intros b Hb. destruct m as [|m]; [apply Nat.le_refl|]. rewrite pixel_place by lia. destruct (@place_ok o x b (S m) HL ltac:(lia) Hm Hb) as (F & P & _). apply floor_le; [exact F|lra]. }
  split; [|split; [exact B|split; [|split]]].
  - destruct m as [|m]; [reflexivity|]. rewrite pixel_place by lia. destruct (@place_ok o x 0 (S m) HL ltac:(lia) Hm ltac:(lia)) as (F & _ & _ & P & _).
    assert (@ffloor _ (ieeex x) (place o x 0 (S m)) <= 0)%nat; [|lia]. apply floor_le; [exact F|]. rewrite P by reflexivity. cbn. lra.
  - intros b b' Hb. destruct m as [|m]; [apply Nat.le_refl|]. rewrite !pixel_place by lia. apply floor_mono; [apply place_ok; assumption || lia|apply place_ok; assumption || lia|apply place_mono; assumption || lia].
  - destruct m as [|m]; [cbn; lia|]. rewrite pixel_place by lia. destruct (@place_ok o x (S m) (S m) HL ltac:(lia) Hm ltac:(lia)) as (F & _ & P & _). specialize (P eq_refl). rewrite S_INR in *. pose proof (pos_INR m). replace (S m - 1)%nat with m by lia. apply floor_ge; [exact F|lra|lra].
  - intros values Hv. apply (proj1 (@C59_panics_iff _ (ieee o) (ieeex x) values m)). intros b Hb. apply B. lia.
Qed.
Print Assumptions C93_pixels.

(* ---- ln 2 to eight digits ---- *)
Fixpoint ath (n : nat) (t : R) : R := match n with O => 0 | S k => ath k t + t ^ (2 * k + 1) / INR (2 * k + 1) end.
Fixpoint geo (n : nat) (t : R) : R := match n with O => 0 | S k => geo k t + t ^ (2 * k) end.
Lemma ath_d n t : derivable_pt_lim (ath n) t (geo n t).
Proof.
  induction n as [|k IH]; [apply derivable_pt_lim_const|]. cbn [ath geo]. apply (derivable_pt_lim_plus (ath k) (fun t => t ^ (2 * k + 1) / INR (2 * k + 1))); [exact IH|].
  assert (N : INR (2 * k + 1) <> 0) by (apply not_0_INR; lia).
  replace (t ^ (2 * k)%nat) with ((INR (2 * k + 1) * t ^ Nat.pred (2 * k + 1)) * / INR (2 * k + 1)) by (replace (Nat.pred (2 * k + 1)) with (2 * k)%nat by lia; field; exact N).
  unfold Rdiv. pose proof (derivable_pt_lim_scal (fun t => t ^ (2 * k + 1)) (/ INR (2 * k + 1)) t _ (derivable_pt_lim_pow t (2 * k + 1))) as D.
  unfold mult_real_fct in D. rewrite (Rmult_comm (_ * _)). eapply derivable_pt_lim_ext; [|exact D]. intros z. apply Rmult_comm.
Qed.
Lemma geo_v n t : geo n t * (1 - t * t) = 1 - t ^ (2 * n).
Proof. induction n as [|k IH]; [cbn; ring|]. cbn [geo]. rewrite Rmult_plus_distr_r, IH. replace (2 * S k)%nat with (2 * k + 2)%nat by lia. rewrite pow_add. cbn. ring. Qed.
Lemma ln2_bound : 2 * ath 9 (/ 3) <= ln 2 <= 2 * ath 9 (/ 3) + / 500000000.
Proof.
  set (h := fun t => ln (1 + t) - ln (1 - t) - 2 * ath 9 t).
  assert (D : forall c, 0 <= c <= / 3 -> derivable_pt_lim h c (/ (1 + c) * 1 - / (1 - c) * (- 1) - 2 * geo 9 c)).
  { intros c Hc. unfold h. apply derivable_pt_lim_minus; [apply derivable_pt_lim_minus|].
    - apply (derivable_pt_lim_comp (fun t => 1 + t) ln c 1 (/ (1 + c))); [|apply derivable_pt_lim_ln; lra]. assert (D1 : derivable_pt_lim (fun t => 1 + t) c (0 + 1)); [|rewrite Rplus_0_l in D1; exact D1]. apply (derivable_pt_lim_plus (fun _ => 1) (fun t => t)); [apply derivable_pt_lim_const|apply derivable_pt_lim_id].
    - apply (derivable_pt_lim_comp (fun t => 1 - t) ln c (-1) (/ (1 - c))); [|apply derivable_pt_lim_ln; lra]. assert (D1 : derivable_pt_lim (fun t => 1 - t) c (0 - 1)); [|replace (0 - 1) with (-1) in D1 by ring; exact D1]. apply (derivable_pt_lim_minus (fun _ => 1) (fun t => t)); [apply derivable_pt_lim_const|apply derivable_pt_lim_id].
    - apply (derivable_pt_lim_scal (ath 9) 2 c _ (ath_d 9 c)). }
  destruct (@MVT_cor2 h (fun c => / (1 + c) * 1 - / (1 - c) * (- 1) - 2 * geo 9 c) 0 (/ 3)) as (c & E & Hc); [lra|exact D|]. cbv beta in E.
  assert (H0 : h 0 = 0). { unfold h. rewrite Rplus_0_r, Rminus_0_r, ln_1. cbn [ath Nat.mul Nat.add]. rewrite !pow_i by lia. unfold Rdiv. rewrite !Rmult_0_l. ring. }
  assert (H3 : h (/ 3) = ln 2 - 2 * ath 9 (/ 3)). { unfold h. replace (1 + / 3) with (2 * (1 - / 3)) by lra. rewrite ln_mult by lra. ring. }
  rewrite H0, H3 in E. set (g := geo 9 c) in *. assert (Eg : g = (1 - c ^ 18) / (1 - c * c)). { unfold g. apply Rmult_eq_reg_r with (1 - c * c); [|nra]. rewrite geo_v. change (2 * 9)%nat with 18%nat. field. nra. }
  assert (K : / (1 + c) * 1 - / (1 - c) * - 1 - 2 * g = 2 * c ^ 18 / (1 - c * c)). { rewrite Eg. field. repeat split; nra. }
  rewrite K in E. assert (C18 : 0 <= c ^ 18 <= (/ 3) ^ 18) by (split; [apply pow_le; lra|apply pow_incr; lra]).
  assert (I : 0 < / (1 - c * c) <= 9 / 8). { split; [apply Rinv_0_lt_compat; nra|]. replace (9 / 8) with (/ (8 / 9)) by lra. apply Rinv_le_contravar; nra. }
  assert (J : 0 <= 2 * c ^ 18 / (1 - c * c) <= 2 * (/ 3) ^ 18 * (9 / 8)). { unfold Rdiv. split; [apply Rmult_le_pos; lra|apply Rmult_le_compat; lra]. }
  assert (V : (/ 3) ^ 18 = / 387420489) by (rewrite pow_inv; f_equal; cbn; lra). rewrite V in J. lra.
Qed.
Lemma ln16_rn : rn (ln 16) = 11629080 / 4194304.
Proof.
  assert (E : ln 16 = 4 * ln 2). { replace 16 with (2 * 2 * (2 * 2)) by lra. rewrite !ln_mult by lra. lra. }
  pose proof ln2_bound as B. assert (A : 0.693147178 <= 2 * ath 9 (/ 3) <= 0.693147181). { cbn [ath]. rewrite !pow_inv. cbn [INR Nat.mul Nat.add]. cbn [pow Nat.mul Nat.add]. lra. }
  assert (R : 2.772588712 <= ln 16 <= 2.772588733) by (rewrite E; lra).
  assert (M : mag radix2 (ln 16) = 2%Z :> Z). { apply mag_unique_pos. cbn. lra. }
  unfold L_ieee.rn, round, scaled_mantissa, cexp. rewrite M. change (SpecFloat.fexp (precf B32) (emaxf B32) 2) with (-22)%Z.
  rewrite (@Znearest_imp _ _ 11629080).
  - unfold F2R. cbn. lra.
  - apply Rabs_def1; cbn; lra.
Qed.
(* a cell that is never hit keeps its values *)
Lemma bin_loop_miss {T} {F : Float T} {X : FloatX T} mb y : forall (vs : list T) b acc counts acc' counts', (forall k, (b <= k < b + length vs)%nat -> map_bin_to_pixel k mb <> y) ->
  bin_loop mb b vs acc counts = Done (acc', counts') -> (forall d, nth y acc' d = nth y acc d) /\ (forall d, nth y counts' d = nth y counts d).
Proof.
  induction vs as [|v vs IH]; intros b acc counts acc' counts' Hk E; cbn [bin_loop] in E.
  - injection E as <- <-. split; reflexivity.
  - destruct (get acc _) as [a| |] eqn:E1; try discriminate. cbn [bind] in E. unfold set at 1 in E. destruct (Nat.ltb_spec (map_bin_to_pixel b mb) (length acc)); try discriminate. cbn [bind] in E.
    destruct (get counts _) as [n| |] eqn:E2; try discriminate. cbn [bind] in E. unfold set at 1 in E. destruct (Nat.ltb_spec (map_bin_to_pixel b mb) (length counts)); try discriminate. cbn [bind] in E.
    apply IH in E; [|intros k Hk'; apply Hk; cbn [length]; lia]. assert (N : map_bin_to_pixel b mb <> y) by (apply Hk; cbn [length]; lia).
    destruct E as [A C]. split; intros d; [rewrite A|rewrite C]; rewrite nth_upd by assumption; destruct (Nat.eqb_spec y (map_bin_to_pixel b mb)); try congruence; reflexivity.
Qed.

(* in exact arithmetic the last bin goes to the last pixel (C59_pixel); in f32 with 16 bins it goes to the last but one, and
   the last pixel is 0 whatever the values. ln 16 need only be rounded correctly. *)
Theorem C93_last_pixel_refuted : forall (o : libm B32) (x : libx B32), ln_ok x -> ln_rounded x 16 ->
  @map_bin_to_pixel _ (ieee o) (ieeex x) 15 15 = 14%nat /\
  forall values, length values = 16%nat -> exists l, @log_scale_bins _ (ieee o) (ieeex x) values 15 = Done l /\ length l = 16%nat /\ nth 15 l B754_nan = B754_zero false.
Proof.
  intros o x HL HR. assert (I15 : INR 15 = 15) by (cbn; lra). assert (P : @map_bin_to_pixel _ (ieee o) (ieeex x) 15 15 = 14%nat).
  { rewrite pixel_place by lia. unfold place. destruct (@next_v o 15) as [F V]; [rewrite I15; lra|]. destruct (HR _ F) as [FL VL]; [rewrite V, I15; lra|]. rewrite ln16_rn in VL.
    set (L := o_ln x _) in *. replace L with (norm B32 11629080 (-22)); [vm_compute; reflexivity|].
    destruct (@kflt_val 11629080 (-22) (norm B32 11629080 (-22))) as [FN VN]; [vm_compute; reflexivity|].
    assert (V' : val L = IZR 11629080 * bpow radix2 (-22)) by (rewrite VL; cbn; lra).
    apply B2R_Bsign_inj; [exact FN|exact FL|exact (eq_trans VN (eq_sym V'))|]. rewrite (pos_sign FL) by (rewrite VL; lra). apply (pos_sign FN). rewrite VN. cbn. lra. }
  split; [exact P|]. intros values Hv. destruct (@C93_pixels o x 15 HL) as (_ & Bd & Mo & _ & T); [rewrite I15; lra|]. destruct (T values) as (l & E & Ll); [lia|]. exists l. split; [exact E|]. split; [exact Ll|].
  unfold log_scale_bins in E. destruct (bin_loop _ _ _ _ _) as [[acc counts]| |] eqn:EB; cbn [bind] in E; try discriminate. injection E as <-.
  destruct (@bin_loop_total _ (ieee o) (ieeex x) 15 values 0 (repeat (@fzero _ (ieee o)) 16) (repeat 0%nat 16)) as (a' & c' & E' & La & Lc'); [apply repeat_length|apply repeat_length|intros j Hj; apply Bd; lia|].
  change (15 + 1)%nat with 16%nat in EB. rewrite E' in EB. injection EB as -> ->. rename E' into EB.
  destruct (@bin_loop_miss _ (ieee o) (ieeex x) 15 15 values 0%nat _ _ _ _ ltac:(intros k Hk; rewrite Hv in Hk; specialize (Mo k 15%nat ltac:(lia)); lia) EB) as [A C].
  rewrite map_length in Ll. rewrite combine_length in Ll.
  etransitivity; [apply nth_indep with (d' := (fun '(a, n) => if (0 <? n)%nat then @fdiv _ (ieee o) a (@fas _ (ieee o) n) else a) (@fzero _ (ieee o), 0%nat)); rewrite map_length, combine_length; lia|].
  rewrite map_nth. rewrite combine_nth by lia. rewrite A, C. reflexivity.
Qed.
Print Assumptions C93_last_pixel_refuted.

(* ---- decibels ---- *)
(* a number or an infinity *)
Definition nn (a : f32) : Prop := is_nan a = false.
(* log10 of a number from 10^-10 on (or of infinity) is not NaN *)
Definition log_ok (o : libm B32) (x : libx B32) : Prop := forall a, nn a -> Bleb (@flit _ (ieee o) (1 # 10000000000)) a = true -> nn (o_log10 x a).
Lemma fin_nn a : fin a -> nn a. Proof. destruct a; try discriminate; reflexivity. Qed.
Lemma leb_total (a b : f32) : nn a -> nn b -> Bltb a b = false -> Bleb b a = true.
Proof.
  intros Na Nb E. destruct a as [s|s| |s m e Ha] eqn:Ea; try discriminate Na; destruct b as [s'|s'| |s' m' e' Hb] eqn:Eb; try discriminate Nb; try (destruct s, s'; (reflexivity || discriminate E)); try (destruct s'; (reflexivity || discriminate E)); try (destruct s; (reflexivity || discriminate E)).
  rewrite <- Ea, <- Eb in *. assert (Fa : is_finite a = true) by (rewrite Ea; reflexivity). assert (Fb : is_finite b = true) by (rewrite Eb; reflexivity).
  rewrite Bltb_correct in E by assumption. rewrite Bleb_correct by assumption. destruct (Rlt_bool_spec (B2R a) (B2R b)); [discriminate|]. apply Rle_bool_true. assumption.
Qed.
Lemma leb_refl (a : f32) : nn a -> Bleb a a = true.
Proof.
  intros Na. apply leb_total; try assumption. destruct a as [s|s| |s m e Ha] eqn:Ea; try discriminate Na; try (destruct s; reflexivity). rewrite <- Ea. assert (Fa : is_finite a = true) by (rewrite Ea; reflexivity). rewrite Bltb_correct by assumption. apply Rlt_bool_false. lra.
Qed.
Lemma max_nn x (a b : f32) : nn b -> nn (@fmaxf _ (ieeex x) a b) /\ Bleb b (@fmaxf _ (ieeex x) a b) = true.
Proof.
  intros Nb. cbn [fmaxf ieeex]. destruct (is_nan a) eqn:Na; [split; [exact Nb|apply leb_refl, Nb]|]. unfold nn in Nb. rewrite Nb. destruct (Bltb a b) eqn:E; [split; [exact Nb|apply leb_refl, Nb]|]. split; [exact Na|apply leb_total; assumption].
Qed.
Theorem C93_db : forall (o : libm B32) (x : libx B32) mag max floor, nn floor ->
  nn (@magnitude_to_db _ (ieee o) (ieeex x) mag max floor) /\ Bleb floor (@magnitude_to_db _ (ieee o) (ieeex x) mag max floor) = true.
Proof.
  intros o x mag max floor Nf. unfold magnitude_to_db. destruct (_ || _)%bool; [split; [exact Nf|apply leb_refl, Nf]|apply max_nn, Nf].
Qed.
Print Assumptions C93_db.

Section Nan.
Variables (o : libm B32) (x : libx B32).
Local Notation G := (ieee o).
Local Notation H := (ieeex x).
Lemma ov_nn r s : B2SF r = binary_overflow (precf B32) (emaxf B32) mode_NE s -> nn r.
Proof. intros E. destruct r as [s'|s'| |s' m e Hb]; try reflexivity. discriminate E. Qed.
Lemma add_nn (a b : f32) : nn a -> fin b -> nn (@fadd _ G a b).
Proof.
  intros Na Fb. destruct a as [s|s| |s m e Ha] eqn:Ea; try discriminate Na.
  - destruct b as [t|t| |t m e Hb]; try discriminate Fb; try reflexivity. destruct s, t; reflexivity.
  - destruct b as [t|t| |t m e Hb]; try discriminate Fb; reflexivity.
  - rewrite <- Ea. assert (Fa : is_finite a = true) by (rewrite Ea; reflexivity). cbn [fadd ieee]. pose proof (Bplus_correct _ _ (precf_pos B32) (precf_emax B32) mode_NE a b Fa Fb) as P. destruct (Rlt_bool _ _) in P.
    + apply fin_nn. apply P.
    + eapply ov_nn. apply P.
Qed.
Lemma div_nn (a b : f32) : nn a -> fin b -> val b <> 0 -> nn (@fdiv _ G a b).
Proof.
  intros Na Fb Nb. destruct a as [s|s| |s m e Ha] eqn:Ea; try discriminate Na.
  - destruct b as [t|t| |t m e Hb]; try discriminate Fb; [cbn in Nb; lra|reflexivity].
  - destruct b as [t|t| |t m e Hb]; try discriminate Fb; [cbn in Nb; lra|reflexivity].
  - rewrite <- Ea. assert (Fa : is_finite a = true) by (rewrite Ea; reflexivity). cbn [fdiv ieee]. pose proof (Bdiv_correct _ _ (precf_pos B32) (precf_emax B32) mode_NE a b Nb) as P. destruct (Rlt_bool _ _) in P.
    + apply fin_nn. unfold L_ieee.fin. destruct P as (_ & P & _). rewrite P. exact Fa.
    + eapply ov_nn. apply P.
Qed.
Lemma mul_nn (a b : f32) : fin a -> val a <> 0 -> nn b -> nn (@fmul _ G a b).
Proof.
  intros Fa Va Nb. destruct b as [s|s| |s m e Hb] eqn:Eb; try discriminate Nb.
  - destruct a as [t|t| |t m e Ha]; try discriminate Fa; reflexivity.
  - destruct a as [t|t| |t m e Ha]; try discriminate Fa; [cbn in Va; lra|reflexivity].
  - rewrite <- Eb. assert (Fb : is_finite b = true) by (rewrite Eb; reflexivity). cbn [fmul ieee]. pose proof (Bmult_correct _ _ (precf_pos B32) (precf_emax B32) mode_NE a b) as P. destruct (Rlt_bool _ _) in P.
    + apply fin_nn. unfold L_ieee.fin in *. destruct P as (_ & P & _). rewrite P, Fa, Fb. reflexivity.
    + eapply ov_nn. apply P.
Qed.
Lemma clamp_nn (a : f32) : nn a -> let c := @fclamp _ H a (@fzero _ G) (@fone _ G) in fin c /\ 0 <= val c <= 1.
Proof.
  intros Na c. destruct (clamp_ok o x a) as [E|E]; [|exact E]. exfalso. unfold fclamp in E. destruct (fltb a fzero); [discriminate E|]. destruct (fltb fone a); [vm_compute in E; discriminate E|]. unfold nn in Na. congruence.
Qed.
Lemma twenty : fin (@flit _ G 20) /\ val (@flit _ G 20) = 20.
Proof. destruct (@kflt_val 10485760 (-19) (@flit _ G 20)) as [A B]; [vm_compute; reflexivity|]. split; [exact A|]. rewrite B. cbn. lra. Qed.
End Nan.
(* a number in [0, 1] for every magnitude and maximum, zero, infinite and NaN included *)
Theorem C93_db_scale : forall (o : libm B32) (x : libx B32) mag max range, log_ok o x -> fin range -> 0 < val range ->
  let s := @db_scale _ (ieee o) (ieeex x) mag max range in fin s /\ 0 <= val s <= 1.
Proof.
  intros o x mag max range HL Fr Pr s. unfold s, db_scale. cbv zeta. apply clamp_nn. destruct (twenty o) as [F20 V20].
  apply div_nn; [|exact Fr|lra]. apply add_nn; [|exact Fr]. apply mul_nn; [exact F20|lra|]. cbn [flog10 ieeex].
  destruct (@max_nn x (@fdiv _ (ieee o) mag max) (@flit _ (ieee o) (1 # 10000000000))) as [A B]; [vm_compute; reflexivity|]. apply HL; assumption.
Qed.
Print Assumptions C93_db_scale.
Lemma div_self (o : libm B32) (a : f32) : fin a -> 0 < val a -> @fdiv _ (ieee o) a a = @fone _ (ieee o).
Proof.
  intros Fa Pa. destruct (one_v o) as [F1 V1]. assert (E : val a / val a = 1) by (field; lra). destruct (@div_r _ o a a Fa Fa) as [F V]; [lra|rewrite E; apply maxf_sf; rewrite Rabs_pos_eq; lra|].
  rewrite E in V. assert (V' : val (@fdiv _ (ieee o) a a) = 1) by (rewrite V; rewrite <- V1; apply rn_val).
  apply B2R_Bsign_inj; [exact F|exact F1|exact (eq_trans V' (eq_sym V1))|]. rewrite (pos_sign F), (pos_sign F1); [reflexivity| |]; lra.
Qed.
(* with a dynamic range of 0 dB the loudest bin is NaN *)
Theorem C93_zero_range_refuted : forall (o : libm B32) (x : libx B32) mag, fin mag -> 0 < val mag -> o_log10 x (@fone _ (ieee o)) = B754_zero false ->
  @db_scale _ (ieee o) (ieeex x) mag mag (B754_zero false) = B754_nan.
Proof.
  intros o x mag Fm Pm HL. unfold db_scale. cbv zeta. rewrite div_self by assumption.
  replace (@fmaxf _ (ieeex x) (@fone _ (ieee o)) (@flit _ (ieee o) (1 # 10000000000))) with (@fone _ (ieee o)) by (apply B2SF_inj; vm_compute; reflexivity).
  cbn [flog10 ieeex]. rewrite HL. vm_compute. reflexivity.
Qed.
Print Assumptions C93_zero_range_refuted.

(* ---- colours ---- *)
Definition within (c d v : rgb) : Prop :=
  let '(c0, c1, c2) := c in let '(d0, d1, d2) := d in let '(v0, v1, v2) := v in
  (Nat.min c0 d0 <= v0 <= Nat.max c0 d0 /\ Nat.min c1 d1 <= v1 <= Nat.max c1 d1 /\ Nat.min c2 d2 <= v2 <= Nat.max c2 d2)%nat.
(* the colour of t lies channel by channel between the colours of the two stops around t *)
Definition between_stops (table : list (R * rgb)) (t : R) (v : rgb) : Prop :=
  exists i p c q d, nth_error table i = Some (p, c) /\ nth_error table (S i) = Some (q, d) /\ p - / 10000000 <= t <= q + / 10000000 /\ within c d v.
Section Col.
Variables (o : libm B32) (x : libx B32).
Local Notation G := (ieee o).
Local Notation H := (ieeex x).
Lemma lerp_b a b (t : f32) : (a <= 255)%nat -> (b <= 255)%nat -> fin t -> 0 <= val t <= 1 -> (Nat.min a b <= @lerp_u8 _ G H a b t <= Nat.max a b)%nat.
Proof.
  intros Ha Hb Ft Ht. unfold lerp_u8, as_u8. assert (I : forall n, (n <= 255)%nat -> 0 <= INR n <= 255) by (intros n Hn; split; [apply pos_INR|]; apply le_INR in Hn; rewrite (INR_IZR_INZ 255) in Hn; exact Hn).
  pose proof (I a Ha) as Ia. pose proof (I b Hb) as Ib. destruct (@as_exact _ o a ltac:(lra)) as [Fa Va]. destruct (@as_exact _ o b ltac:(lra)) as [Fb Vb].
  destruct (@sub_r _ o _ _ Fb Fa) as [Fd Vd]; [rewrite Va, Vb; apply maxf_sf, Rabs_le; lra|].
  assert (Ed : val (@fsub _ G (@fas _ G b) (@fas _ G a)) = INR b - INR a).
  { rewrite Vd, Va, Vb, !INR_IZR_INZ, <- minus_IZR. rewrite <- (Rmult_1_r (IZR _)). change 1 with (bpow radix2 0). apply int_format; lia. }
  assert (X : INR a + (INR b - INR a) = INR b) by lra.
  assert (M : fin (@fmul _ G (@fsub _ G (@fas _ G b) (@fas _ G a)) t) /\ ((INR a <= INR b -> 0 <= val (@fmul _ G (@fsub _ G (@fas _ G b) (@fas _ G a)) t) <= INR b - INR a) /\ (INR b <= INR a -> INR b - INR a <= val (@fmul _ G (@fsub _ G (@fas _ G b) (@fas _ G a)) t) <= 0))).
  { destruct (Rle_dec (INR a) (INR b)) as [L|L].
    - destruct (@mul_b o _ t (@fzero _ G) (@fsub _ G (@fas _ G b) (@fas _ G a)) Fd Ft eq_refl Fd) as [F B]; [rewrite Ed; change (val (@fzero _ G)) with 0; nra|]. rewrite Ed in B. change (val (@fzero _ G)) with 0 in B. split; [exact F|]. split; intros; lra.
    - destruct (@mul_b o _ t (@fsub _ G (@fas _ G b) (@fas _ G a)) (@fzero _ G) Fd Ft Fd eq_refl) as [F B]; [rewrite Ed; change (val (@fzero _ G)) with 0; nra|]. rewrite Ed in B. change (val (@fzero _ G)) with 0 in B. split; [exact F|]. split; intros; lra. }
  destruct M as (Fm & M1 & M2). set (w := @fmul _ G (@fsub _ G (@fas _ G b) (@fas _ G a)) t) in *.
  destruct (Nat.le_ge_cases a b) as [L|L]; pose proof (le_INR _ _ L) as L'.
  - specialize (M1 L'). destruct (@add_b o _ w (@fas _ G a) (@fas _ G b) Fa Fm Fa Fb) as [F B]; [rewrite Va, Vb; lra|]. rewrite Va, Vb in B.
    pose proof (@floor_le x _ b F ltac:(lra)). pose proof (@floor_ge x _ a F ltac:(lra) ltac:(lra)). lia.
  - specialize (M2 L'). destruct (@add_b o _ w (@fas _ G b) (@fas _ G a) Fa Fm Fb Fa) as [F B]; [rewrite Va, Vb; lra|]. rewrite Va, Vb in B.
    pose proof (@floor_le x _ a F ltac:(lra)). pose proof (@floor_ge x _ b F ltac:(lra) ltac:(lra)). lia.
Qed.
Lemma lerp3_b c d (t : f32) : byte3 c -> byte3 d -> fin t -> 0 <= val t <= 1 -> within c d (@lerp3 _ G H c d t).
Proof. destruct c as [[c0 c1] c2], d as [[d0 d1] d2]. cbn [byte3 within lerp3]. intros (?&?&?) (?&?&?) F V. repeat split; apply lerp_b; assumption. Qed.
(* position between two stops *)
Lemma local_b (s e t : f32) : fin s -> fin e -> fin t -> 0 <= val s -> val e <= 1 -> val s <= val t <= val e -> 0 < val (@fsub _ G e s) -> let l := @fdiv _ G (@fsub _ G t s) (@fsub _ G e s) in fin l /\ 0 <= val l <= 1.
Proof.
  intros Fs Fe Ft Hs He Ht Hd l. destruct (one_v o) as [F1 V1]. destruct (@sub_r _ o e s Fe Fs) as [Fd Vd]; [apply maxf_sf, Rabs_le; lra|]. destruct (@sub_r _ o t s Ft Fs) as [Fn Vn]; [apply maxf_sf, Rabs_le; lra|].
  assert (N : 0 <= val (@fsub _ G t s) <= val (@fsub _ G e s)) by (rewrite Vn, Vd; split; [apply rn_pos; lra|apply rn_mono; lra]).
  destruct (@div_b o _ _ (@fzero _ G) (@fone _ G) Fn Fd ltac:(lra) eq_refl F1) as [F B].
  - rewrite V1. change (val (@fzero _ G)) with 0. split; [apply Rmult_le_pos; [lra|left; apply Rinv_0_lt_compat; lra]|]. apply Rmult_le_reg_r with (val (@fsub _ G e s)); [lra|]. unfold Rdiv. rewrite Rmult_assoc, Rinv_l by lra. lra.
  - rewrite V1 in B. change (val (@fzero _ G)) with 0 in B. split; [exact F|exact B].
Qed.
Lemma lit_v q m e : kflt m e (@flit _ G q) -> fin (@flit _ G q) /\ val (@flit _ G q) = IZR (Zpos m) * bpow radix2 e.
Proof. intros K. exact (kflt_val K). Qed.
End Col.
Section Grad.
Variables (o : libm B32) (x : libx B32).
Local Notation G := (ieee o).
Local Notation H := (ieeex x).
Lemma clamp_id (t : f32) : fin t -> 0 <= val t <= 1 -> @fclamp _ H t (@fzero _ G) (@fone _ G) = t.
Proof.
  intros Ft Ht. destruct (one_v o) as [F1 V1]. unfold fclamp. rewrite (ltb_r x Ft (eq_refl : fin (@fzero _ G))), (ltb_r x F1 Ft), V1. change (val (@fzero _ G)) with 0.
  rewrite !Rlt_bool_false by lra. reflexivity.
Qed.
Lemma q25 : fin (@flit _ G (1 # 4)) /\ val (@flit _ G (1 # 4)) = 1 / 4.
Proof. destruct (@kflt_val 8388608 (-25) (@flit _ G (1 # 4))) as [A B]; [vm_compute; reflexivity|]. split; [exact A|]. rewrite B. cbn. lra. Qed.
Lemma q50 : fin (@flit _ G (1 # 2)) /\ val (@flit _ G (1 # 2)) = 1 / 2.
Proof. destruct (@kflt_val 8388608 (-24) (@flit _ G (1 # 2))) as [A B]; [vm_compute; reflexivity|]. split; [exact A|]. rewrite B. cbn. lra. Qed.
Lemma q75 : fin (@flit _ G (3 # 4)) /\ val (@flit _ G (3 # 4)) = 3 / 4.
Proof. destruct (@kflt_val 12582912 (-24) (@flit _ G (3 # 4))) as [A B]; [vm_compute; reflexivity|]. split; [exact A|]. rewrite B. cbn. lra. Qed.
Lemma q90 : fin (@flit _ G (9 # 10)) /\ val (@flit _ G (9 # 10)) = 15099494 / 16777216.
Proof. destruct (@kflt_val 15099494 (-24) (@flit _ G (9 # 10))) as [A B]; [vm_compute; reflexivity|]. split; [exact A|]. rewrite B. cbn. lra. Qed.
Lemma gap (e s : f32) m k : B2SF (@fsub _ G e s) = SpecFloat.S754_finite false m k -> 0 < val (@fsub _ G e s).
Proof. intros E. destruct (@kflt_val m k (@fsub _ G e s) E) as [_ ->]. apply Rmult_lt_0_compat; [apply IZR_lt; reflexivity|apply bpow_gt_0]. Qed.
Ltac byte := cbn; repeat split; lia.
Lemma fire_b t : fin t -> 0 <= val t <= 1 -> between_stops fire_table (val t) (@fire_color _ G H t).
Proof.
  intros Ft Ht. destruct (one_v o) as [F1 V1]. destruct q25 as [Fq Vq]. destruct q50 as [Fh Vh]. destruct q75 as [Fp Vp]. assert (F0 : fin (@fzero _ G)) by reflexivity. assert (V0 : val (@fzero _ G) = 0) by reflexivity.
  unfold fire_color. cbn [find_window fire_stops in_window fst snd]. unfold in_window. cbn [fst snd]. rewrite (leb_r x F0 Ft), (leb_r x Ft Fq), (leb_r x Fq Ft), (leb_r x Ft Fh), (leb_r x Fh Ft), (leb_r x Ft Fp), (leb_r x Fp Ft), (leb_r x Ft F1). rewrite V0, Vq, Vh, Vp, V1.
  rewrite (Rle_bool_true 0 (val t)), (Rle_bool_true (val t) 1) by lra. cbn [andb].
  destruct (Rle_bool_spec (val t) (1 / 4)) as [E1|E1]; [|rewrite (Rle_bool_true (1 / 4)) by lra; cbn [andb]; destruct (Rle_bool_spec (val t) (1 / 2)) as [E2|E2]; [|rewrite (Rle_bool_true (1 / 2)) by lra; cbn [andb]; destruct (Rle_bool_spec (val t) (3 / 4)) as [E3|E3]; [|rewrite (Rle_bool_true (3 / 4)) by lra; cbn [andb]]]]; cbn [fst snd].
  - exists 0%nat. do 4 eexists. split; [reflexivity|]. split; [reflexivity|]. split; [lra|]. destruct (@local_b o (@fzero _ G) (@flit _ G (1 # 4)) t F0 Fq Ft) as [A B]; try lra; [eapply gap; vm_compute; reflexivity|]. apply lerp3_b; try assumption; byte.
  - exists 1%nat. do 4 eexists. split; [reflexivity|]. split; [reflexivity|]. split; [lra|]. destruct (@local_b o (@flit _ G (1 # 4)) (@flit _ G (1 # 2)) t Fq Fh Ft) as [A B]; try lra; [eapply gap; vm_compute; reflexivity|]. apply lerp3_b; try assumption; byte.
  - exists 2%nat. do 4 eexists. split; [reflexivity|]. split; [reflexivity|]. split; [lra|]. destruct (@local_b o (@flit _ G (1 # 2)) (@flit _ G (3 # 4)) t Fh Fp Ft) as [A B]; try lra; [eapply gap; vm_compute; reflexivity|]. apply lerp3_b; try assumption; byte.
  - exists 3%nat. do 4 eexists. split; [reflexivity|]. split; [reflexivity|]. split; [lra|]. destruct (@local_b o (@flit _ G (3 # 4)) (@fone _ G) t Fp F1 Ft) as [A B]; try lra; [eapply gap; vm_compute; reflexivity|]. apply lerp3_b; try assumption; byte.
Qed.
Lemma rainbow_b t : fin t -> 0 <= val t <= 1 -> between_stops rainbow_table (val t) (@rainbow_color _ G H t).
Proof.
  intros Ft Ht. destruct (one_v o) as [F1 V1]. destruct q25 as [Fq Vq]. destruct q50 as [Fh Vh]. destruct q75 as [Fp Vp]. destruct q90 as [F9 V9]. assert (F0 : fin (@fzero _ G)) by reflexivity. assert (V0 : val (@fzero _ G) = 0) by reflexivity.
  unfold rainbow_color. cbn [rainbow_pair rainbow_stops fst snd]. rewrite (ltb_r x Fq Ft), (ltb_r x Fh Ft), (ltb_r x Fp Ft), (ltb_r x F9 Ft), (ltb_r x F1 Ft). rewrite Vq, Vh, Vp, V9, V1.
  rewrite (Rlt_bool_false 1 (val t)) by lra.
  destruct (Rlt_bool_spec (1 / 4) (val t)) as [E1|E1]; [destruct (Rlt_bool_spec (1 / 2) (val t)) as [E2|E2]; [destruct (Rlt_bool_spec (3 / 4) (val t)) as [E3|E3]; [destruct (Rlt_bool_spec (15099494 / 16777216) (val t)) as [E4|E4]|]|]|]; cbn [fst snd]; cbv zeta.
  - exists 4%nat. do 4 eexists. split; [reflexivity|]. split; [reflexivity|]. split; [lra|]. replace (@fltb _ H (@flit _ G (9 # 10)) (@fone _ G)) with true by (vm_compute; reflexivity). destruct (@local_b o (@flit _ G (9 # 10)) (@fone _ G) t F9 F1 Ft) as [A B]; try lra; [eapply gap; vm_compute; reflexivity|]. apply lerp3_b; try assumption; byte.
  - exists 3%nat. do 4 eexists. split; [reflexivity|]. split; [reflexivity|]. split; [lra|]. replace (@fltb _ H (@flit _ G (3 # 4)) (@flit _ G (9 # 10))) with true by (vm_compute; reflexivity). destruct (@local_b o (@flit _ G (3 # 4)) (@flit _ G (9 # 10)) t Fp F9 Ft) as [A B]; try lra; [eapply gap; vm_compute; reflexivity|]. apply lerp3_b; try assumption; byte.
  - exists 2%nat. do 4 eexists. split; [reflexivity|]. split; [reflexivity|]. split; [lra|]. replace (@fltb _ H (@flit _ G (1 # 2)) (@flit _ G (3 # 4))) with true by (vm_compute; reflexivity). destruct (@local_b o (@flit _ G (1 # 2)) (@flit _ G (3 # 4)) t Fh Fp Ft) as [A B]; try lra; [eapply gap; vm_compute; reflexivity|]. apply lerp3_b; try assumption; byte.
  - exists 1%nat. do 4 eexists. split; [reflexivity|]. split; [reflexivity|]. split; [lra|]. replace (@fltb _ H (@flit _ G (1 # 4)) (@flit _ G (1 # 2))) with true by (vm_compute; reflexivity). destruct (@local_b o (@flit _ G (1 # 4)) (@flit _ G (1 # 2)) t Fq Fh Ft) as [A B]; try lra; [eapply gap; vm_compute; reflexivity|]. apply lerp3_b; try assumption; byte.
  - exists 0%nat. do 4 eexists. split; [reflexivity|]. split; [reflexivity|]. split; [lra|]. replace (@fltb _ H (@fzero _ G) (@flit _ G (1 # 4))) with true by (vm_compute; reflexivity). destruct (@local_b o (@fzero _ G) (@flit _ G (1 # 4)) t F0 Fq Ft) as [A B]; try lra; [eapply gap; vm_compute; reflexivity|]. apply lerp3_b; try assumption; byte.
Qed.
(* clamping keeps the order *)
Lemma clamp_mono (t t' : f32) : nn t -> nn t' -> Bleb t t' = true -> val (@fclamp _ H t (@fzero _ G) (@fone _ G)) <= val (@fclamp _ H t' (@fzero _ G) (@fone _ G)).
Proof.
  intros Nt Nt' E. destruct (one_v o) as [F1 V1]. pose proof (@clamp_nn o x t Nt) as [_ B]. pose proof (@clamp_nn o x t' Nt') as [_ B'].
  assert (K : forall a, fin a -> val (@fclamp _ H a (@fzero _ G) (@fone _ G)) = Rmax 0 (Rmin 1 (val a))).
  { intros a Fa. unfold fclamp. rewrite (ltb_r x Fa (eq_refl : fin (@fzero _ G))), (ltb_r x F1 Fa), V1. change (val (@fzero _ G)) with 0.
    unfold Rmax, Rmin. destruct (Rlt_bool_spec (val a) 0); [destruct (Rle_dec 1 (val a)); [lra|]; destruct (Rle_dec 0 (val a)); [lra|reflexivity]|]. destruct (Rlt_bool_spec 1 (val a)); [rewrite V1; destruct (Rle_dec 1 (val a)); [destruct (Rle_dec 0 1); lra|lra]|]. destruct (Rle_dec 1 (val a)); [destruct (Rle_dec 0 1); lra|destruct (Rle_dec 0 (val a)); lra]. }
  destruct (is_finite t) eqn:Ft, (is_finite t') eqn:Ft'.
  - rewrite !K by assumption. rewrite Bleb_correct in E by assumption. destruct (Rle_bool_spec (B2R t) (B2R t')) as [L|L]; [|discriminate]. apply Rle_max_compat_l, Rle_min_compat_l. exact L.
  - destruct t' as [s|s| |s m e Hb]; try discriminate Ft'; try discriminate Nt'. destruct s.
    + destruct t as [s|s| |s m e Hb]; try discriminate Ft; discriminate E.
    + unfold fclamp at 2. change (@fltb _ H (B754_infinity false) (@fzero _ G)) with false. replace (@fltb _ H (@fone _ G) (B754_infinity false)) with true by (vm_compute; reflexivity). rewrite V1. lra.
  - destruct t as [s|s| |s m e Hb]; try discriminate Ft; try discriminate Nt. destruct s.
    + change (val (@fclamp _ H (B754_infinity true) (@fzero _ G) (@fone _ G))) with 0. lra.
    + destruct t' as [s|s| |s m e Hb]; try discriminate Ft'; discriminate E.
  - destruct t as [s|s| |s m e Hb]; try discriminate Ft; try discriminate Nt. destruct t' as [s'|s'| |s' m e Hb]; try discriminate Ft'; try discriminate Nt'. destruct s, s'; try discriminate E; try lra. change (val (@fclamp _ H (B754_infinity true) (@fzero _ G) (@fone _ G))) with 0. lra.
Qed.
End Grad.
Theorem C93_gradients : forall (o : libm B32) (x : libx B32) (colorous : colormap -> f32 -> rgb) t, fin t -> 0 <= val t <= 1 ->
  between_stops fire_table (val t) (@map_color_u8 _ (ieee o) (ieeex x) colorous t Fire) /\
  between_stops rainbow_table (val t) (@map_color_u8 _ (ieee o) (ieeex x) colorous t Rainbow).
Proof. intros o x colorous t Ft Ht. cbn [map_color_u8]. rewrite clamp_id by assumption. split; [apply fire_b|apply rainbow_b]; assumption. Qed.
Print Assumptions C93_gradients.
(* gray levels never fall when t rises, infinities included *)
Theorem C93_gray_monotone : forall (o : libm B32) (x : libx B32) (colorous : colormap -> f32 -> rgb) t t', nn t -> nn t' -> Bleb t t' = true ->
  exists g g', @map_color_u8 _ (ieee o) (ieeex x) colorous t Gray = (g, g, g) /\ @map_color_u8 _ (ieee o) (ieeex x) colorous t' Gray = (g', g', g') /\ (g <= g' <= 255)%nat.
Proof.
  intros o x colorous t t' Nt Nt' E. cbn [map_color_u8]. do 2 eexists. split; [reflexivity|]. split; [reflexivity|]. unfold round_u8.
  pose proof (clamp_mono o x Nt Nt' E) as K. pose proof (@clamp_nn o x t Nt) as [Fc Bc]. pose proof (@clamp_nn o x t' Nt') as [Fc' Bc'].
  set (c := @fclamp _ (ieeex x) t _ _) in *. set (c' := @fclamp _ (ieeex x) t' _ _) in *.
  destruct (@kflt_val 16711680 (-16) (@flit _ (ieee o) 255)) as [F2 V2]; [vm_compute; reflexivity|]. assert (V : val (@flit _ (ieee o) 255) = 255) by (rewrite V2; cbn; lra).
  destruct (@mul_r _ o c _ Fc F2) as [Fm Vm]; [rewrite V; apply maxf_sf, Rabs_le; lra|]. destruct (@mul_r _ o c' _ Fc' F2) as [Fm' Vm']; [rewrite V; apply maxf_sf, Rabs_le; lra|]. rewrite V in *.
  assert (P : 0 <= rn (val c * 255)) by (apply rn_pos; lra). assert (Q : rn (val c * 255) <= rn (val c' * 255)) by (apply rn_mono; lra).
  rewrite !round_v by (try assumption; rewrite ?Vm, ?Vm'; lra). rewrite Vm, Vm'. pose proof (@Zfloor_le (rn (val c * 255) + / 2) (rn (val c' * 255) + / 2) ltac:(lra)). lia.
Qed.
Print Assumptions C93_gray_monotone.
(* beyond the ends, at infinity, and at NaN, which is black in these four maps *)
Theorem C93_extremes : forall (o : libm B32) (x : libx B32) (colorous : colormap -> f32 -> rgb) t,
  (Bleb t (B754_zero false) = true -> map (@map_color_u8 _ (ieee o) (ieeex x) colorous t) [Fire; Rainbow; Gray; Legacy] = [(0, 0, 0); (0, 0, 0); (0, 0, 0); (64, 0, 64)]%nat) /\
  (Bleb (@fone _ (ieee o)) t = true -> map (@map_color_u8 _ (ieee o) (ieeex x) colorous t) [Fire; Rainbow; Gray; Legacy] = [(255, 255, 255); (255, 255, 255); (255, 255, 255); (255, 255, 224)]%nat) /\
  (is_nan t = true -> map (@map_color_u8 _ (ieee o) (ieeex x) colorous t) [Fire; Rainbow; Gray; Legacy] = [(0, 0, 0); (0, 0, 0); (0, 0, 0); (0, 0, 0)]%nat).
Proof.
  intros o x colorous t. destruct (one_v o) as [F1 V1]. split; [|split]; intros E.
  - assert (C : @fclamp _ (ieeex x) t (@fzero _ (ieee o)) (@fone _ (ieee o)) = B754_zero false \/ t = B754_zero true).
    { destruct t as [s|s| |s m e Hb] eqn:Et; try discriminate E; [destruct s; [right; reflexivity|left; vm_compute; reflexivity]|destruct s; [left; vm_compute; reflexivity|discriminate E]|]. left. rewrite <- Et in *. assert (Ft : fin t) by (rewrite Et; reflexivity).
      rewrite Bleb_correct in E by (exact Ft || reflexivity). destruct (Rle_bool_spec (B2R t) (B2R (B754_zero false : f32))) as [L|L]; [|discriminate]. cbn [B2R] in L. unfold fclamp. rewrite (ltb_r x Ft (eq_refl : fin (@fzero _ (ieee o)))). change (val (@fzero _ (ieee o))) with 0.
      assert (N : val t <> 0) by (unfold L_ieee.val; rewrite Et; cbn [B2R]; intros Q; apply eq_0_F2R in Q; destruct s; discriminate Q). rewrite Rlt_bool_true by (unfold L_ieee.val in *; lra). reflexivity. }
    destruct C as [C| ->]; [|vm_compute; reflexivity]. cbn [map map_color_u8]. rewrite C. vm_compute. reflexivity.
  - assert (C : @fclamp _ (ieeex x) t (@fzero _ (ieee o)) (@fone _ (ieee o)) = @fone _ (ieee o)).
    { destruct (is_finite t) eqn:Ft.
      - rewrite Bleb_correct in E by assumption. destruct (Rle_bool_spec (B2R (@fone _ (ieee o))) (B2R t)) as [L|L]; [|discriminate]. change (val (@fone _ (ieee o)) <= val t) in L. rewrite V1 in L. unfold fclamp. rewrite (ltb_r x Ft (eq_refl : fin (@fzero _ (ieee o)))), (ltb_r x F1 Ft), V1. change (val (@fzero _ (ieee o))) with 0. rewrite Rlt_bool_false by lra.
        destruct (Rlt_bool_spec 1 (val t)); [reflexivity|]. assert (Q : val t = 1) by lra. apply B2R_Bsign_inj; [exact Ft|exact F1|exact (eq_trans Q (eq_sym V1))|]. rewrite (pos_sign (Ft : fin t)), (pos_sign F1); [reflexivity| |]; lra.
      - destruct t as [s|s| |s m e Hb]; try discriminate Ft; [destruct s; [vm_compute in E; discriminate E|apply B2SF_inj; vm_compute; reflexivity]|vm_compute in E; discriminate E]. }
    cbn [map map_color_u8]. rewrite C. vm_compute. reflexivity.
  - destruct t as [s|s| |s m e Hb]; try discriminate E. vm_compute. reflexivity.
Qed.
Print Assumptions C93_extremes.
(* from magnitudes: silence, a silent picture and NaN take the colour of 0, the loudest bin that of 1 *)
Theorem C93_from_magnitude : forall (o : libm B32) (x : libx B32) (colorous : colormap -> f32 -> rgb) mag max floor m, fin floor -> val floor < 0 ->
  (Bleb mag (B754_zero false) = true \/ Bleb max (B754_zero false) = true \/ (is_nan mag = true /\ o_log10 x B754_nan = B754_nan) ->
     @color_from_magnitude_u8 _ (ieee o) (ieeex x) colorous mag max floor m = @map_color_u8 _ (ieee o) (ieeex x) colorous (B754_zero false) m) /\
  (fin max -> 0 < val max -> o_log10 x (@fone _ (ieee o)) = B754_zero false ->
     @color_from_magnitude_u8 _ (ieee o) (ieeex x) colorous max max floor m = @map_color_u8 _ (ieee o) (ieeex x) colorous (@fone _ (ieee o)) m).
Proof.
  intros o x colorous mag max floor m Ff Vf. destruct floor as [s|s| |s fm fe Hb] eqn:Ef; try discriminate Ff; [cbn in Vf; lra|]. rewrite <- Ef in *.
  assert (Sf : s = true). { destruct s; [reflexivity|]. rewrite Ef in Vf. unfold L_ieee.val, B2R in Vf. cbn [cond_Zopp] in Vf. pose proof (@F2R_gt_0 radix2 (Flocq.Core.Defs.Float radix2 (Zpos fm) fe) ltac:(cbn; lia)). cbn in *. lra. }
  subst s. unfold color_from_magnitude_u8. cbv zeta. split.
  - intros Hs. assert (D : @magnitude_to_db _ (ieee o) (ieeex x) mag max floor = floor).
    { unfold magnitude_to_db. destruct Hs as [Hs|[Hs|[Hs HL]]].
      - change (@fleb _ (ieeex x) mag (@fzero _ (ieee o))) with (Bleb mag (B754_zero false)). rewrite Hs, orb_true_r. reflexivity.
      - change (@fleb _ (ieeex x) max (@fzero _ (ieee o))) with (Bleb max (B754_zero false)). rewrite Hs. reflexivity.
      - destruct mag; try discriminate Hs. destruct (_ || _)%bool; [reflexivity|]. change (@fdiv _ (ieee o) B754_nan max) with (@B754_nan (precf B32) (emaxf B32)). cbn [flog10 ieeex]. rewrite HL. rewrite Ef. reflexivity. }
    rewrite D. f_equal. assert (S0 : @fsub _ (ieee o) floor floor = B754_zero false).
    { destruct (@sub_r _ o floor floor Ff Ff) as [F V]; [apply maxf_sf; rewrite Rminus_diag_eq, Rabs_R0 by reflexivity; lra|]. rewrite Rminus_diag_eq, rn_0 in V by reflexivity.
      apply B2R_Bsign_inj; [exact F|reflexivity|exact V|]. pose proof (Bminus_correct _ _ (precf_pos B32) (precf_emax B32) mode_NE floor floor Ff Ff) as P. rewrite Rminus_diag_eq in P by reflexivity. rewrite round_0 in P by typeclasses eauto. rewrite Rlt_bool_true in P by (rewrite Rabs_R0; apply bpow_gt_0). destruct P as (_ & _ & P). cbn [fsub ieee]. rewrite P. rewrite Rcompare_Eq by reflexivity. rewrite Ef. reflexivity. }
    rewrite S0, Ef. reflexivity.
  - intros Fm Pm HL. assert (D : @magnitude_to_db _ (ieee o) (ieeex x) max max floor = B754_zero false).
    { unfold magnitude_to_db. rewrite (leb_r x Fm (eq_refl : fin (@fzero _ (ieee o)))). change (val (@fzero _ (ieee o))) with 0. rewrite Rle_bool_false by lra. cbn [orb]. rewrite div_self by assumption. cbn [flog10 ieeex]. rewrite HL.
      replace (@fmul _ (ieee o) (@flit _ (ieee o) 20) (B754_zero false)) with (B754_zero false : f32) by (apply B2SF_inj; vm_compute; reflexivity). rewrite Ef. reflexivity. }
    rewrite D. f_equal. assert (S0 : @fsub _ (ieee o) (B754_zero false) floor = @fneg _ (ieee o) floor) by (rewrite Ef; reflexivity). rewrite S0. apply div_self.
    + unfold L_ieee.fin. cbn [fneg ieee]. rewrite is_finite_Bopp. exact Ff.
    + unfold L_ieee.val. cbn [fneg ieee]. rewrite B2R_Bopp. unfold L_ieee.val in Vf. lra.
Qed.
Print Assumptions C93_from_magnitude.
(* with a floor of 0 dB the loudest bin is black *)
Theorem C93_zero_floor_refuted : forall (o : libm B32) (x : libx B32) (colorous : colormap -> f32 -> rgb) max, fin max -> 0 < val max -> o_log10 x (@fone _ (ieee o)) = B754_zero false ->
  map (@color_from_magnitude_u8 _ (ieee o) (ieeex x) colorous max max (B754_zero false)) [Fire; Rainbow; Gray; Legacy] = [(0, 0, 0); (0, 0, 0); (0, 0, 0); (0, 0, 0)]%nat.
Proof.
  intros o x colorous max Fm Pm HL. assert (D : @magnitude_to_db _ (ieee o) (ieeex x) max max (B754_zero false) = B754_zero false).
  { unfold magnitude_to_db. rewrite (leb_r x Fm (eq_refl : fin (@fzero _ (ieee o)))). change (val (@fzero _ (ieee o))) with 0. rewrite Rle_bool_false by lra. cbn [orb]. rewrite div_self by assumption. cbn [flog10 ieeex]. rewrite HL. apply B2SF_inj. vm_compute. reflexivity. }
  cbn [map]. unfold color_from_magnitude_u8. rewrite D. vm_compute. reflexivity.
Qed.
Print Assumptions C93_zero_floor_refuted.

(* a library that rounds the logarithms correctly meets all hypotheses *)
Definition clip (r : R) : R := Rmax (-1000) (Rmin 1000 r).
Definition exact_libx : libx B32 := {| o_ln := fun a => near_float B32 (clip (ln (val a))); o_log10 := fun a => near_float B32 (clip (ln (val a) / ln 10)); o_powf := fun a _ => a |}.
Lemma near_rn r : Rabs r <= 1000 -> fin (near_float B32 r) /\ val (near_float B32 r) = rn r.
Proof.
  intros E. pose proof (@rn_abs r 1000 E) as B. destruct (@norm_ok B32 (ZnearestE (scaled_mantissa radix2 (SpecFloat.fexp (precf B32) (emaxf B32)) r)) (cexp radix2 (SpecFloat.fexp (precf B32) (emaxf B32)) r) (rn r) eq_refl) as [F V]; [apply maxf_sf; lra|].
  split; [exact F|]. unfold near_float. rewrite V. apply round_generic; [typeclasses eauto|]. unfold L_ieee.rn. apply generic_format_round; [apply fexp_correct, precf_pos|typeclasses eauto].
Qed.
Lemma clip_abs r : Rabs (clip r) <= 1000.
Proof. unfold clip, Rmax, Rmin. apply Rabs_le. destruct (Rle_dec 1000 r); destruct (Rle_dec _ _); lra. Qed.
Lemma clip_id r : Rabs r <= 1000 -> clip r = r.
Proof. intros E. apply Rabs_le_inv in E. unfold clip, Rmax, Rmin. destruct (Rle_dec 1000 r); destruct (Rle_dec _ _); lra. Qed.
Example C93_library : ln_ok exact_libx /\ ln_rounded exact_libx 16 /\ log_ok (exact_libm B32) exact_libx /\ o_log10 exact_libx (@fone _ (ieee (exact_libm B32))) = B754_zero false.
Proof.
  assert (L2 : / 2 <= ln 2 <= 1). { pose proof ln2_bound. assert (0.693147178 <= 2 * ath 9 (/ 3) <= 0.693147181) by (cbn [ath]; rewrite !pow_inv; cbn [INR Nat.mul Nat.add pow]; lra). lra. }
  assert (LM : forall a b, 0 < a <= b -> ln a <= ln b) by (intros a b [P [Q| ->]]; [left; apply ln_increasing; lra|lra]).
  assert (L23 : ln 8388608 <= 23). { replace 8388608 with (2 ^ 23) by (cbn; lra). rewrite ln_pow by lra. cbn [INR]. lra. }
  split; [|split; [|split]].
  - intros a b Fa Fb Hab Hb. cbn [exact_libx o_ln]. assert (P : 0 <= ln (val a) <= ln (val b)) by (split; [rewrite <- ln_1; apply LM; lra|apply LM; lra]). assert (Q : ln (val b) <= 23) by (eapply Rle_trans; [apply LM|exact L23]; lra).
    rewrite !clip_id by (rewrite Rabs_pos_eq; lra). destruct (@near_rn (ln (val a))) as [F1 V1]; [rewrite Rabs_pos_eq; lra|]. destruct (@near_rn (ln (val b))) as [F2 V2]; [rewrite Rabs_pos_eq; lra|]. rewrite V1, V2.
    split; [exact F1|]. split; [exact F2|]. split; [split; [apply rn_pos; lra|apply rn_mono; lra]|]. split; [|split].
    + destruct (@as_exact _ (exact_libm B32) 100) as [Fh Vh]; [rewrite INR_IZR_INZ; cbn; lra|]. replace (INR 100) with 100 in Vh by (rewrite INR_IZR_INZ; reflexivity). rewrite <- Vh. apply rn_le. lra.
    + intros E. rewrite E, ln_1. apply rn_0.
    + intros E. destruct (half_v (exact_libm B32)) as [Fh Vh]. rewrite <- Vh. apply rn_ge. rewrite Vh. eapply Rle_trans; [apply L2|]. apply LM. lra.
  - intros a Fa Ea. cbn [exact_libx o_ln]. rewrite Ea. assert (E : ln 16 = 4 * ln 2). { replace 16 with (2 * 2 * (2 * 2)) by lra. rewrite !ln_mult by lra. lra. } rewrite clip_id by (rewrite Rabs_pos_eq; lra). apply near_rn. rewrite Rabs_pos_eq; lra.
  - intros a _ _. cbn [exact_libx o_log10]. apply fin_nn. apply near_rn, clip_abs.
  - cbn [exact_libx o_log10]. rewrite (proj2 (one_v (exact_libm B32))), ln_1. unfold Rdiv. rewrite Rmult_0_l, clip_id by (rewrite Rabs_R0; lra). destruct (@near_rn 0) as [F V]; [rewrite Rabs_R0; lra|]. rewrite rn_0 in V.
    assert (Z : ZnearestE (scaled_mantissa radix2 (SpecFloat.fexp (precf B32) (emaxf B32)) 0) = 0%Z) by (rewrite scaled_mantissa_0; exact (@Zrnd_IZR _ (valid_rnd_N _) 0)).
    unfold near_float. rewrite Z. reflexivity.
Qed.
Example C93_example : length (repeat (B754_zero false : f32) 16) = 16%nat /\ fin (norm B32 (-80) 0) /\ val (norm B32 (-80) 0) < 0 /\ nn (B754_infinity true) /\ Bleb (B754_infinity true) (B754_zero true : f32) = true.
Proof.
  split; [reflexivity|]. split; [vm_compute; reflexivity|]. split; [|split; reflexivity]. assert (E : norm B32 (-80) 0 = Bopp (norm B32 80 0)) by (apply B2SF_inj; vm_compute; reflexivity). rewrite E.
  destruct (@kflt_val 10485760 (-17) (norm B32 80 0)) as [F V]; [vm_compute; reflexivity|]. destruct (opp_v F) as [_ ->]. rewrite V. cbn. lra.
Qed.

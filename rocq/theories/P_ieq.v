(* Property C91: the bit-for-bit equalities in IEEE arithmetic. *)
From Coq Require Import Reals Lra Lia ZArith Permutation.
From Flocq Require Import Core BinarySingleNaN.
From Verif Require Import M_rfft L_rfft P_fft P_entry P_layout P_plan P_rfft L_err L_flx L_pi L_ierr L_ieee L_ieeex.
Set Implicit Arguments.

Section Laws.
Variables (f : fmt) (o : libm f).
Local Notation G := (ieee o).
Lemma Fplus_comm sx mx ex sy my ey ez : Fplus_naive sx mx ex sy my ey ez = Fplus_naive sy my ey sx mx ex ez.
Proof. unfold Fplus_naive. apply Z.add_comm. Qed.
Lemma add_comm (a b : num f) : @fadd _ G a b = @fadd _ G b a.
Proof.
  cbn [fadd ieee]. destruct a as [s|s| |s m e H], b as [t|t| |t n d K]; try reflexivity; try (destruct s, t; reflexivity).
  unfold Bplus. rewrite (Z.min_comm d e), Fplus_comm. reflexivity.
Qed.
Lemma mul_comm (a b : num f) : @fmul _ G a b = @fmul _ G b a.
Proof.
  cbn [fmul ieee]. destruct a as [s|s| |s m e H], b as [t|t| |t n d K]; try reflexivity; try (unfold Bmult; rewrite xorb_comm; reflexivity).
  apply B2SF_inj. unfold Bmult. rewrite !B2SF_SF2B. rewrite (xorb_comm t s), (Pos.mul_comm n m), (Z.add_comm d e). reflexivity.
Qed.
Lemma sub_add (a b : num f) : @fsub _ G a b = @fadd _ G a (@fneg _ G b).
Proof. cbn [fsub fadd fneg ieee]. destruct a as [s|s| |s m e H], b as [t|t| |t n d K]; try reflexivity; try (destruct s, t; reflexivity). Qed.
Theorem ieee_sign_laws : sign_laws G.
Proof. split; [exact add_comm|]. split; [exact mul_comm|]. split; [exact sub_add|]. intros a. apply Bopp_involutive. Qed.
(* multiplication by one *)
Lemma one_kflt : exists m e H, norm f 1 0 = B754_finite false m e H.
Proof.
  destruct (one_ok o) as [F V]. change (@fone _ G) with (norm f 1 0) in *. destruct (norm f 1 0) as [s|s| |s m e H] eqn:E; try discriminate F.
  - cbn in V. lra.
  - destruct s; [|eauto]. exfalso. unfold val, B2R in V. cbn [cond_Zopp] in V. pose proof (@F2R_lt_0 radix2 (Flocq.Core.Defs.Float radix2 (- Zpos m) e) ltac:(cbn; lia)). cbn in *. lra.
Qed.
Lemma mul_one (a : num f) : @fmul _ G a (@fone _ G) = a.
Proof.
  destruct (one_ok o) as [F1 V1]. destruct one_kflt as (m & e & H & E1). change (@fone _ G) with (norm f 1 0) in *.
  destruct a as [s|s| |s n d K] eqn:Ea; cbn [fmul ieee].
  - rewrite E1. destruct s; reflexivity.
  - rewrite E1. destruct s; reflexivity.
  - reflexivity.
  - rewrite <- Ea. assert (Fa : fin a) by (rewrite Ea; reflexivity).
    destruct (@mul_r _ o a (norm f 1 0) Fa F1) as [F V]; [rewrite V1, Rmult_1_r; apply val_max|]. rewrite V1, Rmult_1_r, (@rn_val f) in V.
    apply B2R_Bsign_inj; [exact F|exact Fa|exact V|].
    pose proof (Bmult_correct (precf f) (emaxf f) (precf_pos f) (precf_emax f) mode_NE a (norm f 1 0)) as P. destruct (Rlt_bool _ _) in P.
    + destruct P as (_ & _ & P). rewrite P; [rewrite E1; apply xorb_false_r|]. unfold fin in F. cbn [fmul ieee] in F. destruct (Bmult mode_NE a (norm f 1 0)); try discriminate F; reflexivity.
    + unfold fin in F. cbn [fmul ieee] in F. destruct (Bmult mode_NE a (norm f 1 0)) as [u|u| |u w v L]; cbn in P; try discriminate P; discriminate F.
Qed.
Lemma div_one : @fdiv _ G (@fone _ G) (@fas _ G 1) = @fone _ G.
Proof. clear. cbn [fdiv fone fas ieee]. apply B2SF_inj. destruct f; vm_compute; reflexivity. Qed.
End Laws.

(* n as f32 and n as f64 against going through f32 *)
Lemma pos_sign' f (a : num f) : fin a -> (0 < val a)%R -> Bsign a = false.
Proof.
  intros F V. destruct a as [s|s| |s m e Hb]; try discriminate F; [cbn in V; lra|]. destruct s; [|reflexivity]. exfalso. unfold val, B2R in V. cbn [cond_Zopp] in V.
  pose proof (@F2R_lt_0 radix2 (Flocq.Core.Defs.Float radix2 (- Zpos m) e) ltac:(cbn; lia)). cbn in *. lra.
Qed.
Lemma conv32 (x : num B32) : conv B32 x = x.
Proof.
  destruct x as [s|s| |s m e H] eqn:E; try reflexivity. rewrite <- E. assert (F : is_finite x = true) by (rewrite E; reflexivity). destruct (conv_ok B32 _ F) as [F2 V2].
  apply B2R_Bsign_inj; [exact F2|exact F|exact V2|].
  assert (N : val x <> 0%R) by (unfold val; rewrite E; cbn [B2R]; intros Q; apply eq_0_F2R in Q; destruct s; discriminate Q).
  rewrite E. cbn [conv]. pose proof (binary_normalize_correct (precf B32) (emaxf B32) (precf_pos B32) (precf_emax B32) mode_NE (cond_Zopp s (Zpos m)) e s) as P. cbv zeta in P. rewrite E in F2. unfold fin in F2. cbn [conv] in F2.
  destruct (Rlt_bool _ _) in P.
  - destruct P as (_ & _ & P). rewrite P. unfold val in N. rewrite E in N. cbn [B2R] in N. cbn [Bsign].
    destruct (Rcompare_spec (F2R (Flocq.Core.Defs.Float radix2 (cond_Zopp s (Z.pos m)) e)) 0) as [C|C|C]; [|contradiction|].
    + destruct s; [reflexivity|]. exfalso. pose proof (@F2R_gt_0 radix2 (Flocq.Core.Defs.Float radix2 (Zpos m) e) ltac:(cbn; lia)). cbn in *. lra.
    + destruct s; [|reflexivity]. exfalso. pose proof (@F2R_lt_0 radix2 (Flocq.Core.Defs.Float radix2 (- Zpos m) e) ltac:(cbn; lia)). cbn in *. lra.
  - destruct (binary_normalize _ _ _ _ _ _ _ _) as [u|u| |u w v L]; cbn in P; try discriminate P; discriminate F2.
Qed.
Lemma fas_f32 (o : libm B32) n : @fas _ (ieee o) n = @fofnat _ (ieee o) n.
Proof. cbn [fas fofnat ieee]. rewrite conv32. reflexivity. Qed.
Lemma fas_small f (o : libm f) n : (INR n <= 16777216)%R -> @fas _ (ieee o) n = @fofnat _ (ieee o) n.
Proof.
  intros Hn. destruct n as [|n]; [clear; apply B2SF_inj; destruct f; vm_compute; reflexivity|]. assert (N1 : (1 <= INR (S n))%R) by (rewrite S_INR; pose proof (pos_INR n); lra).
  destruct (@as_exact _ o (S n) Hn) as [F V]. destruct (@as_exact _ (exact_libm B32) (S n) Hn) as [F3 V3]. destruct (conv_ok f _ F3) as [F4 V4].
  apply B2R_Bsign_inj; [exact F|exact F4| |].
  - change (val (@fas _ (ieee o) (S n)) = val (conv f (@fas _ (ieee (exact_libm B32)) (S n)))). rewrite V, V4. symmetry. exact V3.
  - rewrite (pos_sign' F), (pos_sign' (F4 : fin (@fofnat _ (ieee o) (S n)))); [reflexivity| |rewrite V; lra]. change (0 < val (conv f (@fas _ (ieee (exact_libm B32)) (S n))))%R. rewrite V4. change (B2R (@fas _ (ieee (exact_libm B32)) (S n))) with (val (@fas _ (ieee (exact_libm B32)) (S n))). rewrite V3. lra.
Qed.

(* ------------------------------------------------------------------ C91 *)
Open Scope nat_scope.
(* the SIMD post-processing kernels of the real transforms give the bits of the scalar one (src/rfft.rs, build without
   the fma target feature): every provider, every planner, every input, NaN and infinities included *)
Theorem C91_rfft_kernels : forall (f : fmt) (o : libm f) (c : cfg) (v : rpath) (S : Type) (op : S -> list (cx (num f)) -> exec (S * list (cx (num f)) * rres)) rp s,
  c_fma c = false ->
  (forall x out scr, @rfft_with_scratch _ (ieee o) c S op v rp s x out scr = @rfft_with_scratch _ (ieee o) c S op PScalar rp s x out scr) /\
  (forall y out scr, @irfft_with_scratch _ (ieee o) c S op v rp s y out scr = @irfft_with_scratch _ (ieee o) c S op PScalar rp s y out scr).
Proof. intros f o c v S op rp s Hf. apply C31_kernels_agree; [apply ieee_sign_laws|exact Hf]. Qed.
Print Assumptions C91_rfft_kernels.
(* the type dispatch of the code (TypeId::of::<T>() == f32 / f64) sees the format it runs on *)
Definition dispatch (f : fmt) (k : kind) : Prop := match f with B32 => k = F32 | B64 => k = F64 end.
(* the parallel inverse transform returns the planner, the samples and the result of the sequential one, whatever the
   order of the tasks, for both formats and every input *)
Theorem C91_parallel_ifft : forall (f : fmt) (o : libm f) (c : cfg) (e : parenv) (s1 s2 : list nat) (p : planner (num f)) (x : list (cx (num f))),
  @reachable _ (ieee o) c p -> dispatch f (c_kind c) ->
  Permutation s1 (seq 0 (length x)) -> Permutation s2 (seq 0 (length x)) ->
  @ifft_full _ (ieee o) c e s1 s2 p x = @ifft _ (ieee o) c p x.
Proof.
  intros f o c e s1 s2 p x Hp Hd H1 H2. apply C20_parallel_ifft; try assumption.
  intros Hk. destruct f; [apply fas_f32|cbn in Hd; congruence].
Qed.
Print Assumptions C91_parallel_ifft.
(* the split inverse against the interleaved one: binary32 at every length, binary64 up to 2^24 samples *)
Theorem C91_ifft_split : forall (f : fmt) (o : libm f) (c : cfg) (ks : list (call (num f))) p (x : list (cx (num f))),
  @run_calls _ (ieee o) c (@new_planner (num f)) ks = Done p -> (forall k, In k ks -> padded (call_size k) <= padded (length x)) ->
  dispatch f (c_kind c) -> f = B32 \/ (INR (length x) <= 2 ^ 24)%R ->
  0 < length x -> c_std c = true \/ is_pow2 (length x) = true ->
  exists q q' y, @ifft _ (ieee o) c (@new_planner (num f)) x = Done (q, y, ROk) /\
    @ifft_split _ (ieee o) c p (map re x) (map im x) = Done (q', map re y, map im y, ROk).
Proof.
  intros f o c ks p x E Hk Hd Hn Hp Hs. apply C12_ifft_split with (ks := ks); try assumption.
  - intros _. destruct Hn as [->|Hn]; [apply fas_f32|apply fas_small; lra].
  - intros _ _ a. rewrite div_one. split; [apply mul_one|apply Bopp_involutive].
Qed.
Print Assumptions C91_ifft_split.
(* beyond that the two conversions of the length differ in binary64, and so do the scale factors of the two inverses *)
Theorem C91_f64_scale_refuted : forall (o : libm B64) n, Z.of_nat n = 16777217%Z ->
  @fas _ (ieee o) n <> @fofnat _ (ieee o) n /\
  @fdiv _ (ieee o) (@fone _ (ieee o)) (@fas _ (ieee o) n) <> @fdiv _ (ieee o) (@fone _ (ieee o)) (@fofnat _ (ieee o) n).
Proof.
  intros o n Hn. cbn [fas fofnat fdiv fone ieee]. rewrite Hn. split; intros E; apply (f_equal (@B2SF _ _)) in E; revert E; vm_compute; discriminate.
Qed.
Print Assumptions C91_f64_scale_refuted.
(* with the fma feature the scalar kernel's product is fused and the AVX one's is not: binary32, the crate's own FFT as
   provider, eight samples. The library's sin and cos of -pi/4 are the correctly rounded ones. *)
Definition spectrum {f S} (r : exec (rplanner (num f) * S * list (cx (num f)) * list (cx (num f)) * rres)) : option (list (SpecFloat.spec_float * SpecFloat.spec_float)) :=
  match r with Done (_, _, out, _, ROk) => Some (map (fun z => (B2SF (re z), B2SF (im z))) out) | _ => None end.
Definition f32_samples (l : list Z) : list (num B32) := map (fun z => norm B32 z (-3)) l.
Definition cfg_fma : cfg := {| c_std := true; c_parallel := false; c_fma := true; c_precomp := false; c_kind := F32; c_lanes := 4 |}.
Theorem C91_fma_refuted : exists (o : libm B32) (x : list (num B32)) out scr a b,
  spectrum (@rfft_with_scratch _ (ieee o) cfg_fma _ (@fft _ (ieee o) cfg_fma) PAvx (@rnew _ (ieee o) cfg_fma) (@new_planner _) x out scr) = Some a /\
  spectrum (@rfft_with_scratch _ (ieee o) cfg_fma _ (@fft _ (ieee o) cfg_fma) PScalar (@rnew _ (ieee o) cfg_fma) (@new_planner _) x out scr) = Some b /\
  snd (nth 1 a (SpecFloat.S754_nan, SpecFloat.S754_nan)) = SpecFloat.S754_finite false 15083532 (-24) /\
  snd (nth 1 b (SpecFloat.S754_nan, SpecFloat.S754_nan)) = SpecFloat.S754_finite false 15083530 (-24).
Proof.
  exists {| o_sin := fun t => t; o_cos := fun t => t; o_sincos := fun _ => (norm B32 (-11863283) (-24), norm B32 11863283 (-24)); o_reparse := fun x => x |}.
  exists (f32_samples [3; 1; 4; 1; 5; 9; 2; 6]%Z), (repeat (mkcx (B754_zero false) (B754_zero false)) 5), (repeat (mkcx (B754_zero false) (B754_zero false)) 4).
  do 2 eexists. split; [vm_compute; reflexivity|]. split; [vm_compute; reflexivity|]. split; reflexivity.
Qed.
Print Assumptions C91_fma_refuted.
(* the same library and samples without the feature meet C91_rfft_kernels; a history for C91_ifft_split *)
Example C91_example : dispatch B64 (c_kind (cfg_std F64)) /\ c_fma (cfg_std F64) = false /\
  @reachable _ (ieee (exact_libm B64)) (cfg_std F64) (@new_planner _) /\ Permutation [2; 0; 1] (seq 0 3) /\
  @run_calls _ (ieee (exact_libm B64)) (cfg_std F64) (@new_planner _) [] = Done (@new_planner _).
Proof.
  split; [reflexivity|]. split; [reflexivity|]. split; [exists []; reflexivity|]. split; [|reflexivity].
  cbn. apply perm_trans with (l' := [0; 2; 1]); [apply perm_swap|]. apply perm_skip, perm_swap.
Qed.

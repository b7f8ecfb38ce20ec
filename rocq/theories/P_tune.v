(* Property C94: the settings of the parallel transform taken from the environment. *)
From Coq Require Import List String Ascii NArith Bool Lia ZArith.
From Verif Require Import M_fft.
From Verif Require Import M_tune.
Import ListNotations.
Set Implicit Arguments.
Open Scope N_scope.

(* ---- specification ---- *)
(* a decimal numeral and its value, by weights *)
Fixpoint numeral (s : string) : Prop := match s with EmptyString => True | String a s => 48 <= N_of_ascii a <= 57 /\ numeral s end.
Fixpoint value (s : string) : N := match s with EmptyString => 0 | String a s => (N_of_ascii a - 48) * 10 ^ N.of_nat (String.length s) + value s end.

(* ---------------------------------------------------------- reading a variable *)
Lemma digits_spec W s acc n : acc < umax W -> digits W acc s = Some n <-> numeral s /\ n = acc * 10 ^ N.of_nat (String.length s) + value s /\ n < umax W.
Proof.
  revert acc. induction s as [|a s IH]; intros acc Ha.
  - cbn [digits numeral value String.length N.of_nat]. rewrite N.pow_0_r, N.mul_1_r, N.add_0_r. split; [intros [= ->]; auto|intros (_ & -> & _); reflexivity].
  - cbn [digits numeral value String.length]. unfold digit. rewrite Nat2N.inj_succ, N.pow_succ_r'. assert (P : 1 <= 10 ^ N.of_nat (String.length s)) by (pose proof (N.pow_nonzero 10 (N.of_nat (String.length s))); lia).
    destruct (N.leb_spec 48 (N_of_ascii a)), (N.leb_spec (N_of_ascii a) 57); cbn [andb]; try (split; [discriminate|intros ((? & _) & _); lia]).
    set (d := N_of_ascii a - 48). destruct (N.ltb_spec (10 * acc + d) (umax W)) as [L|L].
    + rewrite IH by exact L. split; intros (A & -> & C); (split; [tauto|]); split; nia.
    + split; [discriminate|]. intros (_ & -> & C). nia.
Qed.
Theorem C94_parse : forall W s n, 0 < W -> parse_usize W s = Some n <-> exists t, (s = t \/ s = String "+" t) /\ t <> EmptyString /\ numeral t /\ n = value t /\ n < 2 ^ W.
Proof.
  intros W s n HW. assert (U : 0 < umax W) by (unfold umax; pose proof (N.pow_nonzero 2 W); lia).
  assert (D : forall t, digits W 0 t = Some n <-> numeral t /\ n = value t /\ n < 2 ^ W) by (intros t; rewrite digits_spec by exact U; rewrite N.mul_0_l, N.add_0_l; reflexivity).
  assert (NP : forall t, ~ numeral (String "+" t)) by (intros t [B _]; vm_compute in B; destruct B; congruence).
  unfold parse_usize. destruct s as [|a [|b r]].
  - split; [discriminate|]. intros (t & [<-|E] & N & _); [congruence|discriminate E].
  - rewrite D. split; [intros H; exists (String a ""); split; [left; reflexivity|]; split; [discriminate|exact H]|]. intros (t & [<-|E] & N & H); [exact H|]. injection E as _ <-. congruence.
  - destruct (Ascii.eqb_spec a "+") as [->|Ha]; rewrite D.
    + split; [intros H; exists (String b r); split; [right; reflexivity|]; split; [discriminate|exact H]|]. intros (t & [<-|E] & N & H); [destruct H as [H _]; destruct (NP _ H)|]. injection E as <-. exact H.
    + split; [intros H; exists (String a (String b r)); split; [left; reflexivity|]; split; [discriminate|exact H]|]. intros (t & [<-|E] & N & H); [exact H|]. injection E as E _. congruence.
Qed.
Print Assumptions C94_parse.
Example C94_parse_example : map (parse_usize 64) ["65536"; "+32"; "18446744073709551615"; "18446744073709551616"; " 8"; "8 "; "-1"; "0x10"; "1e6"; ""; "+"]%string =
  [Some 65536; Some 32; Some 18446744073709551615; None; None; None; None; None; None; None; None].
Proof. vm_compute. reflexivity. Qed.

(* ---------------------------------------------------------- first use decides *)
Lemma base_locks W ch cpus nanos p v : l_base p = Some v -> forall n, decide W ch cpus nanos n p = should_parallelize W ch cpus nanos n v p.
Proof. intros E n. unfold decide, base_threshold. rewrite E. reflexivity. Qed.
Ltac locks := repeat match goal with |- context [match ?x with _ => _ end] => destruct x end; cbn; auto.
Lemma keep_cache W p : l_base (fst (env_cache_bytes W p)) = l_base p.
Proof. unfold env_cache_bytes. locks. Qed.
Lemma keep_work W p : l_base (fst (env_per_core_work W p)) = l_base p.
Proof. unfold env_per_core_work. locks. Qed.
Lemma keep_block W p : l_base (fst (env_block_size W p)) = l_base p.
Proof. unfold env_block_size. locks. Qed.
Lemma keep_threads W cpus p : l_base (fst (env_threads W cpus p)) = l_base p.
Proof. unfold env_threads. locks. Qed.
Lemma keep_calib W ch nanos p : l_base (fst (calibrated W ch nanos p)) = l_base p.
Proof. unfold calibrated. locks. Qed.
Lemma keep_pick o f p : (forall q, l_base (fst (f q)) = l_base q) -> l_base (fst (pick o f p)) = l_base p.
Proof. intros H. unfold pick. destruct (negb _); [reflexivity|apply H]. Qed.
Lemma keep_should W ch cpus nanos n b p : l_base (fst (should_parallelize W ch cpus nanos n b p)) = l_base p.
Proof.
  unfold should_parallelize. destruct (negb _); [reflexivity|].
  pose proof (@keep_pick (o_cache p) (env_cache_bytes W) p (keep_cache W)) as K1. destruct (pick (o_cache p) (env_cache_bytes W) p) as [p1 b1]. cbn [fst] in K1.
  pose proof (@keep_pick (o_work p1) (env_per_core_work W) p1 (keep_work W)) as K2. destruct (pick (o_work p1) (env_per_core_work W) p1) as [p2 b2]. cbn [fst] in K2.
  pose proof (@keep_calib W ch nanos p2) as K3. destruct (calibrated W ch nanos p2) as [p3 [cal|]]; cbn [fst] in K3; [|cbn [fst]; congruence].
  pose proof (@keep_pick (o_block p3) (env_block_size W) p3 (keep_block W)) as K4. destruct (pick (o_block p3) (env_block_size W) p3) as [p4 b4]. cbn [fst] in K4.
  pose proof (@keep_pick (o_threads p4) (env_threads W cpus) p4 (keep_threads W cpus)) as K5. destruct (pick (o_threads p4) (env_threads W cpus) p4) as [p5 b5]. cbn [fst] in K5.
  destruct (umul _ _ _ _); cbn [fst]; congruence.
Qed.
Lemma step_base W ch cpus nanos p v ev : l_base p = Some v -> l_base (step W ch cpus nanos p ev) = Some v.
Proof. intros E. destruct ev; cbn [step]; try exact E. rewrite (base_locks _ _ _ _ _ E), keep_should. exact E. Qed.
(* once a threshold has been computed no environment variable and no setter but the threshold's own has any effect *)
Theorem C94_first_use_decides : forall W ch cpus nanos p v es, l_base p = Some v -> v <> 0 ->
  let q := run W ch cpus nanos p es in
  l_base q = Some v /\ forall n, snd (decide W ch cpus nanos n q) = Some (if o_thr q =? 0 then v <=? n else o_thr q <=? n).
Proof.
  intros W ch cpus nanos p v es E Hv. cbv zeta. assert (K : l_base (run W ch cpus nanos p es) = Some v).
  { revert p E. unfold run. induction es as [|e es IH]; intros p E; [exact E|]. cbn [fold_left]. apply IH, step_base, E. }
  split; [exact K|]. intros n. rewrite (base_locks _ _ _ _ _ K). unfold should_parallelize. destruct (N.eqb_spec (o_thr (run W ch cpus nanos p es)) 0) as [Z|Z]; cbn [negb].
  - destruct (N.eqb_spec v 0); [congruence|]. reflexivity.
  - destruct (N.eqb_spec (o_thr (run W ch cpus nanos p es)) 0); [congruence|]. reflexivity.
Qed.
Print Assumptions C94_first_use_decides.

(* ---------------------------------------------------------- the value *)
(* what a new process with this environment reads *)
Definition setting (W : N) (e : string -> option string) (name : string) (d : N) : N := match e name with Some s => match parse_usize W s with Some n => n | None => d end | None => d end.
Definition speed (nanos : N) : N := N.max (131072 * 1000000000 / N.max nanos 1) 4096.
Definition per_core (e : string -> option string) (nanos : N) : N :=
  N.max (setting 64 e "KOFFT_PAR_FFT_CACHE_BYTES" 32768 / 8) (N.max (N.max (setting 64 e "KOFFT_PAR_FFT_PER_CORE_WORK" 4096) (speed nanos)) (setting 64 e "KOFFT_PAR_FFT_BLOCK_SIZE" 1024)).
Definition cores (e : string -> option string) (cpus : N) : N := setting 64 e "KOFFT_PAR_FFT_THREADS" (N.max cpus 1).
Definition asked (e : string -> option string) : N := setting 64 e "KOFFT_PAR_FFT_THRESHOLD" 0.
Lemma calib_start ch nanos p : l_calib p = None -> nanos < 2 ^ 64 -> snd (calibrated 64 ch nanos p) = Some (speed nanos).
Proof.
  intros E H. unfold calibrated. rewrite E. change (umul 64 ch (1048576 / 8) 1000000000) with (Some (131072 * 1000000000)). cbv beta iota zeta. unfold umax.
  rewrite N.mod_small by (assert (1 < 2 ^ 64) by reflexivity; lia). destruct (N.eqb_spec (N.max nanos 1) 0); [lia|]. reflexivity.
Qed.
Lemma calib_locks ch nanos p : l_calib p = None -> nanos < 2 ^ 64 -> calibrated 64 ch nanos p = (mkProc (env p) (o_thr p) (o_cache p) (o_work p) (o_block p) (o_threads p) (l_thr p) (l_cache p) (l_work p) (l_block p) (l_threads p) (Some (speed nanos)) (l_base p), Some (speed nanos)).
Proof.
  intros E H. unfold calibrated. rewrite E. change (umul 64 ch (1048576 / 8) 1000000000) with (Some (131072 * 1000000000)). cbv beta iota zeta. unfold umax.
  rewrite N.mod_small by (assert (1 < 2 ^ 64) by reflexivity; lia). destruct (N.eqb_spec (N.max nanos 1) 0); [lia|]. reflexivity.
Qed.
Lemma start_base ch cpus nanos e : nanos < 2 ^ 64 ->
  base_threshold 64 ch cpus nanos (start e) =
  if negb (asked e =? 0) then (mkProc e 0 0 0 0 0 (Some (asked e)) None None None None None (Some (asked e)), Some (asked e))
  else
    let q b := mkProc e 0 0 0 0 0 (Some (asked e)) (Some (setting 64 e "KOFFT_PAR_FFT_CACHE_BYTES" 32768)) (Some (setting 64 e "KOFFT_PAR_FFT_PER_CORE_WORK" 4096)) (Some (setting 64 e "KOFFT_PAR_FFT_BLOCK_SIZE" 1024)) (Some (cores e cpus)) (Some (speed nanos)) b in
    match umul 64 ch (per_core e nanos) (cores e cpus) with Some v => (q (Some v), Some v) | None => (q None, None) end.
Proof.
  intros Hn. unfold base_threshold. cbn [start l_base]. unfold env_threshold at 1. cbn [start l_thr env]. fold (start e).
  change (read 64 (start e) "KOFFT_PAR_FFT_THRESHOLD" 0) with (asked e). destruct (negb (asked e =? 0)); [reflexivity|].
  unfold env_cache_bytes. cbn [l_cache start env o_thr o_cache o_work o_block o_threads l_thr l_work l_block l_threads l_calib l_base].
  unfold env_per_core_work. cbn [l_cache start env o_thr o_cache o_work o_block o_threads l_thr l_work l_block l_threads l_calib l_base].
  rewrite calib_locks by (reflexivity || exact Hn). cbn [l_cache start env o_thr o_cache o_work o_block o_threads l_thr l_work l_block l_threads l_calib l_base].
  unfold env_block_size. cbn [l_cache start env o_thr o_cache o_work o_block o_threads l_thr l_work l_block l_threads l_calib l_base].
  unfold env_threads. cbn [l_cache start env o_thr o_cache o_work o_block o_threads l_thr l_work l_block l_threads l_calib l_base].
  unfold read. cbn [env]. fold (cores e cpus). change (32 * 1024) with 32768. unfold per_core, setting. fold (setting 64 e "KOFFT_PAR_FFT_THREADS" (N.max cpus 1)). fold (cores e cpus). destruct (umul 64 ch _ _); reflexivity.
Qed.
(* a new 64-bit process: the variable if it is set to a positive number, else cores times the per-core minimum *)
Theorem C94_value : forall ch cpus nanos e n, nanos < 2 ^ 64 -> (asked e = 0 -> per_core e nanos * cores e cpus < 2 ^ 64) ->
  snd (base_threshold 64 ch cpus nanos (start e)) = Some (if asked e =? 0 then per_core e nanos * cores e cpus else asked e) /\
  snd (decide 64 ch cpus nanos n (start e)) = Some ((if asked e =? 0 then per_core e nanos * cores e cpus else asked e) <=? n).
Proof.
  intros ch cpus nanos e n Hn Hf. unfold decide. rewrite (@start_base ch cpus nanos e Hn). destruct (N.eqb_spec (asked e) 0) as [Z|Z]; cbn [negb].
  - specialize (Hf Z). unfold umul, umax. destruct (N.ltb_spec (per_core e nanos * cores e cpus) (2 ^ 64)) as [L|L]; [|lia]. cbv zeta. split; [reflexivity|].
    unfold should_parallelize. cbn [o_thr]. cbn [N.eqb negb]. destruct (N.eqb_spec (per_core e nanos * cores e cpus) 0) as [Q|Q]; cbn [negb]; [|reflexivity].
    unfold pick. cbn [o_cache o_work o_block o_threads N.eqb negb]. unfold env_cache_bytes, env_per_core_work, calibrated, env_block_size, env_threads. cbn [l_cache l_work l_calib l_block l_threads]. unfold pick. cbn [o_cache o_work o_block o_threads N.eqb negb l_cache l_work l_calib l_block l_threads].
    change (N.max (setting 64 e "KOFFT_PAR_FFT_CACHE_BYTES" 32768 / 8) (N.max (N.max (setting 64 e "KOFFT_PAR_FFT_PER_CORE_WORK" 4096) (speed nanos)) (setting 64 e "KOFFT_PAR_FFT_BLOCK_SIZE" 1024))) with (per_core e nanos).
    unfold umul, umax. destruct (N.ltb_spec (per_core e nanos * cores e cpus) (2 ^ 64)) as [L'|L']; [reflexivity|lia].
  - split; [reflexivity|]. unfold should_parallelize. cbn [o_thr N.eqb negb]. destruct (N.eqb_spec (asked e) 0); [congruence|]. reflexivity.
Qed.
Print Assumptions C94_value.

(* ---------------------------------------------------------- the documented default *)
Definition no_variables (e : string -> option string) : Prop := forall name, e name = None.
(* README 84-86: an FFT is parallelised when each core would get at least max(32 KiB / 8, 4096) points *)
Definition readme_default (cpus n : N) : Prop := cpus * N.max (32768 / 8) 4096 <= n.
(* the measured figure is points per SECOND, so the documented default holds only if copying one megabyte takes 32 seconds;
   a machine that copies it in a millisecond stays sequential below 131072000 points per core *)
Theorem C94_default : forall ch cpus nanos e n, no_variables e -> 1 <= cpus < 65536 -> nanos < 2 ^ 64 ->
  snd (decide 64 ch cpus nanos n (start e)) = Some (cpus * N.max 4096 (131072000000000 / N.max nanos 1) <=? n).
Proof.
  intros ch cpus nanos e n He Hc Hn. assert (S : forall x d, setting 64 e x d = d) by (intros x d; unfold setting; rewrite He; reflexivity).
  assert (A : asked e = 0) by apply S. assert (C : cores e cpus = cpus) by (unfold cores; rewrite S; lia).
  assert (P : per_core e nanos = N.max 4096 (131072000000000 / N.max nanos 1)). { unfold per_core, speed. rewrite !S. change (32768 / 8) with 4096. change (131072 * 1000000000) with 131072000000000. lia. }
  assert (B : 131072000000000 / N.max nanos 1 <= 131072000000000) by (apply N.div_le_upper_bound; nia).
  destruct (@C94_value ch cpus nanos e n Hn) as [_ V].
  - intros _. rewrite P, C. assert (X : 2 ^ 64 = 18446744073709551616) by reflexivity. nia.
  - rewrite V, A. cbn [N.eqb]. rewrite P, C, N.mul_comm. reflexivity.
Qed.
Print Assumptions C94_default.
Theorem C94_default_refuted : forall ch cpus nanos e, no_variables e -> 1 <= cpus < 65536 -> nanos <= 1000000 ->
  exists n, readme_default cpus n /\ n = cpus * 131071999 /\ snd (decide 64 ch cpus nanos n (start e)) = Some false.
Proof.
  intros ch cpus nanos e He Hc Hn. exists (cpus * 131071999). split; [unfold readme_default; change (N.max (32768 / 8) 4096) with 4096; nia|]. split; [reflexivity|].
  rewrite C94_default; try assumption; [|assert (X : 2 ^ 64 = 18446744073709551616) by reflexivity; lia]. f_equal. apply N.leb_gt.
  assert (B : 131072000 <= 131072000000000 / N.max nanos 1) by (apply N.div_le_lower_bound; nia). nia.
Qed.
Print Assumptions C94_default_refuted.
(* the documented default is right exactly on machines slower than 32 seconds a megabyte *)
Theorem C94_default_slow : forall ch cpus nanos e n, no_variables e -> 1 <= cpus < 65536 -> 32000000000 <= nanos < 2 ^ 64 ->
  exists b, snd (decide 64 ch cpus nanos n (start e)) = Some b /\ (b = true <-> readme_default cpus n).
Proof.
  intros ch cpus nanos e n He Hc Hn. eexists. split; [apply C94_default; [exact He|exact Hc|apply Hn]|]. unfold readme_default. change (N.max (32768 / 8) 4096) with 4096. rewrite N.leb_le.
  assert (B : 131072000000000 / N.max nanos 1 <= 4096) by (apply N.div_le_upper_bound; nia). rewrite N.max_l by exact B. reflexivity.
Qed.
Print Assumptions C94_default_slow.

(* ---------------------------------------------------------- overflow *)
Definition huge : string -> option string := fun q => if String.eqb q "KOFFT_PAR_FFT_CACHE_BYTES" then Some "9223372036854775808"%string else if String.eqb q "KOFFT_PAR_FFT_THREADS" then Some "16"%string else None.
Definition none_threads : string -> option string := fun q => if String.eqb q "KOFFT_PAR_FFT_THREADS" then Some "0"%string else None.
(* a large enough cache setting makes the product wrap to 0: everything is parallel in a release build, every inverse
   transform panics in a checked build *)
Theorem C94_overflow_refuted : forall cpus nanos n, 1 <= nanos < 2 ^ 64 -> per_core huge nanos * cores huge cpus = 2 ^ 64 /\
  snd (decide 64 false cpus nanos n (start huge)) = Some true /\ snd (decide 64 true cpus nanos n (start huge)) = None.
Proof.
  intros cpus nanos n Hn. assert (B : 131072000000000 / N.max nanos 1 <= 131072000000000) by (apply N.div_le_upper_bound; nia).
  assert (P : per_core huge nanos = 1152921504606846976).
  { unfold per_core. change (setting 64 huge "KOFFT_PAR_FFT_CACHE_BYTES" 32768 / 8) with 1152921504606846976. change (setting 64 huge "KOFFT_PAR_FFT_PER_CORE_WORK" 4096) with 4096. change (setting 64 huge "KOFFT_PAR_FFT_BLOCK_SIZE" 1024) with 1024. unfold speed. change (131072 * 1000000000) with 131072000000000. lia. }
  assert (C : cores huge cpus = 16) by reflexivity. split; [rewrite P, C; reflexivity|]. unfold decide. rewrite !start_base by apply Hn. change (asked huge) with 0. cbn [N.eqb negb]. rewrite P, C. split; [|reflexivity].
  change (umul 64 false 1152921504606846976 16) with (Some 0). cbv zeta. unfold should_parallelize. cbn [o_thr N.eqb negb].
  unfold pick. cbn [o_cache o_work o_block o_threads N.eqb negb]. unfold env_cache_bytes, env_per_core_work, calibrated, env_block_size, env_threads. cbn [l_cache l_work l_calib l_block l_threads]. unfold pick. cbn [o_cache o_work o_block o_threads N.eqb negb l_cache l_work l_calib l_block l_threads].
  change (N.max (setting 64 huge "KOFFT_PAR_FFT_CACHE_BYTES" 32768 / 8) (N.max (N.max (setting 64 huge "KOFFT_PAR_FFT_PER_CORE_WORK" 4096) (speed nanos)) (setting 64 huge "KOFFT_PAR_FFT_BLOCK_SIZE" 1024))) with (per_core huge nanos). rewrite P.
  change (umul 64 false 1152921504606846976 16) with (Some 0). cbn [snd]. f_equal. apply N.leb_le. lia.
Qed.
Print Assumptions C94_overflow_refuted.
(* zero threads make everything parallel *)
Theorem C94_zero_threads : forall ch cpus nanos n, nanos < 2 ^ 64 -> snd (decide 64 ch cpus nanos n (start none_threads)) = Some true.
Proof.
  intros ch cpus nanos n Hn. destruct (@C94_value ch cpus nanos none_threads n Hn) as [_ ->]; [intros _; change (cores none_threads cpus) with 0; rewrite N.mul_0_r; reflexivity|].
  change (asked none_threads) with 0. change (cores none_threads cpus) with 0. cbn [N.eqb]. rewrite N.mul_0_r. f_equal. apply N.leb_le. lia.
Qed.
Print Assumptions C94_zero_threads.

(* ---------------------------------------------------------- the unbounded model *)
(* M_fft.v decides the same when nothing overflows *)
Definition as_parenv (e : string -> option string) (cpus nanos : N) : parenv :=
  mkPar 0 0 0 0 0 (N.to_nat (asked e)) (N.to_nat (setting 64 e "KOFFT_PAR_FFT_CACHE_BYTES" 32768)) (N.to_nat (setting 64 e "KOFFT_PAR_FFT_PER_CORE_WORK" 4096)) (N.to_nat (setting 64 e "KOFFT_PAR_FFT_BLOCK_SIZE" 1024)) (N.to_nat (cores e cpus)) (N.to_nat (speed nanos)).
Lemma leb_nat a b : Nat.leb (N.to_nat a) (N.to_nat b) = (a <=? b).
Proof. destruct (N.leb_spec a b); [apply Nat.leb_le|apply Nat.leb_gt]; lia. Qed.
Lemma eqb_nat a : Nat.eqb (N.to_nat a) 0%nat = (a =? 0).
Proof. destruct (N.eqb_spec a 0) as [->|H]; [reflexivity|apply Nat.eqb_neq; lia]. Qed.
Theorem C94_agrees : forall ch cpus nanos e n c, c_std c = true -> nanos < 2 ^ 64 -> (asked e = 0 -> per_core e nanos * cores e cpus < 2 ^ 64) ->
  snd (decide 64 ch cpus nanos n (start e)) = Some (should_parallelize_fft c (as_parenv e cpus nanos) (N.to_nat n) (M_fft.base_threshold c (as_parenv e cpus nanos))).
Proof.
  intros ch cpus nanos e n c Hc Hn Hf. rewrite (proj2 (@C94_value ch cpus nanos e n Hn Hf)). f_equal. unfold should_parallelize_fft, M_fft.base_threshold. rewrite Hc.
  cbn [as_parenv M_fft.o_thr M_fft.o_cache M_fft.o_work M_fft.o_block M_fft.o_threads e_thr e_cache e_work e_block e_threads e_calib Nat.eqb negb].
  assert (P : (Nat.max (N.to_nat (setting 64 e "KOFFT_PAR_FFT_CACHE_BYTES" 32768) / bytes_per_elem) (Nat.max (Nat.max (N.to_nat (setting 64 e "KOFFT_PAR_FFT_PER_CORE_WORK" 4096)) (N.to_nat (speed nanos))) (N.to_nat (setting 64 e "KOFFT_PAR_FFT_BLOCK_SIZE" 1024))) * N.to_nat (cores e cpus))%nat = N.to_nat (per_core e nanos * cores e cpus)).
  { unfold per_core. rewrite N2Nat.inj_mul, !N2Nat.inj_max, N2Nat.inj_div. reflexivity. }
  unfold parallel_fft_threshold. cbn [as_parenv e_thr e_cache e_work e_block e_threads e_calib]. rewrite P, eqb_nat. destruct (N.eqb_spec (asked e) 0) as [Z|Z]; cbn [negb].
  - rewrite eqb_nat. destruct (N.eqb_spec (per_core e nanos * cores e cpus) 0) as [Q|Q]; cbn [negb]; rewrite leb_nat; reflexivity.
  - rewrite eqb_nat. destruct (N.eqb_spec (asked e) 0); [congruence|]. cbn [negb]. rewrite leb_nat. reflexivity.
Qed.
Print Assumptions C94_agrees.
Example C94_example : no_variables (fun _ => None) /\ 100000 < 2 ^ 64 /\ setting 64 huge "KOFFT_PAR_FFT_THREADS" 1 = 16 /\
  l_base (run 64 false 8 100000 (start (fun _ => None)) [Decide 1024]) = Some 10485760000 /\
  snd (decide 64 false 8 100000 65536 (run 64 false 8 100000 (start (fun _ => None)) [Decide 1024; SetVar "KOFFT_PAR_FFT_THRESHOLD" (Some "1024"%string); SetWork 16; SetThreads 2])) = Some false /\
  snd (decide 64 false 8 100000 65536 (run 64 false 8 100000 (start (fun _ => None)) [SetVar "KOFFT_PAR_FFT_THRESHOLD" (Some "1024"%string); Decide 1024])) = Some true.
Proof. split; [intros x; reflexivity|]. vm_compute. repeat split. Qed.

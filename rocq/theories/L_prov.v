(* FFT providers used by the other modules: what a module needs from the FFT
   implementation it is given, and the scalar object as an instance. *)
From Verif Require Export L_obj L_dft P_fft.
Set Implicit Arguments.
Open Scope nat_scope.

(* a state in which every later call on n points computes f *)
Definition steady {T S} (op : S -> list (cx T) -> exec (S * list (cx T) * rres)) (f : list (cx T) -> list (cx T)) (n : nat) (s : S) : Prop :=
  exists P : S -> Prop, P s /\ forall s z, P s -> length z = n -> exists s', op s z = Done (s', f z, ROk) /\ P s'.
(* the same for a forward and an inverse operation used on one state *)
Definition steady2 {T S} (op1 op2 : S -> list (cx T) -> exec (S * list (cx T) * rres)) (f1 f2 : list (cx T) -> list (cx T)) (n : nat) (s : S) : Prop :=
  exists P : S -> Prop, P s /\ forall s z, P s -> length z = n ->
    (exists s', op1 s z = Done (s', f1 z, ROk) /\ P s') /\ (exists s', op2 s z = Done (s', f2 z, ROk) /\ P s').
Lemma steady2_l {T S} (op1 op2 : S -> list (cx T) -> exec (S * list (cx T) * rres)) f1 f2 n s : steady2 op1 op2 f1 f2 n s -> steady op1 f1 n s.
Proof. intros (P & H & HP). exists P. split; [exact H|]. intros s0 z H0 Hz. apply (HP s0 z H0 Hz). Qed.
Lemma steady2_r {T S} (op1 op2 : S -> list (cx T) -> exec (S * list (cx T) * rres)) f1 f2 n s : steady2 op1 op2 f1 f2 n s -> steady op2 f2 n s.
Proof. intros (P & H & HP). exists P. split; [exact H|]. intros s0 z H0 Hz. apply (HP s0 z H0 Hz). Qed.

(* a sequence of successful calls *)
Inductive runs {T S} (op : S -> list (cx T) -> exec (S * list (cx T) * rres)) : S -> list (list (cx T)) -> S -> list (list (cx T)) -> Prop :=
| runs_nil s : runs op s [] s []
| runs_cons s z zs s1 y s2 ys : op s z = Done (s1, y, ROk) -> length y = length z -> runs op s1 zs s2 ys -> runs op s (z :: zs) s2 (y :: ys).
Lemma runs_length {T S} (op : S -> list (cx T) -> exec (S * list (cx T) * rres)) s zs s' ys : runs op s zs s' ys -> length ys = length zs.
Proof. induction 1; cbn; auto. Qed.
Lemma runs_inv {T S} (op : S -> list (cx T) -> exec (S * list (cx T) * rres)) s z zs s2 l : runs op s (z :: zs) s2 l ->
  exists s1 y ys, l = y :: ys /\ op s z = Done (s1, y, ROk) /\ length y = length z /\ runs op s1 zs s2 ys.
Proof. inversion 1; subst. eauto 10. Qed.
Lemma steady_runs {T S} (op : S -> list (cx T) -> exec (S * list (cx T) * rres)) f n s zs : steady op f n s -> (forall z, length z = n -> length (f z) = n) ->
  (forall z, In z zs -> length z = n) -> exists s', runs op s zs s' (map f zs).
Proof.
  intros (P & Hs & HP) Hf. revert s Hs. induction zs as [|z zs IH]; intros s Hs Hz.
  - exists s. constructor.
  - destruct (HP s z Hs (Hz z (or_introl eq_refl))) as (s1 & E & H1). destruct (IH s1 H1) as [s2 H2]; [intros; apply Hz; right; assumption|].
    exists s2. cbn [map]. econstructor; [exact E| |exact H2]. rewrite Hf; [symmetry|]; apply Hz; left; reflexivity.
Qed.
(* the provider's answer is a function: runs is deterministic *)
Lemma runs_det {T S} (op : S -> list (cx T) -> exec (S * list (cx T) * rres)) s zs s1 y1 : runs op s zs s1 y1 -> forall s2 y2, runs op s zs s2 y2 -> s1 = s2 /\ y1 = y2.
Proof.
  induction 1 as [|s z zs sa y s' ys E Hl H IH]; intros s2 y2 H2; inversion H2; subst; [auto|].
  rewrite E in *. match goal with H : Done _ = Done _ |- _ => injection H as <- <- end. destruct (IH _ _ ltac:(eassumption)) as [-> ->]. auto.
Qed.

(* the scalar object after calls no larger than n points *)
Section Scalar.
Context {T : Type} {F : Float T}.
Variable c : cfg.
Definition upto (n : nat) (p : planner T) : Prop :=
  exists ks, run_calls c new_planner ks = Done p /\ forall k, In k ks -> padded (call_size k) <= padded n.
Definition small (n : nat) (p : planner T) : Prop :=
  Inv c p /\ length (pl_sre p) <= padded n /\ length (pl_bscratch p) <= padded n.
Lemma upto_small n p : upto n p -> small n p.
Proof.
  intros (ks & E & H). split; [eapply run_calls_Inv; [apply Inv_new|exact E]|].
  destruct (@run_calls_sizes T F c ks (padded n) new_planner p (@Inv_new T F c) E H); cbn; lia || auto.
Qed.
Lemma upto_new n : upto n new_planner.
Proof. exists []. split; [reflexivity|]. intros k []. Qed.
Lemma scalar_steady2 n p : 0 < n -> c_std c = true \/ is_pow2 n = true -> upto n p ->
  steady2 (fft c) (ifft c) (fft_fresh c) (ifft_fresh c) n p.
Proof.
  intros Hn Hs Hp. exists (small n). split; [apply upto_small, Hp|]. clear p Hp. intros p z (HI & H1 & H2) <-.
  assert (Hr : ready c p (length z)) by (apply ready_size; assumption).
  apply supported_cases in Hs. split.
  - destruct (fft_cases z HI) as [[H _]|[(_ & H & _)|(_ & _ & p' & y & E & [HI' Hst] & Hl & Hy)]]; [lia|congruence|].
    exists p'. rewrite E, (Hy Hr). split; [reflexivity|]. split; [exact HI'|]. apply Hst; auto.
  - destruct (ifft_cases z HI) as [[H _]|[(_ & H & _)|(_ & _ & p' & y & E & [HI' Hst] & Hl & Hy)]]; [lia|congruence|].
    exists p'. rewrite E, (Hy Hr). split; [reflexivity|]. split; [exact HI'|]. apply Hst; auto.
Qed.
Lemma fresh_length z : 0 < length z -> c_std c = true \/ is_pow2 (length z) = true -> length (fft_fresh c z) = length z /\ length (ifft_fresh c z) = length z.
Proof.
  intros Hn Hs. assert (Hr : ready c (new_planner (T := T)) (length z)) by (apply ready_size; cbn; lia). apply supported_cases in Hs. split.
  - destruct (fft_cases z (@Inv_new T F c)) as [[H _]|[(_ & H & _)|(_ & _ & p' & y & E & _ & Hl & Hy)]]; [lia|congruence|]. rewrite <- (Hy Hr). exact Hl.
  - destruct (ifft_cases z (@Inv_new T F c)) as [[H _]|[(_ & H & _)|(_ & _ & p' & y & E & _ & Hl & Hy)]]; [lia|congruence|]. rewrite <- (Hy Hr). exact Hl.
Qed.
End Scalar.
Lemma scalar_exact (c : cfg) n (p : planner R) : 0 < n -> c_std c = true \/ is_pow2 n = true -> upto c n p ->
  steady2 (fft c) (ifft c) DFT IDFT n p.
Proof.
  intros Hn Hs Hp. destruct (scalar_steady2 Hn Hs Hp) as (P & H & HP). exists P. split; [exact H|].
  intros s z Hz Hl. destruct (HP s z Hz Hl) as [(s1 & E1 & H1) (s2 & E2 & H2)]. split.
  - exists s1. rewrite E1, fft_fresh_R by lia. auto.
  - exists s2. rewrite E2, ifft_fresh_R by lia. auto.
Qed.

(* Property C88: rounding errors of the cosine, sine and Hartley transforms. *)
From Coq Require Import Reals Lra Lia ZArith.
From Flocq Require Import Core.
From Verif Require Import L_err L_rerr L_flx L_trig P_trig P_err P_rerr.
Set Implicit Arguments.
Open Scope R_scope.

(* the specification: the sums c1 .. c4, s1 .. s4, cas of P_trig.v, rwithin and rnorm of P_rerr.v *)
(* ---------- proofs ---------- *)
Section Gen.
Variables (G : Float R) (u : R).
Hypothesis HG : rounded G u.
Lemma rn_mono q q' S S' x xh : rnear q S x xh -> q <= q' -> S <= S' -> rnear q' S' x xh.
Proof. intros (H1 & H2 & H3) Hq HS. pose proof (Rabs_pos x). split; [lra|]. split; [lra|]. eapply Rle_trans; [exact H3|]. nra. Qed.
Lemma rn_self x : rnear 1 (Rabs x) x x.
Proof. split; [lra|]. split; [lra|]. replace (x - x) with 0 by ring. rewrite Rabs_R0. lra. Qed.
Lemma rn_mul qa qb Sa Sb a b ah bh : rnear qa Sa a ah -> rnear qb Sb b bh -> rnear (qa * qb * (1 + u)) (Sa * Sb) (a * b) (@fmul R G ah bh).
Proof.
  intros Ha Hb. pose proof (rnear_pos Ha) as Pa. pose proof (rnear_pos Hb) as Pb. destruct Ha as (Qa & A1 & A2), Hb as (Qb & B1 & B2). pose proof (r_u HG) as Hu.
  pose proof (Rabs_pos a). pose proof (Rabs_pos b). pose proof (Rabs_pos ah). pose proof (Rabs_pos bh).
  assert (Ah : Rabs ah <= qa * Sa). { replace ah with (a + (ah - a)) by ring. eapply Rle_trans; [apply Rabs_triang|]. lra. }
  assert (Bh : Rabs bh <= qb * Sb). { replace bh with (b + (bh - b)) by ring. eapply Rle_trans; [apply Rabs_triang|]. lra. }
  assert (P0 : 0 <= Sa * Sb) by (apply Rmult_le_pos; assumption).
  assert (D : Rabs (ah * bh - a * b) <= (qa * qb - 1) * (Sa * Sb)).
  { replace (ah * bh - a * b) with ((ah - a) * bh + a * (bh - b)) by ring. eapply Rle_trans; [apply Rabs_triang|]. rewrite !Rabs_mult.
    apply Rle_trans with ((qa - 1) * Sa * (qb * Sb) + Sa * ((qb - 1) * Sb)).
    - apply Rplus_le_compat; apply Rmult_le_compat; try apply Rabs_pos; assumption.
    - right. ring. }
  assert (M : Rabs (ah * bh) <= qa * qb * (Sa * Sb)).
  { rewrite Rabs_mult. apply Rle_trans with (qa * Sa * (qb * Sb)); [apply Rmult_le_compat; try apply Rabs_pos; assumption|right; ring]. }
  assert (Q1 : 1 <= qa * qb) by (rewrite <- (Rmult_1_l 1); apply Rmult_le_compat; lra).
  split; [rewrite <- (Rmult_1_l 1); apply Rmult_le_compat; lra|]. split; [rewrite Rabs_mult; apply Rmult_le_compat; assumption|].
  replace (@fmul R G ah bh - a * b) with ((@fmul R G ah bh - ah * bh) + (ah * bh - a * b)) by ring. eapply Rle_trans; [apply Rabs_triang|].
  pose proof (r_mul HG ah bh) as E.
  apply Rle_trans with (u * (qa * qb * (Sa * Sb)) + (qa * qb - 1) * (Sa * Sb)); [|right; ring].
  apply Rplus_le_compat; [|exact D]. eapply Rle_trans; [exact E|]. apply Rmult_le_compat_l; assumption.
Qed.
(* division by an exact number *)
Lemma rn_div q S a ah b : b <> 0 -> rnear q S a ah -> rnear (q * (1 + u)) (S / Rabs b) (a / b) (@fdiv R G ah b).
Proof.
  intros Hb Ha. pose proof (rnear_pos Ha) as Pa. destruct Ha as (Qa & A1 & A2). pose proof (r_u HG) as Hu.
  assert (Pb : 0 < / Rabs b) by (apply Rinv_0_lt_compat, Rabs_pos_lt; exact Hb).
  assert (Ei : Rabs (/ b) = / Rabs b) by (apply Rabs_inv).
  assert (Ah : Rabs ah <= q * S). { replace ah with (a + (ah - a)) by ring. eapply Rle_trans; [apply Rabs_triang|]. lra. }
  split; [nra|]. unfold Rdiv in *. split; [rewrite Rabs_mult, Ei; apply Rmult_le_compat_r; lra|].
  pose proof (r_div HG ah Hb) as E. unfold Rdiv in E. rewrite (Rabs_mult ah), Ei in E.
  replace (@fdiv R G ah b - a * / b) with ((@fdiv R G ah b - ah * / b) + (ah - a) * / b) by ring. eapply Rle_trans; [apply Rabs_triang|].
  rewrite (Rabs_mult (ah - a)), Ei. apply Rle_trans with (u * (q * S * / Rabs b) + (q - 1) * S * / Rabs b); [|right; ring].
  apply Rplus_le_compat; [eapply Rle_trans; [exact E|]; apply Rmult_le_compat_l; [lra|]|]; apply Rmult_le_compat_r; lra.
Qed.
(* summing in order *)
Lemma enum_near (g : nat -> R) (gh : nat -> R -> R) (S : nat -> R) : forall l i s sh Ss q, 1 <= q -> rnear q Ss s sh ->
  (forall j, (j < length l)%nat -> rnear q (S (i + j)%nat) (g (i + j)%nat) (gh (i + j)%nat (nth j l 0))) ->
  rnear (q * (1 + u) ^ length l) (Ss + rsum (length l) (fun j => S (i + j)%nat)) (s + rsum (length l) (fun j => g (i + j)%nat)) (enum_sum (F := G) gh i l sh).
Proof.
  induction l as [|v l IH]; intros i s sh Ss q Hq Hs Hl; cbn [enum_sum length].
  - cbn [pow rsum]. rewrite Rmult_1_r, !Rplus_0_r. exact Hs.
  - pose proof (r_u HG) as Hu. assert (H0 := Hl 0%nat ltac:(cbn; lia)). rewrite Nat.add_0_r in H0. cbn [nth] in H0.
    pose proof (rnear_add HG Hs H0) as H1.
    assert (Hl' : forall j, (j < length l)%nat -> rnear (q * (1 + u)) (S (Datatypes.S i + j)%nat) (g (Datatypes.S i + j)%nat) (gh (Datatypes.S i + j)%nat (nth j l 0))).
    { intros j Hj. specialize (Hl (Datatypes.S j) ltac:(cbn; lia)). cbn [nth] in Hl. replace (i + Datatypes.S j)%nat with (Datatypes.S i + j)%nat in Hl by lia.
      eapply rn_mono; [exact Hl|nra|apply Rle_refl]. }
    pose proof (IH (Datatypes.S i) _ _ _ (q * (1 + u)) ltac:(nra) H1 Hl') as P. rewrite !rsum_S_l, !Nat.add_0_r. cbn [pow].
    replace (q * ((1 + u) * (1 + u) ^ length l)) with (q * (1 + u) * (1 + u) ^ length l) by ring.
    replace (Ss + (S i + rsum (length l) (fun i0 => S (i + Datatypes.S i0)%nat))) with (Ss + S i + rsum (length l) (fun j => S (Datatypes.S i + j)%nat)).
    2:{ rewrite Rplus_assoc. do 2 f_equal. apply rsum_ext. intros j _. f_equal. lia. }
    replace (s + (g i + rsum (length l) (fun i0 => g (i + Datatypes.S i0)%nat))) with (s + g i + rsum (length l) (fun j => g (Datatypes.S i + j)%nat)).
    2:{ rewrite Rplus_assoc. do 2 f_equal. apply rsum_ext. intros j _. f_equal. lia. }
    exact P.
Qed.
End Gen.

Section Flx.
Variable prec : Z.
Hypothesis Hprec : (24 <= prec)%Z.
Local Notation u := (uu prec).
Local Notation HG := (flx_rounded Hprec).
Variable n : nat.
Hypothesis (Hb : 100 * INR n <= bpow radix2 prec) (Hn : (0 < n)%nat).
Lemma n_pos : 1 <= INR n.
Proof. replace 1 with (INR 1) by reflexivity. apply le_INR. lia. Qed.
Lemma Hbu : 100 * (INR n * u) <= 1.
Proof.
  unfold uu. rewrite bpow_opp. pose proof (bpow_gt_0 radix2 prec).
  apply Rmult_le_reg_r with (bpow radix2 prec); [assumption|]. replace (100 * (INR n * / bpow radix2 prec) * bpow radix2 prec) with (100 * INR n) by (field; lra). lra.
Qed.
Lemma fas_exact k : (k <= n + 1)%nat -> @fas R (flx prec) k = INR k.
Proof.
  intros Hk. cbn [fas flx]. apply (rnd_INR Hprec). apply Rle_trans with (100 * INR n); [|exact Hb].
  apply le_INR in Hk. rewrite plus_INR in Hk. change (INR 1) with 1 in Hk. pose proof n_pos. lra.
Qed.
Lemma ph_near k : (k <= n)%nat -> rnear (1 + u) (INR k + / 2) (INR k + / 2) (ph (F := flx prec) k).
Proof.
  intros Hk. unfold ph, M_rfft.half. rewrite fas_exact by lia. rewrite flit_half. pose proof (uu_pos prec). pose proof (pos_INR k).
  split; [lra|]. split; [rewrite Rabs_pos_eq; lra|]. pose proof (r_add HG (INR k) (/ 2)) as P. rewrite (Rabs_pos_eq (INR k + / 2)) in P by lra. lra.
Qed.
Lemma p1_exact k : (k <= n)%nat -> p1 (F := flx prec) k = INR (S k).
Proof.
  intros Hk. unfold p1. rewrite fas_exact by lia. rewrite S_INR. cbn [fadd fone flx]. rewrite <- S_INR. change (rnd prec (INR (S k))) with (@fas R (flx prec) (S k)). apply fas_exact. lia.
Qed.
Lemma pi_near : rnear (1 + u) PI PI (@fpi R (flx prec)).
Proof.
  pose proof (uu_pos prec). pose proof PI_RGT_0. split; [lra|]. split; [rewrite Rabs_pos_eq; lra|].
  cbn [fpi flx]. pose proof (rnd_err Hprec PI) as P. rewrite (Rabs_pos_eq PI) in P by lra. lra.
Qed.
Lemma factor_near m : (0 < m)%nat -> (m <= n + 1)%nat -> rnear ((1 + u) * (1 + u)) (PI / INR m) (PI / INR m) (@fdiv R (flx prec) (@fpi R (flx prec)) (@fas R (flx prec) m)).
Proof.
  intros H0 Hm. rewrite fas_exact by exact Hm. assert (P : 0 < INR m) by (apply lt_0_INR; exact H0).
  pose proof (rn_div HG (b := INR m) ltac:(lra) pi_near) as N. rewrite (Rabs_pos_eq (INR m)) in N by lra. exact N.
Qed.
Lemma exact_near k : rnear 1 (INR k) (INR k) (INR k).
Proof. pose proof (rn_self (INR k)) as P. rewrite Rabs_pos_eq in P by apply pos_INR. exact P. Qed.
(* rounding six times an angle of at most pi n, then cos or sin *)
Lemma six : (1 + u) ^ 6 <= 1 + 6.01 * u.
Proof.
  pose proof (uu_pos prec). pose proof (uu_small Hprec).
  assert (A : (1 + u) ^ 2 <= 1 + 2.0001 * u) by (cbn [pow]; nra). assert (B : (1 + u) ^ 3 <= 1 + 3.001 * u).
  { replace ((1 + u) ^ 3) with ((1 + u) ^ 2 * (1 + u)) by ring. assert (0 <= (1 + u) ^ 2) by (apply pow_le; lra). nra. }
  replace ((1 + u) ^ 6) with ((1 + u) ^ 3 * (1 + u) ^ 3) by ring. assert (0 <= (1 + u) ^ 3) by (apply pow_le; lra). nra.
Qed.
Lemma small_pow k : (k <= 6)%nat -> (1 + u) ^ k <= (1 + u) ^ 6.
Proof. intros H. pose proof (uu_pos prec). apply Rle_pow; [lra|exact H]. Qed.
Lemma angle_err m q a t : 0 <= m -> rnear q (Rabs a) a t -> q <= (1 + u) ^ 6 -> Rabs a <= m * PI * INR n -> Rabs (t - a) <= m * (25 * (INR n * u)).
Proof.
  intros Hm (Hq & _ & H) H6 Ha. pose proof six. pose proof (uu_pos prec). pose proof n_pos. pose proof (Rabs_pos a). pose proof PI_4. pose proof PI_RGT_0.
  assert (Ha' : Rabs a <= m * (4 * INR n)) by (eapply Rle_trans; [exact Ha|]; rewrite Rmult_assoc; apply Rmult_le_compat_l; [exact Hm|]; apply Rmult_le_compat_r; lra).
  eapply Rle_trans; [exact H|]. apply Rle_trans with (6.01 * u * (m * (4 * INR n))); [apply Rmult_le_compat; lra|].
  replace (6.01 * u * (m * (4 * INR n))) with (m * (24.04 * (INR n * u))) by lra. apply Rmult_le_compat_l; [exact Hm|]. assert (0 <= INR n * u) by nra. lra.
Qed.
Definition dt (m : R) : R := 1 + m * (26 * (INR n * u)).
Lemma dt_1 m : 0 <= m -> 1 <= dt m.
Proof. intros Hm. unfold dt. pose proof (uu_pos prec). pose proof n_pos. assert (0 <= m * (26 * (INR n * u))) by (apply Rmult_le_pos; nra). lra. Qed.
Lemma dt_room m d : 1 <= m -> Rabs d <= m * (25 * (INR n * u)) -> u * 1 + Rabs d <= (dt m - 1) * 1.
Proof. intros Hm Hd. unfold dt. pose proof (uu_pos prec). pose proof n_pos. assert (u <= m * (INR n * u)). { assert (u <= INR n * u) by nra. assert (0 <= INR n * u) by nra. nra. } nra. Qed.
Lemma cos_near m q a t : 1 <= m -> rnear q (Rabs a) a t -> q <= (1 + u) ^ 6 -> Rabs a <= m * PI * INR n -> rnear (dt m) 1 (cos a) (@fcos R (flx prec) t).
Proof.
  intros Hm H1 H2 H3. pose proof (@angle_err m q a t ltac:(lra) H1 H2 H3) as E. split; [apply dt_1; lra|].
  split; [apply Rabs_le; apply COS_bound|]. cbn [fcos flx]. replace (rnd prec (cos t) - cos a) with ((rnd prec (cos t) - cos t) + (cos t - cos a)) by ring.
  eapply Rle_trans; [apply Rabs_triang|]. eapply Rle_trans; [|apply (dt_room _ Hm E)]. apply Rplus_le_compat.
  - eapply Rle_trans; [apply (rnd_err Hprec)|]. apply Rmult_le_compat_l; [left; apply uu_pos|]. apply Rabs_le; apply COS_bound.
  - eapply Rle_trans; [|apply chord]. apply (Rabs_re (cis t -c cis a)).
Qed.
Lemma sin_near m q a t : 1 <= m -> rnear q (Rabs a) a t -> q <= (1 + u) ^ 6 -> Rabs a <= m * PI * INR n -> rnear (dt m) 1 (sin a) (@fsin R (flx prec) t).
Proof.
  intros Hm H1 H2 H3. pose proof (@angle_err m q a t ltac:(lra) H1 H2 H3) as E. split; [apply dt_1; lra|].
  split; [apply Rabs_le; apply SIN_bound|]. cbn [fsin flx]. replace (rnd prec (sin t) - sin a) with ((rnd prec (sin t) - sin t) + (sin t - sin a)) by ring.
  eapply Rle_trans; [apply Rabs_triang|]. eapply Rle_trans; [|apply (dt_room _ Hm E)]. apply Rplus_le_compat.
  - eapply Rle_trans; [apply (rnd_err Hprec)|]. apply Rmult_le_compat_l; [left; apply uu_pos|]. apply Rabs_le; apply SIN_bound.
  - eapply Rle_trans; [|apply chord]. apply (Rabs_im (cis t -c cis a)).
Qed.
(* products of three factors *)
Lemma tri_near q1 q2 q3 a b e ah bh eh : 0 <= a -> 0 <= b -> 0 <= e -> rnear q1 a a ah -> rnear q2 b b bh -> rnear q3 e e eh ->
  rnear (q1 * q2 * (1 + u) * q3 * (1 + u)) (Rabs (a * b * e)) (a * b * e) (@fmul R (flx prec) (@fmul R (flx prec) ah bh) eh).
Proof.
  intros Ha Hb' He H1 H2 H3. rewrite (Rabs_pos_eq (a * b * e)) by (apply Rmult_le_pos; [apply Rmult_le_pos|]; assumption).
  exact (rn_mul HG (rn_mul HG H1 H2) H3).
Qed.
(* the whole sum *)
Lemma sum_small : dt 1 * (1 + u) * (1 + u) ^ n <= 1 + 30 * (INR n * u).
Proof.
  pose proof Hbu. pose proof (uu_pos prec). pose proof n_pos. assert (0 <= INR n * u) by nra.
  pose proof (@pow_linear u n ltac:(lra) ltac:(lra)) as P. unfold dt. assert (Hut : u <= INR n * u) by nra. set (t := INR n * u) in *. 
  apply Rle_trans with ((1 + 26 * t) * (1 + t) * (1 + 2 * t)).
  - apply Rmult_le_compat; [nra|apply pow_le; lra| |exact P]. apply Rmult_le_compat; lra.
  - assert (t * t <= / 100 * t) by (apply Rmult_le_compat_r; lra). assert (t * t * t <= / 10000 * t). { apply Rle_trans with (/ 100 * t * t); [apply Rmult_le_compat_r; lra|lra]. }
    replace ((1 + 26 * t) * (1 + t) * (1 + 2 * t)) with (1 + 29 * t + 80 * (t * t) + 52 * (t * t * t)) by ring. lra.
Qed.
Lemma sum_small2 : dt 2 * (1 + u) * (1 + u) * (1 + u) ^ n <= 1 + 60 * (INR n * u).
Proof.
  pose proof Hbu. pose proof (uu_pos prec). pose proof n_pos. assert (0 <= INR n * u) by nra.
  pose proof (@pow_linear u n ltac:(lra) ltac:(lra)) as P. unfold dt. assert (Hut : u <= INR n * u) by nra. set (t := INR n * u) in *. 
  apply Rle_trans with ((1 + 52 * t) * (1 + t) * (1 + t) * (1 + 2 * t)).
  - apply Rmult_le_compat; [|apply pow_le; lra| |exact P]; [apply Rmult_le_pos; nra|]. apply Rmult_le_compat; [nra|lra| |lra]. apply Rmult_le_compat; lra.
  - assert (t * t <= / 100 * t) by (apply Rmult_le_compat_r; lra). assert (t * t * t <= / 10000 * t). { apply Rle_trans with (/ 100 * t * t); [apply Rmult_le_compat_r; lra|lra]. }
    assert (t * t * t * t <= / 1000000 * t). { apply Rle_trans with (/ 10000 * t * t); [apply Rmult_le_compat_r; lra|lra]. }
    replace ((1 + 52 * t) * (1 + t) * (1 + t) * (1 + 2 * t)) with (1 + 56 * t + 213 * (t * t) + 262 * (t * t * t) + 104 * (t * t * t * t)) by ring. lra.
Qed.
Variable x : list R.
Hypothesis Hx : length x = n.
Lemma norm_rsum : rnorm x = rsum n (fun i => Rabs (xat x i)).
Proof. unfold rnorm. rewrite Hx. reflexivity. Qed.
(* sums over all samples *)
Lemma sum0_near D (K : nat -> R) (kh : nat -> R) S : 1 <= D -> (forall i, (i < n)%nat -> rnear D S (K i) (kh i)) ->
  rnear (D * (1 + u) * (1 + u) ^ n) (rnorm x * S) (rsum n (fun i => xat x i * K i)) (enum_sum (F := flx prec) (fun i v => @fmul R (flx prec) v (kh i)) 0 x (@fzero R (flx prec))).
Proof.
  intros Hdt H. pose proof (uu_pos prec) as Hu.
  pose proof (@enum_near (flx prec) u HG (fun i => xat x i * K i) (fun i v => @fmul R (flx prec) v (kh i)) (fun i => Rabs (xat x i) * S) x 0 0 0 0 (D * (1 + u)) ltac:(nra)) as P.
  assert (P0 : rnear (D * (1 + u)) 0 0 0). { unfold rnear. rewrite Rminus_0_r, Rabs_R0. repeat split; nra. }
  specialize (P P0). rewrite Hx in P. rewrite !Rplus_0_l in P. cbn [plus] in P. rewrite norm_rsum.
  eapply rn_mono; [apply P|apply Rle_refl|right; rewrite rsum_scal_r; reflexivity].
  intros j Hj. pose proof (rn_mul HG (rn_self (nth j x 0)) (H j Hj)) as N. rewrite Rmult_1_l in N. exact N.
Qed.
(* sums whose first sample is treated apart *)
Lemma sum1_near (K : nat -> R) (kh : nat -> R) : K 0%nat = / 2 -> (forall i, (0 < i < n)%nat -> rnear (dt 1) 1 (K i) (kh i)) ->
  rnear (1 + 30 * (INR n * u)) (rnorm x) (rsum n (fun i => xat x i * K i)) (enum_sum (F := flx prec) (fun i v => @fmul R (flx prec) v (kh i)) 1 (skipn 1 x) (@fdiv R (flx prec) (xat x 0) (two (F := flx prec)))).
Proof.
  intros HK H. pose proof (@dt_1 1 ltac:(lra)) as Hdt. pose proof (uu_pos prec) as Hu. pose proof sum_small as SS.
  rewrite norm_rsum. destruct x as [|a l]; [cbn in Hx; lia|]. cbn [skipn]. 
  pose proof (@enum_near (flx prec) u HG (fun i => xat (a :: l) i * K i) (fun i v => @fmul R (flx prec) v (kh i)) (fun i => Rabs (xat (a :: l) i)) l 1 (a * / 2) (@fdiv R (flx prec) a (two (F := flx prec))) (Rabs a) (dt 1 * (1 + u)) ltac:(nra)) as P.
  assert (P0 : rnear (dt 1 * (1 + u)) (Rabs a) (a * / 2) (@fdiv R (flx prec) a (two (F := flx prec)))).
  { unfold two. rewrite flit_2. pose proof (rn_div HG (b := 2) ltac:(lra) (rn_self a)) as N. rewrite (Rabs_pos_eq 2) in N by lra.
    eapply rn_mono; [exact N|nra|]. pose proof (Rabs_pos a). lra. }
  specialize (P P0). assert (Hl : n = S (length l)) by (cbn in Hx; lia).
  assert (EnR : forall f, rsum n f = f 0%nat + rsum (length l) (fun j => f (1 + j)%nat)) by (intros f; rewrite Hl; apply rsum_S_l).
  rewrite !EnR. rewrite HK. change (xat (a :: l) 0) with a.
  eapply rn_mono; [apply P| |apply Rle_refl].
  - intros j Hj. cbn [plus]. pose proof (rn_mul HG (rn_self (nth j l 0)) (H (S j) ltac:(lia))) as N. rewrite Rmult_1_l, Rmult_1_r in N. exact N.
  - eapply Rle_trans; [|exact SS]. apply Rmult_le_compat_l; [nra|]. apply Rle_pow; [lra|lia].
Qed.
Lemma fill_within f K e : (forall k, (k < n)%nat -> exists v, f k = Done v /\ Rabs (v - rsum n (fun i => xat x i * K k i)) <= e) ->
  exists y, fill (zvec (F := flx prec) (length x)) f = Done y /\ rwithin e y (sum_spec x K).
Proof.
  intros H. exists (tab (length x) (fun k => match f k with Done v => v | _ => 0 end)). split.
  - rewrite (@fill_tab R (zvec (F := flx prec) (length x)) f (fun k => match f k with Done v => v | _ => 0 end)); rewrite zvec_length; [reflexivity|].
    rewrite Hx. intros k Hk. destruct (H k Hk) as (v & E & _). rewrite E. reflexivity.
  - split; [rewrite sum_spec_length; apply tab_length|]. intros k Hk. rewrite sum_spec_length in Hk. rewrite nth_tab by exact Hk.
    fold (xat (sum_spec x K) k). rewrite xat_spec by exact Hk. destruct (H k ltac:(lia)) as (v & E & B). rewrite E, Hx. exact B.
Qed.
Lemma by_near e S z zh : rnear (1 + e) S z zh -> Rabs (zh - z) <= e * S.
Proof. intros (_ & _ & H). replace e with (1 + e - 1) by ring. exact H. Qed.
Lemma finish30 (K : nat -> R) (kh : nat -> R) : (forall i, (i < n)%nat -> rnear (dt 1) 1 (K i) (kh i)) ->
  Rabs (enum_sum (F := flx prec) (fun i v => @fmul R (flx prec) v (kh i)) 0 x (@fzero R (flx prec)) - rsum n (fun i => xat x i * K i)) <= 30 * INR n * u * rnorm x.
Proof.
  intros H. pose proof (@sum0_near (dt 1) K kh 1 (@dt_1 1 ltac:(lra)) H) as P. eapply rn_mono in P; [|apply sum_small|apply Rle_refl]. apply by_near in P.
  eapply Rle_trans; [exact P|right; ring].
Qed.
(* angles *)
Lemma le_n k : (k <= n)%nat -> 0 <= INR k <= INR n.
Proof. intros H. split; [apply pos_INR|apply le_INR; exact H]. Qed.
Lemma lt_n k : (k < n)%nat -> 0 <= INR k + / 2 <= INR n.
Proof. intros H. pose proof (le_n (Nat.lt_le_incl _ _ H)). assert (INR (S k) <= INR n) by (apply le_INR; exact H). rewrite S_INR in *. lra. Qed.
Lemma bound_angle p q N : 0 <= p <= INR n -> 0 <= q <= N -> 0 < N -> Rabs (PI / N * p * q) <= 1 * PI * INR n.
Proof.
  intros Hp Hq HN. pose proof PI_RGT_0. assert (0 < / N) by (apply Rinv_0_lt_compat; exact HN).
  rewrite Rabs_pos_eq by (apply Rmult_le_pos; [apply Rmult_le_pos; [apply Rmult_le_pos|]|]; lra). replace (PI / N * p * q) with (PI * p * (q / N)) by (field; lra).
  assert (q / N <= 1) by (apply Rmult_le_reg_r with N; [exact HN|]; unfold Rdiv; rewrite Rmult_assoc, Rinv_l; lra).
  assert (0 <= q / N) by (apply Rmult_le_pos; lra). rewrite Rmult_1_l, <- (Rmult_1_r (PI * INR n)).
  apply Rmult_le_compat; try assumption; [apply Rmult_le_pos; lra|apply Rmult_le_compat_l; lra].
Qed.
Lemma exact_near' k : (k <= n)%nat -> rnear 1 (INR k) (INR k) (@fas R (flx prec) k).
Proof. intros H. rewrite fas_exact by lia. apply exact_near. Qed.
Lemma p1_near k : (k <= n)%nat -> rnear 1 (INR (S k)) (INR (S k)) (p1 (F := flx prec) k).
Proof. intros H. rewrite p1_exact by lia. apply exact_near. Qed.
Ltac pows := match goal with |- ?a <= _ => first
 [ replace a with ((1 + u) ^ 6) by ring | replace a with ((1 + u) ^ 5) by ring | replace a with ((1 + u) ^ 4) by ring ] end; apply small_pow; lia.
Lemma Nn : 0 < INR n.
Proof. pose proof n_pos. lra. Qed.
Lemma PIn : 0 <= PI / INR n.
Proof. pose proof Nn. pose proof PI_RGT_0. apply Rmult_le_pos; [lra|left; apply Rinv_0_lt_compat; assumption]. Qed.
Ltac ang := pose proof PIn; pose proof Nn.

Lemma dct2_err : exists y, dct2 (F := flx prec) x = Done y /\ rwithin (30 * INR n * u * rnorm x) y (sum_spec x (c2 n)).
Proof.
  unfold dct2. apply fill_within. intros k Hk. eexists. split; [reflexivity|]. rewrite Hx. apply finish30. intros i Hi. ang.
  replace (c2 n k i) with (cos (PI / INR n * (INR i + / 2) * INR k)) by (unfold c2; f_equal; field; lra).
  pose proof (lt_n Hi). pose proof (@le_n k ltac:(lia)).
  eapply cos_near; [lra|apply tri_near; [lra|lra|lra|apply factor_near; lia|apply ph_near; lia|apply exact_near'; lia]|pows|apply bound_angle; lra].
Qed.
Lemma dct4_err : exists y, dct4 (F := flx prec) x = Done y /\ rwithin (30 * INR n * u * rnorm x) y (sum_spec x (c4 n)).
Proof.
  unfold dct4. apply fill_within. intros k Hk. eexists. split; [reflexivity|]. rewrite Hx. apply finish30. intros i Hi. ang.
  replace (c4 n k i) with (cos (PI / INR n * (INR i + / 2) * (INR k + / 2))) by (unfold c4; f_equal; field; lra).
  pose proof (lt_n Hi). pose proof (lt_n Hk).
  eapply cos_near; [lra|apply tri_near; [lra|lra|lra|apply factor_near; lia|apply ph_near; lia|apply ph_near; lia]|pows|apply bound_angle; lra].
Qed.
Lemma dst2_err : exists y, dst2 (F := flx prec) x = Done y /\ rwithin (30 * INR n * u * rnorm x) y (sum_spec x (s2 n)).
Proof.
  unfold dst2. apply fill_within. intros k Hk. eexists. split; [reflexivity|]. rewrite Hx. apply finish30. intros i Hi. ang.
  replace (s2 n k i) with (sin (PI / INR n * (INR i + / 2) * INR (S k))) by (unfold s2; f_equal; field; lra).
  pose proof (lt_n Hi). pose proof (@le_n (S k) ltac:(lia)).
  eapply sin_near; [lra|apply tri_near; [lra|lra|lra|apply factor_near; lia|apply ph_near; lia|apply p1_near; lia]|pows|apply bound_angle; lra].
Qed.
Lemma dst4_err : exists y, dst4 (F := flx prec) x = Done y /\ rwithin (30 * INR n * u * rnorm x) y (sum_spec x (s4 n)).
Proof.
  unfold dst4. apply fill_within. intros k Hk. eexists. split; [reflexivity|]. rewrite Hx. apply finish30. intros i Hi. ang.
  replace (s4 n k i) with (sin (PI / INR n * (INR i + / 2) * (INR k + / 2))) by (unfold s4; f_equal; field; lra).
  pose proof (lt_n Hi). pose proof (lt_n Hk).
  eapply sin_near; [lra|apply tri_near; [lra|lra|lra|apply factor_near; lia|apply ph_near; lia|apply ph_near; lia]|pows|apply bound_angle; lra].
Qed.
Lemma dst1_err : exists y, dst1 (F := flx prec) x = Done y /\ rwithin (30 * INR n * u * rnorm x) y (sum_spec x (s1 n)).
Proof.
  unfold dst1. apply fill_within. intros k Hk. eexists. split; [reflexivity|]. rewrite Hx. apply finish30. intros i Hi. ang.
  assert (0 < INR (S n)) by (apply lt_0_INR; lia). pose proof PI_RGT_0. assert (0 <= PI / INR (S n)) by (apply Rmult_le_pos; [lra|left; apply Rinv_0_lt_compat; assumption]).
  replace (s1 n k i) with (sin (INR (S i) * INR (S k) * (PI / INR (S n)))) by (unfold s1; f_equal; field; lra).
  pose proof (@le_n (S i) ltac:(lia)). pose proof (@le_n (S k) ltac:(lia)).
  assert (F : rnear ((1 + u) * (1 + u)) (PI / INR (S n)) (PI / INR (S n)) (@fdiv R (flx prec) (@fpi R (flx prec)) (p1 (F := flx prec) n))).
  { rewrite p1_exact by lia. rewrite <- (@fas_exact (S n)) at 3 by lia. apply factor_near; lia. }
  eapply sin_near; [lra|apply tri_near; [lra|lra|lra|apply p1_near; lia|apply p1_near; lia|exact F]|pows|].
  replace (INR (S i) * INR (S k) * (PI / INR (S n))) with (PI / INR (S n) * INR (S i) * INR (S k)) by ring.
  apply bound_angle; try lra. rewrite (S_INR n). lra.
Qed.
Lemma dct3_err : exists y, dct3 (F := flx prec) x = Done y /\ rwithin (30 * INR n * u * rnorm x) y (sum_spec x (c3 n)).
Proof.
  unfold dct3. apply fill_within. intros k Hk. unfold dct3_sum. rewrite get0 by lia. cbn [bind]. eexists. split; [reflexivity|]. rewrite Hx. ang. pose proof (lt_n Hk).
  assert (P : rnear (1 + 30 * (INR n * u)) (rnorm x) (rsum n (fun i => xat x i * c3 n k i)) (enum_sum (F := flx prec) (fun i v => @fmul R (flx prec) v (@fcos R (flx prec) (@fmul R (flx prec) (@fmul R (flx prec) (@fdiv R (flx prec) (@fpi R (flx prec)) (@fas R (flx prec) n)) (@fas R (flx prec) i)) (ph (F := flx prec) k)))) 1 (skipn 1 x) (@fdiv R (flx prec) (xat x 0) (two (F := flx prec))))).
  { apply sum1_near; [reflexivity|]. intros i Hi. unfold c3. destruct (Nat.eqb_spec i 0); [lia|].
    replace (cos (PI * INR i * (INR k + / 2) / INR n)) with (cos (PI / INR n * INR i * (INR k + / 2))) by (f_equal; field; lra).
    pose proof (@le_n i ltac:(lia)).
    eapply cos_near; [lra|apply tri_near; [lra|lra|lra|apply factor_near; lia|apply exact_near'; lia|apply ph_near; lia]|pows|apply bound_angle; lra]. }
  apply by_near in P. eapply Rle_trans; [exact P|right; ring].
Qed.
Lemma dst3_err : exists y, dst3 (F := flx prec) x = Done y /\ rwithin (30 * INR n * u * rnorm x) y (sum_spec x (s3 n)).
Proof.
  unfold dst3. apply fill_within. intros k Hk. unfold dst3_sum. rewrite get0 by lia. cbn [bind]. eexists. split; [reflexivity|]. rewrite Hx. ang. pose proof (lt_n Hk).
  assert (P : rnear (1 + 30 * (INR n * u)) (rnorm x) (rsum n (fun i => xat x i * s3 n k i)) (enum_sum (F := flx prec) (fun i v => @fmul R (flx prec) v (@fsin R (flx prec) (@fmul R (flx prec) (@fmul R (flx prec) (@fdiv R (flx prec) (@fpi R (flx prec)) (@fas R (flx prec) n)) (ph (F := flx prec) k)) (@fas R (flx prec) i)))) 1 (skipn 1 x) (@fdiv R (flx prec) (xat x 0) (two (F := flx prec))))).
  { apply sum1_near; [reflexivity|]. intros i Hi. unfold s3. destruct (Nat.eqb_spec i 0); [lia|].
    replace (sin (PI * INR i * (INR k + / 2) / INR n)) with (sin (PI / INR n * (INR k + / 2) * INR i)) by (f_equal; field; lra).
    pose proof (@le_n i ltac:(lia)).
    eapply sin_near; [lra|apply tri_near; [lra|lra|lra|apply factor_near; lia|apply ph_near; lia|apply exact_near'; lia]|pows|apply bound_angle; lra]. }
  apply by_near in P. eapply Rle_trans; [exact P|right; ring].
Qed.
Lemma dht_err : exists y, dht (F := flx prec) x = Done y /\ rwithin (120 * INR n * u * rnorm x) y (sum_spec x (cas n)).
Proof.
  unfold dht. apply fill_within. intros k Hk. eexists. split; [reflexivity|]. rewrite Hx. ang. pose proof (uu_pos prec) as Hu. pose proof PI_RGT_0 as HP.
  assert (T2 : forall i, (i < n)%nat -> rnear ((1 * (1 + u) * (1 + u)) * (1 + u) * (1 + u) * (1 + u)) (Rabs (2 * PI * INR (i * k) / INR n)) (2 * PI * INR (i * k) / INR n)
     (@fmul R (flx prec) (@fdiv R (flx prec) (@fmul R (flx prec) (two (F := flx prec)) (@fpi R (flx prec))) (@fas R (flx prec) n)) (@fas R (flx prec) (i * k)))).
  { intros i Hi. unfold two. rewrite flit_2, (@fas_exact n) by lia.
    assert (A2 : rnear 1 2 2 2) by (pose proof (rn_self 2) as P; rewrite (Rabs_pos_eq 2) in P by lra; exact P).
    assert (Ak : rnear (1 + u) (INR (i * k)) (INR (i * k)) (@fas R (flx prec) (i * k))).
    { pose proof (pos_INR (i * k)). split; [lra|]. split; [rewrite Rabs_pos_eq; lra|]. cbn [fas flx]. pose proof (rnd_err Hprec (INR (i * k))) as P. rewrite (Rabs_pos_eq (INR (i * k))) in P by lra. lra. }
    pose proof (rn_mul HG (rn_div HG (b := INR n) ltac:(lra) (rn_mul HG A2 pi_near)) Ak) as P. rewrite (Rabs_pos_eq (INR n)) in P by lra.
    replace (2 * PI * INR (i * k) / INR n) with (2 * PI / INR n * INR (i * k)) by (field; lra).
    rewrite (Rabs_pos_eq (2 * PI / INR n * INR (i * k))) by (apply Rmult_le_pos; [apply Rmult_le_pos; [lra|left; apply Rinv_0_lt_compat; lra]|apply pos_INR]).
    exact P. }
  assert (B2 : forall i, (i < n)%nat -> Rabs (2 * PI * INR (i * k) / INR n) <= 2 * PI * INR n).
  { intros i Hi. replace (2 * PI * INR (i * k) / INR n) with (2 * (PI / INR n * INR i * INR k)) by (rewrite mult_INR; field; lra).
    rewrite Rabs_mult, (Rabs_pos_eq 2) by lra. pose proof (@le_n i ltac:(lia)) as Bi. pose proof (@le_n k ltac:(lia)) as Bk. pose proof (bound_angle Bi Bk Nn). lra. }
  assert (C : forall i, (i < n)%nat -> rnear (dt 2 * (1 + u)) 2 (cas n k i) (@fadd R (flx prec)
     (@fcos R (flx prec) (@fmul R (flx prec) (@fdiv R (flx prec) (@fmul R (flx prec) (two (F := flx prec)) (@fpi R (flx prec))) (@fas R (flx prec) n)) (@fas R (flx prec) (i * k))))
     (@fsin R (flx prec) (@fmul R (flx prec) (@fdiv R (flx prec) (@fmul R (flx prec) (two (F := flx prec)) (@fpi R (flx prec))) (@fas R (flx prec) n)) (@fas R (flx prec) (i * k)))))).
  { intros i Hi. unfold cas. replace 2 with (1 + 1) at 2 by ring. apply (rnear_add HG).
    - eapply cos_near; [lra|apply T2; exact Hi|pows|apply B2; exact Hi].
    - eapply sin_near; [lra|apply T2; exact Hi|pows|apply B2; exact Hi]. }
  pose proof (@dt_1 2 ltac:(lra)) as Hd.
  pose proof (@sum0_near (dt 2 * (1 + u)) _ _ 2 ltac:(nra) C) as P. eapply rn_mono in P; [|apply sum_small2|apply Rle_refl]. apply by_near in P.
  eapply Rle_trans; [exact P|right; ring].
Qed.
Lemma c1_ends k : (2 <= n)%nat -> c1 n k 0 = 1 /\ c1 n k (n - 1) = if Nat.even k then 1 else -1.
Proof.
  intros H2. assert (D : INR n - 1 <> 0).
  { replace (INR n - 1) with (INR (n - 1)) by (rewrite minus_INR by lia; reflexivity). apply not_0_INR. lia. }
  unfold c1. split.
  - cbn [Nat.eqb orb]. replace (PI * INR 0 * INR k / (INR n - 1)) with 0 by (cbn [INR]; unfold Rdiv; ring). rewrite cos_0. ring.
  - rewrite Nat.eqb_refl, Bool.orb_true_r.
    replace (PI * INR (n - 1) * INR k / (INR n - 1)) with (PI * INR k) by (rewrite minus_INR by lia; cbn [INR]; field; exact D).
    rewrite cos_PI_nat. ring.
Qed.
Lemma split_ends f : (2 <= n)%nat -> rsum n f = f 0%nat + f (n - 1)%nat + rsum (n - 2) (fun i => f (1 + i)%nat).
Proof.
  intros H2. replace n with (S (S (n - 2))) at 1 by lia. rewrite rsum_S_l. cbn [rsum]. replace (S (n - 2)) with (n - 1)%nat by lia. cbn [plus]. ring.
Qed.
Lemma dct1_err : (2 <= n)%nat -> exists y, dct1 (F := flx prec) x = Done y /\ rwithin (60 * INR n * u * rnorm x) y (sum_spec x (c1 n)).
Proof.
  intros H2. assert (E : dct1 (F := flx prec) x = fill (zvec (F := flx prec) (length x)) (dct1_sum (F := flx prec) (@fdiv R (flx prec) (@fpi R (flx prec)) (@fsub R (flx prec) (@fas R (flx prec) (length x)) (@fone R (flx prec)))) x)).
  { destruct x as [|a [|b l]]; cbn in Hx; try lia. reflexivity. }
  rewrite E. clear E. apply fill_within. intros k Hk. unfold dct1_sum. rewrite get0 by lia. cbn [bind]. rewrite (@get_nth R x (length x - 1) 0) by lia. cbn [bind]. fold (xat x (length x - 1)).
  eexists. split; [reflexivity|]. rewrite Hx. pose proof (uu_pos prec) as Hu. pose proof (@dt_1 1 ltac:(lra)) as Hd. ang. pose proof PI_RGT_0.
  assert (Hm : @fsub R (flx prec) (@fas R (flx prec) n) (@fone R (flx prec)) = INR (n - 1)).
  { rewrite fas_exact by lia. cbn [fsub fone flx]. replace (INR n - 1) with (INR (n - 1)) by (rewrite minus_INR by lia; reflexivity).
    change (@fas R (flx prec) (n - 1) = INR (n - 1)). apply fas_exact. lia. }
  rewrite Hm. assert (N1 : 0 < INR (n - 1)) by (apply lt_0_INR; lia). assert (0 <= PI / INR (n - 1)) by (apply Rmult_le_pos; [lra|left; apply Rinv_0_lt_compat; assumption]).
  set (l := skipn 1 (firstn (n - 1) x)). assert (Hl : length l = (n - 2)%nat) by (unfold l; rewrite skipn_length, firstn_length; lia).
  set (fac := @fdiv R (flx prec) (@fpi R (flx prec)) (INR (n - 1))).
  assert (F : rnear ((1 + u) * (1 + u)) (PI / INR (n - 1)) (PI / INR (n - 1)) fac).
  { unfold fac. rewrite <- (@fas_exact (n - 1)) at 3 by lia. apply factor_near; lia. }
  set (q := dt 1 * (1 + u) * (1 + u)). assert (Hq : 1 <= q) by (unfold q; assert (1 <= dt 1 * (1 + u)) by nra; nra).
  destruct (c1_ends k H2) as (E0 & E1).
  assert (B : rnear q (Rabs (xat x 0) + Rabs (xat x (n - 1))) (xat x 0 * c1 n k 0 + xat x (n - 1) * c1 n k (n - 1)) (@fadd R (flx prec) (xat x 0) (if Nat.even k then xat x (n - 1) else @fneg R (flx prec) (xat x (n - 1))))).
  { rewrite E0, E1, Rmult_1_r.
    assert (B1 : rnear 1 (Rabs (xat x (n - 1))) (xat x (n - 1) * (if Nat.even k then 1 else -1)) (if Nat.even k then xat x (n - 1) else @fneg R (flx prec) (xat x (n - 1)))).
    { destruct (Nat.even k); [rewrite Rmult_1_r; apply rn_self|]. replace (xat x (n - 1) * -1) with (- xat x (n - 1)) by ring. apply (rnear_neg (rn_self _)). }
    eapply rn_mono; [apply (rnear_add HG (rn_self _) B1)| |apply Rle_refl]. unfold q. assert (1 <= dt 1 * (1 + u)) by nra. nra. }
  pose proof (@enum_near (flx prec) u HG (fun i => xat x i * c1 n k i) (fun i v => @fmul R (flx prec) (@fmul R (flx prec) (two (F := flx prec)) v) (@fcos R (flx prec) (@fmul R (flx prec) (@fmul R (flx prec) fac (@fas R (flx prec) i)) (@fas R (flx prec) k))))
    (fun i => 2 * Rabs (xat x i)) l 1 _ _ _ q Hq B) as P.
  rewrite Hl in P.
  assert (T : rnear (q * (1 + u) ^ (n - 2)) (Rabs (xat x 0) + Rabs (xat x (n - 1)) + rsum (n - 2) (fun j => 2 * Rabs (xat x (1 + j)))) (xat x 0 * c1 n k 0 + xat x (n - 1) * c1 n k (n - 1) + rsum (n - 2) (fun j => xat x (1 + j) * c1 n k (1 + j)))
    (enum_sum (F := flx prec) (fun i v => @fmul R (flx prec) (@fmul R (flx prec) (two (F := flx prec)) v) (@fcos R (flx prec) (@fmul R (flx prec) (@fmul R (flx prec) fac (@fas R (flx prec) i)) (@fas R (flx prec) k)))) 1 l (@fadd R (flx prec) (xat x 0) (if Nat.even k then xat x (n - 1) else @fneg R (flx prec) (xat x (n - 1)))))).
  { apply P. intros j Hj. clear P. assert (Ev : nth j l 0 = xat x (1 + j)) by (unfold l; rewrite nth_skipn, nth_firstn' by lia; reflexivity). rewrite Ev.
    unfold c1. destruct (Nat.eqb_spec (1 + j) 0); [lia|]. destruct (Nat.eqb_spec (1 + j) (n - 1)); [lia|]. cbn [orb].
    replace (PI * INR (1 + j) * INR k / (INR n - 1)) with (PI / INR (n - 1) * INR (1 + j) * INR k).
    2:{ replace (INR n - 1) with (INR (n - 1)) by (rewrite minus_INR by lia; reflexivity). field. lra. }
    pose proof (@le_n (1 + j) ltac:(lia)) as Bj. assert (Bk : 0 <= INR k <= INR (n - 1)) by (split; [apply pos_INR|apply le_INR; lia]).
    assert (KC : rnear (dt 1) 1 (cos (PI / INR (n - 1) * INR (1 + j) * INR k)) (@fcos R (flx prec) (@fmul R (flx prec) (@fmul R (flx prec) fac (@fas R (flx prec) (1 + j))) (@fas R (flx prec) k)))).
    { eapply cos_near; [lra|apply tri_near; [lra|lra|lra|exact F|apply exact_near'; lia|apply exact_near'; lia]|pows|apply bound_angle; lra]. }
    assert (A2 : rnear 1 2 2 (two (F := flx prec))) by (unfold two; rewrite flit_2; pose proof (rn_self 2) as A; rewrite (Rabs_pos_eq 2) in A by lra; exact A).
    pose proof (rn_mul HG (rn_mul HG A2 (rn_self (xat x (1 + j)))) KC) as M. rewrite !Rmult_1_r, Rmult_1_l in M.
    replace (xat x (1 + j) * (2 * cos (PI / INR (n - 1) * INR (1 + j) * INR k))) with (2 * xat x (1 + j) * cos (PI / INR (n - 1) * INR (1 + j) * INR k)) by ring.
    eapply rn_mono; [exact M|unfold q; right; ring|apply Rle_refl]. }
  rewrite (split_ends (fun i => xat x i * c1 n k i) H2).
  eapply rn_mono with (q' := 1 + 30 * (INR n * u)) (S' := 2 * rnorm x) in T.
  - apply by_near in T. eapply Rle_trans; [exact T|right; ring].
  - eapply Rle_trans; [|apply sum_small]. assert (Ep : (1 + u) ^ n = (1 + u) ^ (n - 2) * (1 + u) * (1 + u)) by (replace n with (S (S (n - 2))) at 1 by lia; cbn [pow]; ring). rewrite Ep. clear Ep.
    assert (H0' : 0 <= (1 + u) ^ (n - 2)) by (apply pow_le; lra). set (w := (1 + u) ^ (n - 2)) in *. assert (0 <= q * w) by (apply Rmult_le_pos; lra).
    apply Rle_trans with (q * w * (1 + u)); [|unfold q; right; ring]. nra.
  - rewrite norm_rsum, (split_ends (fun i => Rabs (xat x i)) H2), rsum_scal. pose proof (Rabs_pos (xat x 0)). pose proof (Rabs_pos (xat x (n - 1))). lra.
Qed.
End Flx.

Lemma rsum_abs n f : Rabs (rsum n f) <= rsum n (fun i => Rabs (f i)).
Proof. induction n as [|n IH]; cbn [rsum]; [rewrite Rabs_R0; lra|]. eapply Rle_trans; [apply Rabs_triang|]. lra. Qed.
Section Round.
Variables (prec : Z) (n : nat) (e0 M : R).
Local Notation u := (uu prec).
Hypothesis (He0 : 0 <= e0) (HM : 0 <= M).
Lemma spec_move (y z : list R) K e : length z = n -> rwithin e y z -> (forall k i, (k < n)%nat -> (i < n)%nat -> Rabs (K k i) <= M) -> 0 <= e ->
  rwithin (INR n * e * M) (sum_spec y K) (sum_spec z K).
Proof.
  intros Hz (Hy & B) HK He. split; [rewrite !sum_spec_length; exact Hy|]. intros k Hk. rewrite sum_spec_length in Hk.
  fold (xat (sum_spec y K) k) (xat (sum_spec z K) k). rewrite !xat_spec by lia. rewrite Hy, Hz.
  replace (rsum n (fun i => xat y i * K k i) - rsum n (fun i => xat z i * K k i)) with (rsum n (fun i => (xat y i - xat z i) * K k i)).
  2:{ rewrite <- rsum_sub. apply rsum_ext. intros; ring. }
  eapply Rle_trans; [apply rsum_abs|]. rewrite Rmult_assoc, <- rsum_const'. apply rsum_le'. intros i Hi. rewrite Rabs_mult.
  apply Rmult_le_compat; try apply Rabs_pos; [apply B; lia|apply HK; lia].
Qed.
Lemma norm_spec (x : list R) K : length x = n -> (forall k i, (k < n)%nat -> (i < n)%nat -> Rabs (K k i) <= M) -> rnorm (sum_spec x K) <= INR n * (M * rnorm x).
Proof.
  intros Hx HK. unfold rnorm at 1. rewrite sum_spec_length, Hx, <- rsum_const'. apply rsum_le'. intros k Hk.
  fold (xat (sum_spec x K) k). rewrite xat_spec by lia. rewrite Hx. eapply Rle_trans; [apply rsum_abs|]. unfold rnorm. rewrite Hx, <- rsum_scal. apply rsum_le'. intros i Hi.
  rewrite Rabs_mult, Rmult_comm. apply Rmult_le_compat_r; [apply Rabs_pos|apply HK; assumption].
Qed.
Lemma norm_move (y z : list R) e : rwithin e y z -> rnorm y <= rnorm z + INR (length z) * e.
Proof.
  intros (Hy & B). unfold rnorm. rewrite Hy, <- rsum_const', <- rsum_add. apply rsum_le'. intros i Hi.
  replace (nth i y 0) with (nth i z 0 + (nth i y 0 - nth i z 0)) by ring. eapply Rle_trans; [apply Rabs_triang|]. pose proof (B i Hi). lra.
Qed.
Lemma rnorm_pos x : 0 <= rnorm x.
Proof. apply rsum_pos. intros. apply Rabs_pos. Qed.
Lemma round_trip (f g : list R -> exec (list R)) K1 K2 a E :
  (forall x, length x = n -> exists y, f x = Done y /\ rwithin (e0 * INR n * u * rnorm x) y (sum_spec x K1)) ->
  (forall x, length x = n -> exists y, g x = Done y /\ rwithin (e0 * INR n * u * rnorm x) y (sum_spec x K2)) ->
  (forall k i, (k < n)%nat -> (i < n)%nat -> Rabs (K1 k i) <= M) -> (forall k i, (k < n)%nat -> (i < n)%nat -> Rabs (K2 k i) <= M) ->
  e0 * (2 * M + e0 * (INR n * u)) <= E ->
  forall x, length x = n -> sum_spec (sum_spec x K1) K2 = scale a x ->
  exists y z, f x = Done y /\ g y = Done z /\ rwithin (E * (INR n * INR n) * u * rnorm x) z (scale a x).
Proof.
  intros Hf Hg B1 B2 HE x Hx Ha. destruct (Hf x Hx) as (y & Ey & Wy). assert (Ly : length y = n) by (rewrite (proj1 Wy), sum_spec_length; exact Hx).
  destruct (Hg y Ly) as (z & Ez & Wz). exists y, z. split; [exact Ey|]. split; [exact Ez|]. rewrite <- Ha.
  pose proof (rnorm_pos x) as P0. pose proof (uu_pos prec) as Hu. pose proof (pos_INR n) as Pn. assert (Pt : 0 <= INR n * u) by nra.
  assert (Pe : 0 <= e0 * INR n * u * rnorm x) by (apply Rmult_le_pos; [rewrite Rmult_assoc; apply Rmult_le_pos; assumption|assumption]).
  assert (L1 : length (sum_spec x K1) = n) by (rewrite sum_spec_length; exact Hx).
  pose proof (spec_move K2 L1 Wy B2 Pe) as M1. pose proof (norm_move Wy) as M2. rewrite L1 in M2. pose proof (norm_spec x K1 Hx B1) as M3.
  split; [rewrite (proj1 Wz); apply M1|]. intros k Hk. pose proof (proj2 M1 k Hk) as D1.
  assert (Hk' : (k < length (sum_spec y K2))%nat) by (rewrite !sum_spec_length in Hk; rewrite sum_spec_length; lia). pose proof (proj2 Wz k Hk') as D2.
  replace (nth k z 0 - nth k (sum_spec (sum_spec x K1) K2) 0) with ((nth k z 0 - nth k (sum_spec y K2) 0) + (nth k (sum_spec y K2) 0 - nth k (sum_spec (sum_spec x K1) K2) 0)) by ring.
  eapply Rle_trans; [apply Rabs_triang|]. eapply Rle_trans; [apply (Rplus_le_compat _ _ _ _ D2 D1)|].
  assert (Ny : rnorm y <= INR n * (M * rnorm x) + INR n * (e0 * INR n * u * rnorm x)) by lra.
  apply Rle_trans with (e0 * INR n * u * (INR n * (M * rnorm x) + INR n * (e0 * INR n * u * rnorm x)) + INR n * (e0 * INR n * u * rnorm x) * M).
  - apply Rplus_le_compat_r. apply Rmult_le_compat_l; [rewrite Rmult_assoc; apply Rmult_le_pos; assumption|exact Ny].
  - replace (e0 * INR n * u * (INR n * (M * rnorm x) + INR n * (e0 * INR n * u * rnorm x)) + INR n * (e0 * INR n * u * rnorm x) * M) with (e0 * (2 * M + e0 * (INR n * u)) * (INR n * INR n * u * rnorm x)) by ring.
    replace (E * (INR n * INR n) * u * rnorm x) with (E * (INR n * INR n * u * rnorm x)) by ring. apply Rmult_le_compat_r; [|exact HE].
    apply Rmult_le_pos; [|exact P0]. rewrite Rmult_assoc. apply Rmult_le_pos; assumption.
Qed.
End Round.

Lemma abs_cos a : Rabs (cos a) <= 1. Proof. apply Rabs_le, COS_bound. Qed.
Lemma abs_sin a : Rabs (sin a) <= 1. Proof. apply Rabs_le, SIN_bound. Qed.
Lemma abs_half : Rabs (/ 2) <= 1. Proof. rewrite Rabs_pos_eq; lra. Qed.

(* ------------------------------------------------------------------ C88 *)
(* prec-bit round to nearest: every output of the direct sums is within 30 n 2^-prec |x|_1 (60 n for the
   first cosine transform, whose weights are 2) of the exact sum *)
Theorem C88_dct_error : forall prec, (24 <= prec)%Z -> forall x : list R, (0 < length x)%nat -> 100 * INR (length x) <= bpow radix2 prec ->
  (exists y, dct2 (F := flx prec) x = Done y /\ rwithin (30 * INR (length x) * bpow radix2 (- prec) * rnorm x) y (sum_spec x (c2 (length x)))) /\
  (exists y, dct3 (F := flx prec) x = Done y /\ rwithin (30 * INR (length x) * bpow radix2 (- prec) * rnorm x) y (sum_spec x (c3 (length x)))) /\
  (exists y, dct4 (F := flx prec) x = Done y /\ rwithin (30 * INR (length x) * bpow radix2 (- prec) * rnorm x) y (sum_spec x (c4 (length x)))) /\
  ((2 <= length x)%nat -> exists y, dct1 (F := flx prec) x = Done y /\ rwithin (60 * INR (length x) * bpow radix2 (- prec) * rnorm x) y (sum_spec x (c1 (length x)))).
Proof.
  intros prec Hp x Hn Hb. split; [|split; [|split]].
  - apply dct2_err; auto. - apply dct3_err; auto. - apply dct4_err; auto. - apply dct1_err; auto.
Qed.
Print Assumptions C88_dct_error.

Theorem C88_dst_error : forall prec, (24 <= prec)%Z -> forall x : list R, (0 < length x)%nat -> 100 * INR (length x) <= bpow radix2 prec ->
  (exists y, dst1 (F := flx prec) x = Done y /\ rwithin (30 * INR (length x) * bpow radix2 (- prec) * rnorm x) y (sum_spec x (s1 (length x)))) /\
  (exists y, dst2 (F := flx prec) x = Done y /\ rwithin (30 * INR (length x) * bpow radix2 (- prec) * rnorm x) y (sum_spec x (s2 (length x)))) /\
  (exists y, dst3 (F := flx prec) x = Done y /\ rwithin (30 * INR (length x) * bpow radix2 (- prec) * rnorm x) y (sum_spec x (s3 (length x)))) /\
  (exists y, dst4 (F := flx prec) x = Done y /\ rwithin (30 * INR (length x) * bpow radix2 (- prec) * rnorm x) y (sum_spec x (s4 (length x)))).
Proof.
  intros prec Hp x Hn Hb. split; [|split; [|split]].
  - apply dst1_err; auto. - apply dst2_err; auto. - apply dst3_err; auto. - apply dst4_err; auto.
Qed.
Print Assumptions C88_dst_error.

Theorem C88_dht_error : forall prec, (24 <= prec)%Z -> forall x : list R, (0 < length x)%nat -> 100 * INR (length x) <= bpow radix2 prec ->
  exists y, dht (F := flx prec) x = Done y /\ rwithin (120 * INR (length x) * bpow radix2 (- prec) * rnorm x) y (sum_spec x (cas (length x))).
Proof. intros prec Hp x Hn Hb. apply dht_err; auto. Qed.
Print Assumptions C88_dht_error.

(* transform and inverse, both rounded, before the division by n/2 (by n for the Hartley transform) *)
Theorem C88_roundtrip_error : forall prec, (24 <= prec)%Z -> forall x : list R, (0 < length x)%nat -> 100 * INR (length x) <= bpow radix2 prec ->
  let n := INR (length x) in
  (exists y z, dct2 (F := flx prec) x = Done y /\ dct3 (F := flx prec) y = Done z /\ rwithin (70 * (n * n) * bpow radix2 (- prec) * rnorm x) z (scale (n / 2) x)) /\
  (exists y z, dct3 (F := flx prec) x = Done y /\ dct2 (F := flx prec) y = Done z /\ rwithin (70 * (n * n) * bpow radix2 (- prec) * rnorm x) z (scale (n / 2) x)) /\
  (exists y z, dct4 (F := flx prec) x = Done y /\ dct4 (F := flx prec) y = Done z /\ rwithin (70 * (n * n) * bpow radix2 (- prec) * rnorm x) z (scale (n / 2) x)) /\
  (exists y z, dst1 (F := flx prec) x = Done y /\ dst1 (F := flx prec) y = Done z /\ rwithin (70 * (n * n) * bpow radix2 (- prec) * rnorm x) z (scale ((n + 1) / 2) x)) /\
  (exists y z, dst4 (F := flx prec) x = Done y /\ dst4 (F := flx prec) y = Done z /\ rwithin (70 * (n * n) * bpow radix2 (- prec) * rnorm x) z (scale (n / 2) x)) /\
  (exists y z, dht (F := flx prec) x = Done y /\ dht (F := flx prec) y = Done z /\ rwithin (630 * (n * n) * bpow radix2 (- prec) * rnorm x) z (scale n x)).
Proof.
  intros prec Hp x Hn Hb. cbv zeta. set (m := length x) in *. pose proof (Hbu _ _ Hb) as Ht. pose proof (uu_pos prec) as Hu.
  assert (A1 : 30 * (2 * 1 + 30 * (INR m * uu prec)) <= 70) by lra. assert (A2 : 120 * (2 * 2 + 120 * (INR m * uu prec)) <= 630) by lra.
  split; [|split; [|split; [|split; [|split]]]].
  - eapply (@round_trip prec m 30 1 ltac:(lra) _ _ (c2 m) (c3 m)); try reflexivity; try exact A1.
    + intros; apply dct2_err; auto. + intros; apply dct3_err; auto. + intros; apply abs_cos. + intros; unfold c3; destruct (i =? 0)%nat; [apply abs_half|apply abs_cos].
    + destruct (proj1 (C44_dct2_dct3_inverse x)) as (y & E1 & L & E2). rewrite dct2_R in E1. injection E1 as <-. rewrite dct3_R, L in E2. injection E2 as E2. exact E2.
  - eapply (@round_trip prec m 30 1 ltac:(lra) _ _ (c3 m) (c2 m)); try reflexivity; try exact A1.
    + intros; apply dct3_err; auto. + intros; apply dct2_err; auto. + intros; unfold c3; destruct (i =? 0)%nat; [apply abs_half|apply abs_cos]. + intros; apply abs_cos.
    + destruct (proj2 (C44_dct2_dct3_inverse x)) as (y & E1 & L & E2). rewrite dct3_R in E1. injection E1 as <-. rewrite dct2_R, L in E2. injection E2 as E2. exact E2.
  - eapply (@round_trip prec m 30 1 ltac:(lra) _ _ (c4 m) (c4 m)); try reflexivity; try exact A1.
    + intros; apply dct4_err; auto. + intros; apply dct4_err; auto. + intros; apply abs_cos. + intros; apply abs_cos.
    + destruct (C45_dct4_involution x) as (y & E1 & L & E2). rewrite dct4_R in E1. injection E1 as <-. rewrite dct4_R, L in E2. injection E2 as E2. exact E2.
  - eapply (@round_trip prec m 30 1 ltac:(lra) _ _ (s1 m) (s1 m)); try reflexivity; try exact A1.
    + intros; apply dst1_err; auto. + intros; apply dst1_err; auto. + intros; apply abs_sin. + intros; apply abs_sin.
    + destruct (C47_dst1_involution x) as (y & E1 & L & E2). rewrite dst1_R in E1. injection E1 as <-. rewrite dst1_R, L in E2. injection E2 as E2. exact E2.
  - eapply (@round_trip prec m 30 1 ltac:(lra) _ _ (s4 m) (s4 m)); try reflexivity; try exact A1.
    + intros; apply dst4_err; auto. + intros; apply dst4_err; auto. + intros; apply abs_sin. + intros; apply abs_sin.
    + destruct (C47_dst4_involution x) as (y & E1 & L & E2). rewrite dst4_R in E1. injection E1 as <-. rewrite dst4_R, L in E2. injection E2 as E2. exact E2.
  - assert (K2 : forall k i, Rabs (cas m k i) <= 2). { intros. unfold cas. eapply Rle_trans; [apply Rabs_triang|]. pose proof (abs_cos (2 * PI * INR (i * k) / INR m)). pose proof (abs_sin (2 * PI * INR (i * k) / INR m)). lra. }
    eapply (@round_trip prec m 120 2 ltac:(lra) _ _ (cas m) (cas m)); try reflexivity; try exact A2.
    + intros; apply dht_err; auto. + intros; apply dht_err; auto. + intros; apply K2. + intros; apply K2.
    + destruct (C50_dht_involution x) as (y & E1 & L & E2). rewrite dht_R in E1. injection E1 as <-. rewrite dht_R, L in E2. injection E2 as E2. exact E2.
Qed.
Print Assumptions C88_roundtrip_error.

(* f32, 1024 samples: each output of dct2 is within 0.002 |x|_1, and each sample comes back from dct2, dct3 and
   a division by 512 within 0.01 |x|_1 *)
Example C88_f32_1024 : forall x : list R, length x = 1024%nat ->
  (exists y, dct2 (F := flx 24) x = Done y /\ rwithin (2 / 1000 * rnorm x) y (sum_spec x (c2 1024))) /\
  (exists y z, dct2 (F := flx 24) x = Done y /\ dct3 (F := flx 24) y = Done z /\ rwithin (512 * (1 / 100) * rnorm x) z (scale 512 x)).
Proof.
  intros x Hx. assert (E1 : INR (length x) = 1024) by (rewrite Hx, INR_IZR_INZ; reflexivity).
  assert (Hb : 100 * INR (length x) <= bpow radix2 24) by (rewrite E1; cbn; lra).
  assert (H24 : (24 <= 24)%Z) by lia. assert (H0 : (0 < length x)%nat) by lia.
  pose proof (rnorm_pos x) as Pn. assert (Eu : bpow radix2 (Z.opp 24) = / 16777216) by (cbn; lra).
  split.
  - destruct (proj1 (C88_dct_error H24 x H0 Hb)) as (y & E & L & B). exists y. split; [exact E|]. rewrite E1 in B. rewrite Hx in L, B. split; [exact L|]. intros k Hk. eapply Rle_trans; [apply B; exact Hk|].
    rewrite Eu. apply Rmult_le_compat_r; lra.
  - destruct (proj1 (C88_roundtrip_error H24 x H0 Hb)) as (y & z & E & E' & W). exists y, z. split; [exact E|]. split; [exact E'|].
    rewrite E1, Eu in W. replace (1024 / 2) with 512 in W by lra. destruct W as (L & B). split; [exact L|]. intros k Hk. eapply Rle_trans; [apply B; exact Hk|]. apply Rmult_le_compat_r; lra.
Qed.

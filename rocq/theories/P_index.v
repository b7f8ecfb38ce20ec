(* Properties C61 and C62: the song index. *)
From Coq Require Import String List Bool Arith Lia.
From Verif Require Import M_index.
Import ListNotations.
Set Implicit Arguments.

(* one call, with the file system at that moment *)
Inductive call (path : Type) := Index (f : fs path) (p : path) | Identify (f : fs path) (p : path).
Definition call_path {path} (k : call path) : path := match k with Index _ p => p | Identify _ p => p end.
Definition is_identify {path} (k : call path) : Prop := match k with Index _ _ => False | Identify _ _ => True end.

Section Hist.
Variable path : Type.
Variable file_name : path -> option string.
Variable blake3 : list nat -> list nat.
Notation index := (index path).
Notation index_song := (@index_song path file_name blake3).
Notation identify := (@identify path file_name blake3).
Definition step (x : index) (k : call path) : index * option path :=
  match k with Index f p => index_song f x p | Identify f p => identify f x p end.
Fixpoint run (x : index) (ks : list (call path)) : index :=
  match ks with [] => x | k :: ks => run (fst (step x k)) ks end.
Lemma run_app x ks ks' : run x (ks ++ ks') = run (run x ks) ks'.
Proof. revert x. induction ks as [|k ks IH]; intros x; cbn [run app]; auto. Qed.

Lemma digest_eqb_spec a b : reflect (a = b) (digest_eqb a b).
Proof. unfold digest_eqb. destruct (list_eq_dec Nat.eq_dec a b); constructor; assumption. Qed.
(* identify keeps every entry of both maps *)
Lemma identify_keeps f x p :
  (forall n id, get_name x n = Some id -> get_name (fst (identify f x p)) n = Some id) /\
  (forall h id, get_hash x h = Some id -> get_hash (fst (identify f x p)) h = Some id).
Proof.
  unfold M_index.identify. destruct (file_name p) as [n0|] eqn:En.
  - destruct (get_name x n0) as [i0|] eqn:Eg; [split; auto|]. destruct (hash_file blake3 f p) as [h0|]; [|split; auto].
    destruct (get_hash x h0) eqn:Eh; [split; auto|]. unfold insert, get_name, get_hash in *. rewrite En. cbn [fst by_name by_hash lookup]. split.
    + intros n id Hn. destruct (String.eqb_spec n n0) as [->|]; [congruence|exact Hn].
    + intros h id Hh. destruct (digest_eqb_spec h h0) as [->|]; [congruence|exact Hh].
  - destruct (hash_file blake3 f p) as [h0|]; [|split; auto].
    destruct (get_hash x h0) eqn:Eh; [split; auto|]. unfold insert, get_name, get_hash in *. rewrite En. cbn [fst by_name by_hash lookup]. split; [auto|].
    intros h id Hh. destruct (digest_eqb_spec h h0) as [->|]; [congruence|exact Hh].
Qed.
Lemma run_keeps ks : Forall is_identify ks -> forall x,
  (forall n id, get_name x n = Some id -> get_name (run x ks) n = Some id) /\
  (forall h id, get_hash x h = Some id -> get_hash (run x ks) h = Some id).
Proof.
  induction 1 as [|k ks Hk Hks IH]; intros x; cbn [run]; [split; auto|]. destruct k as [f p|f p]; [contradiction|]. cbn [step].
  destruct (identify_keeps f x p) as [A B]. destruct (IH (fst (identify f x p))) as [C D]. split; auto.
Qed.
Lemma identify_known f x p n id : file_name p = Some n -> get_name x n = Some id -> identify f x p = (x, Some id).
Proof. intros Hn Hg. unfold M_index.identify. rewrite Hn, Hg. reflexivity. Qed.
Lemma insert_name x h p n : file_name p = Some n -> get_name (insert file_name x h p) n = Some p.
Proof. intros Hn. unfold insert, get_name. rewrite Hn. cbn. rewrite String.eqb_refl. reflexivity. Qed.
Lemma insert_hash x h p : get_hash (insert file_name x h p) h = Some p.
Proof. unfold insert, get_hash. cbn. destruct (digest_eqb_spec h h); congruence. Qed.

(* existing entries survive every identify *)
Theorem C61_entries_kept : forall x ks, Forall is_identify ks ->
  (forall n id, get_name x n = Some id -> get_name (run x ks) n = Some id) /\
  (forall h id, get_hash x h = Some id -> get_hash (run x ks) h = Some id).
Proof. intros x ks H. apply run_keeps. exact H. Qed.
(* a known name is answered from the map: no file is needed, the index does not change, and the
   answer stays the same after any further identify calls *)
Theorem C61_known_name : forall x p n id, file_name p = Some n -> get_name x n = Some id ->
  forall ks f, Forall is_identify ks -> identify f (run x ks) p = (run x ks, Some id).
Proof. intros x p n id Hn Hg ks f Hk. apply identify_known with n; [exact Hn|]. apply run_keeps; assumption. Qed.
(* a name becomes known by index_song, and by an identify that had to add the song *)
Theorem C61_name_learned : forall x p n f h, file_name p = Some n -> hash_file blake3 f p = Some h ->
  get_name (fst (index_song f x p)) n = Some p /\
  (get_name x n = None -> get_hash x h = None -> identify f x p = (fst (identify f x p), Some p) /\ get_name (fst (identify f x p)) n = Some p).
Proof.
  intros x p n f h Hn Hh. split.
  - unfold M_index.index_song. rewrite Hh. apply insert_name. exact Hn.
  - intros Hg Hx. unfold M_index.identify. rewrite Hn, Hg, Hh, Hx. split; [reflexivity|]. apply insert_name. exact Hn.
Qed.
(* unknown name, known bytes: the id under which those bytes were indexed last *)
Theorem C61_same_bytes : forall x p f ks q g n, f p <> None -> f p = g q -> Forall is_identify ks ->
  file_name q = Some n -> get_name (run (fst (index_song f x p)) ks) n = None ->
  identify g (run (fst (index_song f x p)) ks) q = (run (fst (index_song f x p)) ks, Some p).
Proof.
  intros x p f ks q g n Hp Hpq Hks Hn Hg. set (y := run _ ks) in *. unfold M_index.identify. rewrite Hn, Hg.
  destruct (f p) as [b|] eqn:Eb; [|congruence]. unfold hash_file. rewrite <- Hpq. cbn [option_map].
  assert (E : get_hash y (blake3 b) = Some p).
  { apply run_keeps; [exact Hks|]. unfold M_index.index_song, hash_file. rewrite Eb. cbn [option_map fst]. apply insert_hash. }
  rewrite E. reflexivity.
Qed.
(* every id is a path passed in earlier, from a new index on *)
Definition from (ps : list path) (x : index) : Prop :=
  (forall n id, get_name x n = Some id -> In id ps) /\ (forall h id, get_hash x h = Some id -> In id ps).
Lemma insert_from ps x h p : from ps x -> from (p :: ps) (insert file_name x h p).
Proof.
  intros [A B]. unfold from, insert, get_name, get_hash in *. destruct (file_name p) as [n0|]; cbn [by_name by_hash lookup]; split; intros k id.
  - destruct (String.eqb k n0); [injection 1 as <-; left; reflexivity|right; eapply A; eassumption].
  - destruct (digest_eqb k h); [injection 1 as <-; left; reflexivity|right; eapply B; eassumption].
  - right; eapply A; eassumption.
  - destruct (digest_eqb k h); [injection 1 as <-; left; reflexivity|right; eapply B; eassumption].
Qed.
Lemma step_from ps x k : from ps x -> from (call_path k :: ps) (fst (step x k)) /\ (forall id, snd (step x k) = Some id -> In id (call_path k :: ps)).
Proof.
  intros H. assert (W : from (call_path k :: ps) x) by (destruct H as [A B]; split; intros; right; eauto).
  destruct k as [f p|f p]; cbn [step call_path] in *.
  - unfold M_index.index_song. destruct (hash_file blake3 f p); cbn [fst snd].
    + split; [apply insert_from; exact H|]. intros id E. injection E as <-. left; reflexivity.
    + split; [exact W|discriminate].
  - unfold M_index.identify. destruct (match file_name p with Some n => get_name x n | None => None end) as [i|] eqn:E1.
    + cbn [fst snd]. split; [exact W|]. intros id E. injection E as <-. right. destruct (file_name p); [eapply (proj1 H); eassumption|discriminate].
    + destruct (hash_file blake3 f p) as [h|]; cbn [fst snd]; [|split; [exact W|discriminate]].
      destruct (get_hash x h) as [i|] eqn:E2; cbn [fst snd].
      * split; [exact W|]. intros id E. injection E as <-. right. eapply (proj2 H); eassumption.
      * split; [apply insert_from; exact H|]. intros id E. injection E as <-. left; reflexivity.
Qed.
Lemma run_from : forall ks ps x, from ps x -> from (rev (map call_path ks) ++ ps) (run x ks).
Proof.
  induction ks as [|k ks IH]; intros ps x H; cbn [run map rev app]; [exact H|]. rewrite <- app_assoc. cbn [app]. apply IH. apply step_from. exact H.
Qed.
Theorem C61_ids_are_paths : forall ks k id, snd (step (run (new_index path) ks) k) = Some id -> In id (map call_path (ks ++ [k])).
Proof.
  intros ks k id H. assert (F0 : from [] (new_index path)) by (split; intros ? ?; cbn; discriminate).
  pose proof (run_from ks F0) as F. rewrite app_nil_r in F. apply (proj2 (step_from k F)) in H.
  rewrite map_app. apply in_or_app. cbn [map]. destruct H as [<-|H]; [right; left; reflexivity|left; apply in_rev in H || (apply in_rev; exact H); exact H].
Qed.

(* ------------------------------------------------------------------ C62 *)
(* what does hold: on one file system where equal names mean equal contents, and for contents
   without hash collisions, the id of a file has the file's contents; so different contents get
   different ids, after any history *)
Definition uses (f : fs path) (k : call path) : Prop := match k with Index g _ => g = f | Identify g _ => g = f end.
Definition sound (f : fs path) (x : index) : Prop :=
  (forall n id, get_name x n = Some id -> file_name id = Some n /\ f id <> None) /\
  (forall h id, get_hash x h = Some id -> hash_file blake3 f id = Some h).
Lemma insert_sound f x h p : sound f x -> hash_file blake3 f p = Some h -> sound f (insert file_name x h p).
Proof.
  intros [A B] Hh. assert (Hp : f p <> None) by (unfold hash_file in Hh; destruct (f p); discriminate).
  unfold sound, insert, get_name, get_hash in *. destruct (file_name p) as [n0|] eqn:En; cbn [by_name by_hash lookup]; split; intros k id.
  - destruct (String.eqb_spec k n0) as [->|]; [intros E; injection E as <-; auto|apply A].
  - destruct (digest_eqb_spec k h) as [->|]; [intros E; injection E as <-; exact Hh|apply B].
  - apply A.
  - destruct (digest_eqb_spec k h) as [->|]; [intros E; injection E as <-; exact Hh|apply B].
Qed.
Lemma step_sound f x k : sound f x -> uses f k -> sound f (fst (step x k)).
Proof.
  intros H U. destruct k as [g p|g p]; cbn [uses] in U; subst g; cbn [step].
  - unfold M_index.index_song. destruct (hash_file blake3 f p) eqn:E; cbn [fst]; [apply insert_sound; assumption|exact H].
  - unfold M_index.identify. destruct (match file_name p with Some n => get_name x n | None => None end); [exact H|].
    destruct (hash_file blake3 f p) eqn:E; [|exact H]. destruct (get_hash x l); [exact H|]. apply insert_sound; assumption.
Qed.
Lemma run_sound f ks : Forall (uses f) ks -> forall x, sound f x -> sound f (run x ks).
Proof. induction 1 as [|k ks Hk Hks IH]; intros x H; cbn [run]; [exact H|]. apply IH, step_sound; assumption. Qed.
Lemma identify_content f x p id : sound f x ->
  (forall a b n, file_name a = Some n -> file_name b = Some n -> f a = f b) ->
  (forall a b u v, f a = Some u -> f b = Some v -> blake3 u = blake3 v -> u = v) ->
  snd (identify f x p) = Some id -> f id = f p.
Proof.
  intros [A B] HN HB. unfold M_index.identify. destruct (file_name p) as [n|] eqn:En.
  - destruct (get_name x n) as [i|] eqn:Eg; cbn [snd].
    + intros E. injection E as <-. apply HN with n; [apply A; exact Eg|exact En].
    + destruct (hash_file blake3 f p) as [h|] eqn:Eh; [|discriminate]. destruct (get_hash x h) as [i|] eqn:Ex; cbn [snd]; intros E; injection E as <-; [|reflexivity].
      apply B in Ex. unfold hash_file in *. destruct (f i) eqn:Ei, (f p) eqn:Ep; try discriminate. f_equal. eapply HB; eauto. cbn in *. congruence.
  - destruct (hash_file blake3 f p) as [h|] eqn:Eh; [|discriminate]. destruct (get_hash x h) as [i|] eqn:Ex; cbn [snd]; intros E; injection E as <-; [|reflexivity].
    apply B in Ex. unfold hash_file in *. destruct (f i) eqn:Ei, (f p) eqn:Ep; try discriminate. f_equal. eapply HB; eauto. cbn in *. congruence.
Qed.
Theorem C62_unique_names : forall f ks p ks' q a b,
  (forall a b n, file_name a = Some n -> file_name b = Some n -> f a = f b) ->
  (forall a b u v, f a = Some u -> f b = Some v -> blake3 u = blake3 v -> u = v) ->
  Forall (uses f) ks -> Forall (uses f) ks' -> f p <> f q ->
  snd (identify f (run (new_index path) ks) p) = Some a ->
  snd (identify f (run (new_index path) (ks ++ Identify f p :: ks')) q) = Some b -> a <> b.
Proof.
  intros f ks p ks' q a b HN HB H1 H2 Hpq Ha Hb E. subst b.
  assert (S0 : sound f (new_index path)) by (split; intros ? ?; cbn; discriminate).
  apply identify_content in Ha; [|apply run_sound; assumption|exact HN|exact HB].
  apply identify_content in Hb; [|apply run_sound; [apply Forall_app; split; [assumption|constructor; [reflexivity|assumption]]|assumption]|exact HN|exact HB].
  congruence.
Qed.
End Hist.
Print Assumptions C61_entries_kept.
Print Assumptions C61_known_name.
Print Assumptions C61_name_learned.
Print Assumptions C61_same_bytes.
Print Assumptions C61_ids_are_paths.
Print Assumptions C62_unique_names.
(* with the same file name the second file gets the id of the first, whatever it holds *)
Theorem C62_same_name : forall (path : Type) (file_name : path -> option string) (blake3 : list nat -> list nat) (f g : fs path) (p q : path) n,
  file_name p = Some n -> file_name q = Some n -> f p <> None ->
  snd (identify file_name blake3 f (new_index path) p) = Some p /\
  snd (identify file_name blake3 g (fst (identify file_name blake3 f (new_index path) p)) q) = Some p.
Proof.
  intros path file_name blake3 f g p q n Hp Hq Hf. destruct (f p) as [b|] eqn:Eb; [|congruence].
  assert (E : identify file_name blake3 f (new_index path) p = (insert file_name (new_index path) (blake3 b) p, Some p)).
  { unfold identify, hash_file. rewrite Hp, Eb. reflexivity. }
  rewrite E. cbn [fst snd]. split; [reflexivity|]. rewrite (@identify_known path file_name blake3 g _ q n p); [reflexivity|exact Hq|].
  apply insert_name. exact Hp.
Qed.
Print Assumptions C62_same_name.
(* paths as (directory, file name); the two files differ, the ids do not *)
Definition ex_name (p : nat * string) : option string := Some (snd p).
Definition ex_fs (p : nat * string) : option (list nat) := Some [fst p].
(* so "different contents get different ids" is false, for every hash function *)
Theorem C62_distinct_ids_refuted : exists (path : Type) (file_name : path -> option string) (f : fs path) (p q a b : path),
  (exists u v, f p = Some u /\ f q = Some v /\ u <> v) /\
  forall blake3, snd (identify file_name blake3 f (new_index path) p) = Some a /\
    snd (identify file_name blake3 f (fst (identify file_name blake3 f (new_index path) p)) q) = Some b /\ a = b.
Proof.
  exists (nat * string)%type, ex_name, ex_fs, (1, "a.mp3"%string), (2, "a.mp3"%string), (1, "a.mp3"%string), (1, "a.mp3"%string).
  split; [exists [1], [2]; repeat split; discriminate|]. intros blake3.
  destruct (@C62_same_name (nat * string)%type ex_name blake3 ex_fs ex_fs (1, "a.mp3"%string) (2, "a.mp3"%string) "a.mp3"%string) as [A B]; try reflexivity; [discriminate|].
  repeat split; assumption.
Qed.
Print Assumptions C62_distinct_ids_refuted.
Example C62_example : (forall a b n, ex_name a = Some n -> ex_name b = Some n -> (fun p : nat * string => Some [String.length (snd p)]) a = Some [String.length (snd b)]) /\
  snd (identify ex_name (fun l => l) (fun p => Some [String.length (snd p)]) (new_index _) (1, "a"%string)) = Some (1, "a"%string).
Proof. split; [|reflexivity]. unfold ex_name. intros [a x] [b y] n. cbn. intros H1 H2. congruence. Qed.
Example C61_example : forall f : fs (nat * string), f (1, "a"%string) = Some [1] -> f (2, "b"%string) = Some [1] ->
  snd (identify ex_name (fun l => l) f (fst (index_song ex_name (fun l => l) f (new_index _) (1, "a"%string))) (2, "b"%string)) = Some (1, "a"%string).
Proof.
  intros f H1 H2.
  pose proof (@C61_same_bytes (nat * string)%type ex_name (fun l => l) (new_index _) (1, "a"%string) f [] (2, "b"%string) f "b"%string) as E.
  cbn [run] in E. rewrite E; try reflexivity; try congruence; try constructor.
  unfold index_song, hash_file. rewrite H1. reflexivity.
Qed.
(* a known name needs no file *)
Example C61_known_example : forall f : fs (nat * string), f (1, "a"%string) = Some [1] ->
  snd (identify ex_name (fun l => l) (fun _ => None) (fst (index_song ex_name (fun l => l) f (new_index _) (1, "a"%string))) (3, "a"%string)) = Some (1, "a"%string).
Proof.
  intros f H1. set (x := fst (index_song _ _ _ _ _)).
  assert (G : get_name x "a" = Some (1, "a"%string)).
  { refine (proj1 (@C61_name_learned (nat * string)%type ex_name (fun l => l) (new_index _) (1, "a"%string) "a"%string f [1] eq_refl _)). unfold hash_file. rewrite H1. reflexivity. }
  pose proof (@C61_known_name (nat * string)%type ex_name (fun l => l) x (3, "a"%string) "a"%string (1, "a"%string) eq_refl G [] (fun _ => None) (Forall_nil _)) as E.
  cbn [run] in E. rewrite E. reflexivity.
Qed.

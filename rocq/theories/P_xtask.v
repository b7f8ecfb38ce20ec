(* Properties C63, C74 and C75: build configuration, task dispatch, machine detection. *)
From Coq Require Import String Ascii List Bool Arith Lia.
From Verif Require Import M_xtask.
Import ListNotations.
Set Implicit Arguments.
Open Scope string_scope.

(* sub occurs in s *)
Definition occurs (sub s : string) : Prop := exists a b, s = a ++ sub ++ b.
Lemma prefix_app : forall p s, prefix p s = true <-> exists b, s = p ++ b.
Proof.
  induction p as [|c p IH]; intros [|d s]; cbn; split; intros H; try reflexivity; try discriminate; try (exists EmptyString; reflexivity) || (eexists; reflexivity) || idtac.
  - destruct H as [b H]. discriminate.
  - destruct (ascii_dec c d) as [->|]; [|discriminate]. apply IH in H. destruct H as [b ->]. exists b. reflexivity.
  - destruct H as [b H]. injection H as -> ->. destruct (ascii_dec c c); [|congruence]. apply IH. exists b. reflexivity.
Qed.
Lemma contains_spec : forall s sub, contains s sub = true <-> occurs sub s.
Proof.
  induction s as [|c s IH]; intros sub; cbn [contains]; rewrite orb_true_iff, prefix_app; unfold occurs.
  - split.
    + intros [[b H]|H]; [exists "", b; exact H|discriminate].
    + intros (a & b & H). left. destruct a; [exists b; exact H|discriminate].
  - rewrite IH. unfold occurs. split.
    + intros [[b H]|(a & b & H)]; [exists "", b; exact H|exists (String c a), b; cbn; rewrite H; reflexivity].
    + intros (a & b & H). destruct a as [|d a]; [left; exists b; exact H|right]. cbn in H. injection H as -> H. exists a, b. exact H.
Qed.

(* white space, and the words of a text: non-empty runs without white space, in order, with white
   space around them *)
Definition blank (c : ascii) : Prop := In (nat_of_ascii c) [9; 10; 11; 12; 13; 32].
Fixpoint all_chars (P : ascii -> Prop) (s : string) : Prop := match s with EmptyString => True | String c s => P c /\ all_chars P s end.
Definition word (w : string) : Prop := w <> "" /\ all_chars (fun c => ~ blank c) w.
Inductive words : string -> list string -> Prop :=
| W_end s : all_chars blank s -> words s []
| W_last b w : all_chars blank b -> word w -> words (b ++ w) [w]
| W_cons b w c s l : all_chars blank b -> word w -> blank c -> words s l -> words (b ++ w ++ String c s) (w :: l).
Lemma is_ws_spec c : is_ws c = true <-> blank c.
Proof.
  unfold is_ws, blank. set (n := nat_of_ascii c). rewrite orb_true_iff, andb_true_iff, !Nat.leb_le, Nat.eqb_eq. cbn [In]. lia.
Qed.
Lemma app_assoc_s a b c : ((a ++ b) ++ c = a ++ b ++ c)%string.
Proof. induction a as [|x a IH]; cbn; [reflexivity|]. rewrite IH. reflexivity. Qed.
Lemma app_nil_s a : (a ++ "" = a)%string.
Proof. induction a as [|x a IH]; cbn; [reflexivity|]. rewrite IH. reflexivity. Qed.
Lemma all_app P a b : all_chars P a -> all_chars P b -> all_chars P (a ++ b).
Proof. induction a as [|x a IH]; cbn; [auto|]. intros [H H'] Hb. split; auto. Qed.
Lemma split_words : forall s w, all_chars (fun c => ~ blank c) w -> words (w ++ s) (split_ws w s).
Proof.
  induction s as [|c s IH]; intros w Hw; cbn [split_ws].
  - rewrite app_nil_s. destruct (String.eqb_spec w "") as [->|E]; [apply W_end; exact I|].
    change w with ("" ++ w) at 1. apply W_last; [exact I|split; assumption].
  - destruct (is_ws c) eqn:E.
    + apply is_ws_spec in E. destruct (String.eqb_spec w "") as [->|E'].
      * cbn [append]. specialize (IH "" I). cbn [append] in IH. inversion IH as [s0 H0|b w0 H0 H1|b w0 d s0 l H0 H1 H2 H3]; subst.
        -- apply W_end. split; assumption.
        -- change (String c (b ++ w0)) with (String c b ++ w0). apply W_last; [split; assumption|assumption].
        -- change (String c (b ++ w0 ++ String d s0)) with (String c b ++ w0 ++ String d s0). apply W_cons; auto. split; assumption.
      * change (w ++ String c s) with ("" ++ w ++ String c s). apply W_cons; [exact I|split; assumption|exact E|]. specialize (IH "" I). exact IH.
    + assert (Hc : ~ blank c) by (intros H; apply is_ws_spec in H; congruence).
      specialize (IH (w ++ String c "")). rewrite app_assoc_s in IH. apply IH. apply all_app; [exact Hw|split; [exact Hc|exact I]].
Qed.
Lemma words_nonempty s l : words s l -> Forall word l.
Proof. induction 1; repeat constructor; try apply H0; try apply H0; assumption. Qed.
Lemma filter_words s : filter (fun f => negb (f =? "")) (split_ws "" s) = split_ws "" s.
Proof.
  pose proof (words_nonempty (split_words s "" I)) as H. induction H as [|x l [Hx _] Hl IH]; [reflexivity|]. cbn [filter].
  destruct (String.eqb_spec x ""); [contradiction|]. cbn. rewrite IH. reflexivity.
Qed.

(* architecture, instruction set, flags: what the machine part of the configuration must be *)
Inductive machine (arch flags : string) : list string -> option string -> Prop :=
| M_avx512 : occurs "x86_64" arch -> occurs "avx512f" flags -> machine arch flags ["x86_64"; "avx512"] (Some "-C target-feature=+avx512f,+fma")
| M_avx2 : occurs "x86_64" arch -> ~ occurs "avx512f" flags -> occurs "avx2" flags -> machine arch flags ["x86_64"; "avx2"] (Some "-C target-feature=+avx2,+fma")
| M_sse : occurs "x86_64" arch -> ~ occurs "avx512f" flags -> ~ occurs "avx2" flags -> occurs "sse4_1" flags -> machine arch flags ["x86_64"; "sse"] None
| M_x86 : occurs "x86_64" arch -> ~ occurs "avx512f" flags -> ~ occurs "avx2" flags -> ~ occurs "sse4_1" flags -> machine arch flags ["x86_64"] None
| M_arm : ~ occurs "x86_64" arch -> occurs "aarch64" arch \/ occurs "arm64" arch -> machine arch flags ["aarch64"] None
| M_other : ~ occurs "x86_64" arch -> ~ occurs "aarch64" arch -> ~ occurs "arm64" arch -> machine arch flags [] None.
Lemma arch_machine arch flags : machine arch flags (fst (arch_part arch flags)) (snd (arch_part arch flags)).
Proof.
  assert (F : forall s sub, contains s sub = false -> ~ occurs sub s) by (intros s sub H O; apply contains_spec in O; congruence).
  unfold arch_part. destruct (contains arch "x86_64") eqn:E1.
  - apply contains_spec in E1. destruct (contains flags "avx512f") eqn:E2; [apply contains_spec in E2; constructor; assumption|apply F in E2].
    destruct (contains flags "avx2") eqn:E3; [apply contains_spec in E3; constructor; assumption|apply F in E3].
    destruct (contains flags "sse4_1") eqn:E4; [apply contains_spec in E4; constructor; assumption|apply F in E4]. constructor; assumption.
  - apply F in E1. destruct (contains arch "aarch64") eqn:E2; cbn [orb]; [apply contains_spec in E2; apply M_arm; auto|].
    destruct (contains arch "arm64") eqn:E3; [apply contains_spec in E3; apply M_arm; auto|]. apply M_other; auto.
Qed.

Theorem C63_features : forall arch flags nproc extra,
  exists m w, machine arch flags m (rustflags (compute_config arch flags nproc extra)) /\ words extra w /\
    features (compute_config arch flags nproc extra) = (m ++ (if (1 <? nproc)%nat then ["parallel"] else []) ++ w)%list.
Proof.
  intros arch flags nproc extra. exists (fst (arch_part arch flags)), (split_ws "" extra). unfold compute_config.
  destruct (arch_part arch flags) as [fa rf] eqn:E. cbn [features rustflags fst]. split; [|split].
  - pose proof (arch_machine arch flags) as H. rewrite E in H. exact H.
  - pose proof (split_words extra "" I) as H. exact H.
  - rewrite filter_words, app_assoc. reflexivity.
Qed.
Print Assumptions C63_features.
(* at most one architecture and at most one instruction set come from the machine; RUSTFLAGS is set
   exactly for avx512 and avx2 *)
Theorem C63_machine_part : forall arch flags m rf, machine arch flags m rf ->
  ~ (In "x86_64" m /\ In "aarch64" m) /\
  (forall a b, In a m -> In b m -> In a ["avx512"; "avx2"; "sse"] -> In b ["avx512"; "avx2"; "sse"] -> a = b) /\
  NoDup m /\ (rf <> None <-> In "avx512" m \/ In "avx2" m) /\ ~ In "parallel" m.
Proof.
  intros arch flags m rf H. destruct H; cbn [In]; repeat split;
    try (intros; repeat match goal with H : _ \/ _ |- _ => destruct H | H : _ /\ _ |- _ => destruct H end; subst; congruence || contradiction || discriminate || auto);
    try (repeat constructor; cbn [In]; intuition discriminate); try (intuition congruence).
Qed.
Print Assumptions C63_machine_part.
Theorem C63_example_choice : forall arch flags nproc extra, let c := compute_config arch flags nproc extra in
  (In "parallel" (features c) -> example c = "parallel_benchmark") /\ (~ In "parallel" (features c) -> example c = "benchmark") /\
  ((1 < nproc)%nat -> In "parallel" (features c)).
Proof.
  intros arch flags nproc extra. unfold compute_config. destruct (arch_part arch flags) as [fa rf]. cbn zeta. cbn [features example]. set (fs := (_ ++ filter _ _)%list).
  destruct (existsb (fun f => f =? "parallel") fs) eqn:E; (split; [|split]); intros H.
  - reflexivity.
  - contradiction H. apply existsb_exists in E. destruct E as (x & Hx & Ex). apply String.eqb_eq in Ex. subst x. exact Hx.
  - apply Nat.ltb_lt in H. unfold fs. rewrite H. apply in_or_app. left. apply in_or_app. right. left. reflexivity.
  - assert (E' : existsb (fun f => f =? "parallel") fs = true) by (apply existsb_exists; exists "parallel"; split; [exact H|reflexivity]). congruence.
  - reflexivity.
  - exfalso. apply Nat.ltb_lt in H. assert (I : In "parallel" fs) by (unfold fs; rewrite H; apply in_or_app; left; apply in_or_app; right; left; reflexivity).
    assert (E' : existsb (fun f => f =? "parallel") fs = true) by (apply existsb_exists; exists "parallel"; split; [exact I|reflexivity]). congruence.
Qed.
Print Assumptions C63_example_choice.

(* the words of a text are unique, so the configuration's features can be read back from the
   argument given to cargo *)
Lemma split_word : forall w s u, all_chars (fun c => ~ blank c) w -> split_ws u (w ++ s) = split_ws (u ++ w) s.
Proof.
  induction w as [|c w IH]; intros s u H; cbn [append]; [rewrite app_nil_s; reflexivity|]. destruct H as [Hc H]. cbn [split_ws].
  destruct (is_ws c) eqn:E; [apply is_ws_spec in E; contradiction|]. rewrite IH by exact H. rewrite app_assoc_s. reflexivity.
Qed.
Lemma split_blank : forall b s, all_chars blank b -> split_ws "" (b ++ s) = split_ws "" s.
Proof.
  induction b as [|c b IH]; intros s H; [reflexivity|]. destruct H as [Hc H]. cbn [append split_ws]. apply is_ws_spec in Hc. rewrite Hc. cbn. apply IH. exact H.
Qed.
Lemma words_split : forall s l, words s l -> split_ws "" s = l.
Proof.
  induction 1 as [s H|b w Hb [Hw Hw']|b w c s l Hb [Hw Hw'] Hc Hs IH].
  - rewrite <- (app_nil_s s). rewrite split_blank by exact H. reflexivity.
  - rewrite split_blank by exact Hb. rewrite <- (app_nil_s w) at 1. rewrite split_word by exact Hw'. cbn [append split_ws]. destruct (String.eqb_spec w ""); [contradiction|reflexivity].
  - rewrite split_blank by exact Hb. rewrite split_word by exact Hw'. cbn [append split_ws]. apply is_ws_spec in Hc. rewrite Hc.
    destruct (String.eqb_spec w ""); [contradiction|]. rewrite IH. reflexivity.
Qed.
Lemma join_words : forall l, Forall word l -> words (join_sp l) l.
Proof.
  induction l as [|x l IH]; intros H; [apply W_end; exact I|]. inversion H as [|? ? Hx Hl]; subst. destruct l as [|y l].
  - change (join_sp [x]) with ("" ++ x). apply W_last; [exact I|exact Hx].
  - change (join_sp (x :: y :: l)) with ("" ++ x ++ String " " (join_sp (y :: l))). apply W_cons; [exact I|exact Hx| |apply IH; exact Hl].
    unfold blank. cbn. intuition.
Qed.
Theorem C63_words_unique : forall s l l', words s l -> words s l' -> l = l'.
Proof. intros s l l' H H'. rewrite <- (words_split H). apply words_split. exact H'. Qed.
Print Assumptions C63_words_unique.
Theorem C63_features_arg : forall arch flags nproc extra, let c := compute_config arch flags nproc extra in
  (features_arg c = None <-> features c = []) /\ (forall f, features_arg c = Some f -> words f (features c)).
Proof.
  intros arch flags nproc extra c. assert (W : Forall word (features c)).
  { destruct (C63_features arch flags nproc extra) as (m & w & Hm & Hw & E). unfold c. rewrite E. apply Forall_app. split.
    - assert (D : forall s, s <> "" -> (forall ch, In ch (list_ascii_of_string s) -> is_ws ch = false) -> word s).
      { intros s Hs Hc. split; [exact Hs|]. clear Hs. induction s as [|ch s IH]; cbn; [exact I|]. split.
        - intros B. apply is_ws_spec in B. rewrite Hc in B; [discriminate|left; reflexivity].
        - apply IH. intros ch' Hc'. apply Hc. right. exact Hc'. }
      destruct Hm; repeat (apply Forall_cons || apply Forall_nil); try (apply D; [discriminate|]; cbn [list_ascii_of_string In]; intros ch Hc;
        repeat match goal with H : _ \/ _ |- _ => destruct H end; subst; reflexivity || contradiction).
    - apply Forall_app. split; [|apply words_nonempty with extra; exact Hw]. destruct (1 <? nproc)%nat; constructor; [|constructor].
      split; [discriminate|]. cbn. unfold blank. cbn. intuition discriminate. }
  unfold features_arg. destruct (features c) as [|x l]; split.
  - split; reflexivity.
  - discriminate.
  - split; discriminate.
  - intros f E. injection E as <-. apply (join_words W).
Qed.
Print Assumptions C63_features_arg.
(* every command passes the features exactly when there are some; the three benchmark commands also
   pass the flags *)
Theorem C63_commands : forall arch flags nproc extra, let c := compute_config arch flags nproc extra in
  (forall l cmd, In (l, cmd) [(["build"], build_command c); (["test"], test_command c);
       (["run"; "--example"; example c; "--release"], benchmark_command c);
       (["bench"; "--manifest-path"; "kofft-bench/Cargo.toml"], bench_libs_command c);
       (["run"; "--manifest-path"; "kofft-bench/Cargo.toml"; "--example"; "update_bench_readme"; "--release"], update_bench_readme_command c)] ->
     program cmd = "cargo" /\
     (features c = [] -> args cmd = l) /\
     (features c <> [] -> exists f, words f (features c) /\ args cmd = (l ++ ["--features"; f])%list)) /\
  (forall cmd, In cmd [benchmark_command c; bench_libs_command c; update_bench_readme_command c] ->
     forall v, In ("RUSTFLAGS", v) (env cmd) <-> rustflags c = Some v) /\
  env (build_command c) = [] /\ env (test_command c) = [].
Proof.
  intros arch flags nproc extra c. destruct (C63_features_arg arch flags nproc extra) as [_ HA]. fold c in HA. split; [|split].
  - assert (G : forall l, (features c = [] -> with_features c l = l) /\
        (features c <> [] -> exists f, words f (features c) /\ with_features c l = (l ++ ["--features"; f])%list)).
    { intros l. unfold with_features. unfold features_arg in *. destruct (features c) as [|x r] eqn:Ef; split; intros H; try congruence; [apply app_nil_r|].
      exists (join_sp (x :: r)). split; [apply HA; reflexivity|reflexivity]. }
    intros l cmd H. cbn [In] in H.
    repeat match goal with H : _ \/ _ |- _ => destruct H as [H|H] end; try contradiction; injection H as <- <-; (split; [reflexivity|]); apply G.
  - intros cmd H v. assert (E : env cmd = flags_env c) by (cbn [In] in H; repeat match goal with H : _ \/ _ |- _ => destruct H as [H|H] end; try contradiction; subst; reflexivity).
    rewrite E. unfold flags_env. destruct (rustflags c) as [rf|]; cbn [In]; split; intros H'.
    + destruct H' as [H'|[]]. injection H' as <-. reflexivity.
    + injection H' as <-. left. reflexivity.
    + contradiction.
    + discriminate.
  - split; reflexivity.
Qed.
Print Assumptions C63_commands.
Example C63_example : let c := compute_config "x86_64" "flags: sse4_1 avx2" 4 " a  b" in
  features c = ["x86_64"; "avx2"; "parallel"; "a"; "b"] /\ example c = "parallel_benchmark" /\
  features_arg c = Some "x86_64 avx2 parallel a b" /\ rustflags c = Some "-C target-feature=+avx2,+fma".
Proof. repeat split. Qed.
(* an extra feature may name another architecture: the "at most one" claim is about the machine part *)
Example C63_extra_arch : features (compute_config "x86_64" "" 1 "aarch64") = ["x86_64"; "aarch64"].
Proof. reflexivity. Qed.

(* ------------------------------------------------------------------ C74 *)
Definition succeeded (o : outcome) : Prop := o = Exited (Some 0).
(* exit code 0 exactly when every command started succeeded; a command is started only when the ones
   before it succeeded; the exit code is the last one's, 1 when it was killed or could not be started *)
Definition faithful (run : command -> outcome) (r : list command * nat) : Prop :=
  (snd r = 0 <-> Forall (fun cmd => succeeded (run cmd)) (fst r)) /\
  exists before last, fst r = (before ++ [last])%list /\ Forall (fun cmd => succeeded (run cmd)) before /\
    (forall k, run last = Exited (Some k) -> snd r = k) /\ ((forall k, run last <> Exited (Some k)) -> snd r = 1).
Lemma faithful_last run before last : Forall (fun cmd => succeeded (run cmd)) before -> faithful run ((before ++ [last])%list, exit_of (run last)).
Proof.
  intros Hb. split; cbn [fst snd].
  - rewrite Forall_app. split.
    + intros H. split; [exact Hb|]. constructor; [|constructor]. unfold succeeded. destruct (run last) as [|[k|]]; cbn in H; congruence.
    + intros [_ H]. inversion H as [|x l Hx]; subst. unfold succeeded in Hx. rewrite Hx. reflexivity.
  - exists before, last. split; [reflexivity|]. split; [exact Hb|]. split; [intros k ->; reflexivity|].
    intros H. destruct (run last) as [|[k|]]; [reflexivity|exfalso; apply (H k); reflexivity|reflexivity].
Qed.
Theorem C74_exit : forall run c t, faithful run (xtask_main run c t).
Proof.
  intros run c t. assert (One : forall cmd, faithful run ([cmd], exit_of (run cmd))) by (intros cmd; apply (@faithful_last run [] cmd); constructor).
  destruct t; cbn [xtask_main]; try apply One. specialize (One fmt_command). destruct (run fmt_command) as [|[[|k]|]] eqn:E; try exact One.
  apply (@faithful_last run [fmt_command] clippy_command). constructor; [exact E|constructor].
Qed.
Print Assumptions C74_exit.
(* analyze checks the lints exactly when formatting succeeded *)
Definition formatting : command := mkCmd "cargo" ["fmt"; "--all"] [].
Definition linting : command := mkCmd "cargo" ["clippy"; "--all-targets"; "--all-features"] [].
Theorem C74_analyze : forall run c,
  (In linting (fst (xtask_main run c TAnalyze)) <-> succeeded (run formatting)) /\
  exists rest, fst (xtask_main run c TAnalyze) = formatting :: rest.
Proof.
  intros run c. assert (N : formatting <> linting) by discriminate. unfold succeeded. cbn [xtask_main].
  change fmt_command with formatting. change clippy_command with linting. destruct (run formatting) as [|[[|k]|]] eqn:E; cbn [fst In];
    (split; [|eexists; reflexivity]); split; intros H; try discriminate; try (destruct H as [H|[]]; contradiction).
  - reflexivity.
  - right. left. reflexivity.
Qed.
(* each other task starts its one command: those that depend on the machine are described by
   C63_commands, the others are fixed *)
Theorem C74_commands : forall run c,
  fst (xtask_main run c TBuild) = [build_command c] /\ fst (xtask_main run c TTest) = [test_command c] /\
  fst (xtask_main run c TBenchmark) = [benchmark_command c] /\ fst (xtask_main run c TBenchLibs) = [bench_libs_command c] /\
  fst (xtask_main run c TUpdateBenchReadme) = [update_bench_readme_command c] /\
  fst (xtask_main run c TFmt) = [mkCmd "cargo" ["fmt"; "--all"] []] /\
  fst (xtask_main run c TClippy) = [mkCmd "cargo" ["clippy"; "--all-targets"; "--all-features"] []] /\
  (forall input output, fst (xtask_main run c (TSanity input output)) =
     [mkCmd "cargo" ["run"; "-r"; "-p"; "sanity-check"; "--"; input; output] []]).
Proof. intros run c. repeat split. Qed.
Print Assumptions C74_commands.
Print Assumptions C74_analyze.
Example C74_example : xtask_main (fun cmd => match args cmd with ["fmt"; _] => Exited (Some 0) | _ => Exited (Some 101) end) (mkBC [] None "benchmark") TAnalyze
  = ([fmt_command; clippy_command], 101).
Proof. reflexivity. Qed.

(* a shell's reading of a list of simple commands joined by && and || : the status and the commands run *)
Fixpoint sh_list (run : list string -> nat) (status : nat) (go : bool) (cur : list string) (ws : list string) : nat * list (list string) :=
  let r := if go then (run cur, [cur]) else (status, []) in
  match ws with
  | [] => r
  | w :: ws =>
      if w =? "&&" then let s := sh_list run (fst r) (Nat.eqb (fst r) 0) [] ws in (fst s, (snd r ++ snd s)%list)
      else if w =? "||" then let s := sh_list run (fst r) (negb (Nat.eqb (fst r) 0)) [] ws in (fst s, (snd r ++ snd s)%list)
      else sh_list run status go (cur ++ [w])%list ws
  end.
Definition web_steps : list (list string) :=
  [["cd"; "web-spectrogram"]; ["wasm-pack"; "build"; "--target"; "web"]; ["rm"; "-rf"; "static"]; ["mkdir"; "-p"; "static/pkg"];
   ["cp"; "-r"; "pkg/*"; "static/pkg/"]; ["cp"; "index.html"; "app.mjs"; "manifest.json"; "sw.js"; "static/"]; ["cargo"; "run"; "-p"; "web-spectrogram"]].
Definition plain (w : string) : Prop := w <> "&&" /\ w <> "||".
Lemma sh_words run rest : forall ws st go cur, Forall plain ws -> sh_list run st go cur (ws ++ rest)%list = sh_list run st go (cur ++ ws)%list rest.
Proof.
  induction ws as [|w ws IH]; intros st go cur H; [rewrite app_nil_r; reflexivity|]. inversion H as [|? ? [H1 H2] H3]; subst. cbn [sh_list app].
  apply String.eqb_neq in H1. apply String.eqb_neq in H2. rewrite H1, H2, IH by assumption. rewrite <- app_assoc. reflexivity.
Qed.
Lemma sh_stop run st : st <> 0 -> forall ws cur, ~ In "||" ws -> sh_list run st false cur ws = (st, []).
Proof.
  intros Hst. induction ws as [|w ws IH]; intros cur H; [reflexivity|]. cbn [sh_list]. cbn [In] in H. destruct (w =? "&&").
  - cbn [fst snd]. apply Nat.eqb_neq in Hst. rewrite Hst. rewrite IH by tauto. reflexivity.
  - destruct (w =? "||") eqn:E; [apply String.eqb_eq in E; exfalso; apply H; left; exact E|]. apply IH. tauto.
Qed.
Fixpoint and_words (steps : list (list string)) : list string :=
  match steps with [] => [] | [s] => s | s :: r => (s ++ "&&" :: and_words r)%list end.
Lemma and_words_plain : forall steps, Forall (Forall plain) steps -> ~ In "||" (and_words steps).
Proof.
  induction steps as [|s r IH]; intros H; [tauto|]. inversion H as [|? ? Hs Hr]; subst.
  assert (Ns : ~ In "||" s) by (intros K; apply (proj1 (Forall_forall _ _) Hs) in K; destruct K as [_ K]; apply K; reflexivity).
  specialize (IH Hr). cbn [and_words]. destruct r; [exact Ns|]. intros K. apply in_app_or in K. destruct K as [K|[K|K]]; [tauto|discriminate|tauto].
Qed.
(* run in order up to the first failure; the status of the last one run, 0 exactly when all succeeded *)
Definition stops_at_failure (run : list string -> nat) (steps : list (list string)) (r : nat * list (list string)) : Prop :=
  (exists rest, (snd r ++ rest)%list = steps /\ (rest <> [] -> fst r <> 0)) /\
  (forall s, In s (removelast (snd r)) -> run s = 0) /\ fst r = run (last (snd r) []) /\ (fst r = 0 <-> Forall (fun s => run s = 0) steps).
Lemma sh_and run : forall steps, steps <> [] -> Forall (Forall plain) steps -> stops_at_failure run steps (sh_list run 0 true [] (and_words steps)) /\
  snd (sh_list run 0 true [] (and_words steps)) <> [].
Proof.
  induction steps as [|s r IH]; intros Hne H; [congruence|]. inversion H as [|? ? Hs Hr]; subst. cbn [and_words]. destruct r as [|s2 r].
  - pose proof (sh_words run [] 0 true [] Hs) as E0. rewrite app_nil_r in E0. rewrite E0. cbn [sh_list app fst snd]. split; [|discriminate]. split; [exists []; split; [reflexivity|congruence]|].
    split; [intros x []|]. split; [reflexivity|]. cbn [fst]. split; [intros E; constructor; [exact E|constructor]|intros E; inversion E; assumption].
  - rewrite sh_words by assumption. cbn [app]. set (tl := s2 :: r) in *. cbn [sh_list String.eqb Ascii.eqb Bool.eqb fst snd].
    destruct (Nat.eqb_spec (run s) 0) as [E|E].
    + destruct (IH ltac:(discriminate) Hr) as [((rest & A1 & A2) & B & D & G) N]. rewrite E. destruct (sh_list run 0 true [] (and_words tl)) as [st tr]. cbn [fst snd app] in *.
      split; [|discriminate]. split; [exists rest; split; [cbn [snd app]; rewrite A1; reflexivity|exact A2]|]. cbn [fst snd]. destruct tr as [|t0 tr]; [congruence|].
      split; [cbn [removelast]; intros x [Hx|Hx]; [subst; exact E|exact (B x Hx)]|]. split; [exact D|]. rewrite G. split; [intros K; constructor; assumption|intros K; inversion K; assumption].
    + rewrite sh_stop by (try assumption; apply and_words_plain; assumption). cbn [fst snd app]. split; [|discriminate]. split; [exists tl; split; [reflexivity|intros _; exact E]|].
      split; [intros x []|]. split; [reflexivity|]. cbn [fst]. split; [intros K; contradiction|intros K; inversion K; assumption].
Qed.
(* the web task is one shell script running its seven steps like that *)
Theorem C74_web_steps : forall run c prog, fst (xtask_main prog c TWebSpectrogram) = [web_spectrogram_command] /\
  exists script ws, program web_spectrogram_command = "sh" /\ args web_spectrogram_command = ["-c"; script] /\
    words script ws /\ stops_at_failure run web_steps (sh_list run 0 true [] ws).
Proof.
  intros run c prog. split; [reflexivity|]. eexists. eexists. split; [reflexivity|]. split; [reflexivity|]. split; [apply (@split_words _ "" I)|].
  cbn [append].
  match goal with |- context [split_ws "" ?s] => replace (split_ws "" s) with (and_words web_steps) by (vm_compute; reflexivity) end.
  apply sh_and; [discriminate|]. unfold web_steps. repeat constructor; discriminate.
Qed.
Print Assumptions C74_web_steps.
Example C74_web_example : sh_list (fun s => match s with "wasm-pack" :: _ => 127 | _ => 0 end) 0 true [] (split_ws "" (nth 1 (args web_spectrogram_command) ""))
  = (127, [["cd"; "web-spectrogram"]; ["wasm-pack"; "build"; "--target"; "web"]]).
Proof. vm_compute. reflexivity. Qed.

(* ------------------------------------------------------------------ C75 *)
Definition LF : ascii := ascii_of_nat 10.
Definition CR : ascii := ascii_of_nat 13.
(* s with white space removed at both ends *)
Definition trimmed (s t : string) : Prop :=
  (exists a b, s = a ++ t ++ b /\ all_chars blank a /\ all_chars blank b) /\
  (forall c u, t = String c u -> ~ blank c) /\ (forall u c, t = u ++ String c "" -> ~ blank c).
Lemma trim_start_ok s : exists a, s = a ++ trim_start s /\ all_chars blank a /\ forall c u, trim_start s = String c u -> ~ blank c.
Proof.
  induction s as [|c s (a & E & Ha & Hc)]; cbn [trim_start]; [exists ""; split; [reflexivity|]; split; [exact I|discriminate]|].
  destruct (is_ws c) eqn:W.
  - apply is_ws_spec in W. exists (String c a). split; [cbn; rewrite <- E; reflexivity|]. split; [split; assumption|exact Hc].
  - exists "". split; [reflexivity|]. split; [exact I|]. intros d u H. injection H as <- <-. rewrite <- is_ws_spec. congruence.
Qed.
Lemma trim_end_ok s : exists b, s = trim_end s ++ b /\ all_chars blank b /\ (forall u c, trim_end s = u ++ String c "" -> ~ blank c) /\
  (trim_end s = "" \/ exists c u u', s = String c u /\ trim_end s = String c u').
Proof.
  induction s as [|c s (b & E & Hb & Hc & _)]; cbn [trim_end].
  - exists "". split; [reflexivity|]. split; [exact I|]. split; [intros [|]; discriminate|left; reflexivity].
  - destruct (String.eqb_spec (trim_end s) "") as [T|T]; cbn [andb].
    + rewrite T in *. cbn [append] in E. destruct (is_ws c) eqn:W.
      * apply is_ws_spec in W. exists (String c s). split; [reflexivity|]. split; [split; [exact W|rewrite E; exact Hb]|]. split; [intros [|]; discriminate|left; reflexivity].
      * exists b. split; [cbn; rewrite <- E; reflexivity|]. split; [exact Hb|]. split; [|right; exists c, s, ""; split; reflexivity].
        intros [|d u] d' H; cbn in H; [injection H as <-; rewrite <- is_ws_spec; congruence|injection H as _ H; destruct u; discriminate].
    + exists b. split; [cbn; rewrite <- E; reflexivity|]. split; [exact Hb|]. split; [|right; exists c, s, (trim_end s); split; reflexivity].
      intros [|d u] d' H; cbn in H; injection H as <- H; [contradiction|]. apply (Hc u). exact H.
Qed.
Lemma trim_ok s : trimmed s (trim s).
Proof.
  unfold trim. destruct (trim_start_ok s) as (a & E & Ha & Hs). destruct (trim_end_ok (trim_start s)) as (b & E' & Hb & He & Hf). split; [|split].
  - exists a, b. split; [rewrite E at 1; rewrite E' at 1; reflexivity|]. split; assumption.
  - intros c u H. destruct Hf as [Hf|(c' & v & v' & Hv & Hv')]; [congruence|]. rewrite Hv' in H. injection H as <- <-. apply (Hs c' v). exact Hv.
  - exact He.
Qed.
Lemma trim_blank s : trim s = "" <-> all_chars blank s.
Proof.
  split.
  - intros H. destruct (trim_ok s) as ((a & b & E & Ha & Hb) & _). rewrite H in E. cbn [append] in E. rewrite E. apply all_app; assumption.
  - intros H. destruct (trim s) as [|c u] eqn:E; [reflexivity|]. exfalso. destruct (trim_ok s) as ((a & b & E' & Ha & Hb) & H1 & _). rewrite E in *.
    apply (H1 c u eq_refl). clear -H E'. subst s. induction a as [|x a IH]; cbn in H; [apply H|apply IH, H].
Qed.
(* ARCH decides when it holds anything but white space, as given; otherwise uname -m, trimmed *)
Theorem C75_arch : forall m,
  (forall a, env_arch m = Some a -> ~ all_chars blank a -> detect_arch m = a) /\
  ((forall a, env_arch m = Some a -> all_chars blank a) ->
     (forall o, uname_out m = Some o -> trimmed o (detect_arch m)) /\ (uname_out m = None -> detect_arch m = "")).
Proof.
  intros m. unfold detect_arch. split.
  - intros a -> H. destruct (String.eqb_spec (trim a) "") as [E|E]; [|reflexivity]. apply trim_blank in E. contradiction.
  - intros H. replace (match env_arch m with Some a => _ | None => _ end) with (match uname_out m with Some o => trim o | None => "" end).
    + split; [intros o ->; apply trim_ok|intros ->; reflexivity].
    + destruct (env_arch m) as [a|]; [|reflexivity]. specialize (H a eq_refl). apply trim_blank in H. rewrite H. reflexivity.
Qed.
Print Assumptions C75_arch.
Definition mentions (s : string) : Prop := occurs "flags" (lowercase s).
(* l is the first line of s that mentions flags *)
Definition first_flags_line (s l : string) : Prop :=
  exists a b, s = a ++ l ++ b /\ ~ mentions a /\ mentions l /\ all_chars (fun c => c <> LF) l /\
    (a = "" \/ exists a', a = a' ++ String LF "") /\ (b = "" \/ exists b', b = String LF b' \/ b = String CR (String LF b')).
Lemma app_split a b c d : a ++ b = c ++ d -> (exists e, a = c ++ e /\ d = e ++ b) \/ (exists e, c = a ++ e /\ b = e ++ d).
Proof.
  revert c. induction a as [|x a IH]; intros c H; [right; exists c; split; [reflexivity|exact H]|].
  destruct c as [|y c]; [left; exists (String x a); split; [reflexivity|symmetry; exact H]|]. cbn in H. injection H as <- H.
  destruct (IH c H) as [(e & -> & E)|(e & -> & E)]; [left|right]; exists e; split; (reflexivity || exact E).
Qed.
Lemma occurs_sep F c x y : all_chars (fun d => d <> c) F -> F <> "" -> occurs F (x ++ String c y) -> occurs F x \/ occurs F y.
Proof.
  intros HF Hne (a & b & E). assert (Hc : forall e r, F = e ++ String c r -> False).
  { intros e r H. rewrite H in HF. clear -HF. induction e as [|z e IH]; cbn in HF; [apply HF; reflexivity|apply IH, HF]. }
  symmetry in E. destruct (app_split _ _ _ _ E) as [(e & -> & E1)|(e & -> & E1)].
  - destruct e as [|z e]; cbn in E1.
    + destruct F as [|z F]; [congruence|]. cbn in E1. injection E1 as <- _. exfalso. apply (Hc "" F). reflexivity.
    + injection E1 as <- E1. right. exists e, b. exact E1.
  - destruct (app_split _ _ _ _ E1) as [(e2 & E2 & E3)|(e2 & E2 & E3)].
    + destruct e2 as [|z e2]; cbn in E3.
      * left. exists a, "". rewrite app_nil_s in *. rewrite E2. reflexivity.
      * injection E3 as <- E3. exfalso. apply (Hc e e2). exact E2.
    + left. exists a, e2. rewrite E2. reflexivity.
Qed.
Lemma occurs_mono F a x b : occurs F x -> occurs F (a ++ x ++ b).
Proof. intros (u & v & ->). exists (a ++ u), (v ++ b). rewrite !app_assoc_s. reflexivity. Qed.
Lemma lower_app a b : lowercase (a ++ b) = lowercase a ++ lowercase b.
Proof. induction a as [|c a IH]; cbn; [reflexivity|]. rewrite IH. reflexivity. Qed.
Lemma mentions_sep c x y : c = LF \/ c = CR -> mentions (x ++ String c y) -> mentions x \/ mentions y.
Proof.
  unfold mentions. intros Hc H. rewrite lower_app in H. cbn [lowercase] in H. replace (lower_char c) with c in H by (destruct Hc; subst; reflexivity).
  apply occurs_sep with (c := c); [|discriminate|exact H]. cbn. destruct Hc as [->| ->]; repeat split; discriminate.
Qed.
Lemma substring_all k w : forall c, String.length w = S k -> get k w = Some c -> w = substring 0 k w ++ String c "".
Proof.
  revert k. induction w as [|x w IH]; intros k c L G; [discriminate|]. cbn in L. injection L as L. destruct k as [|k]; cbn in G |- *.
  - injection G as <-. destruct w; [reflexivity|discriminate].
  - f_equal. apply IH; assumption.
Qed.
Lemma no_cr_ok w : no_cr w = w \/ w = no_cr w ++ String CR "".
Proof.
  unfold no_cr. destruct (String.length w) as [|k] eqn:L; [left; reflexivity|]. destruct (get k w) as [c|] eqn:G; [|left; reflexivity].
  destruct (Nat.eqb_spec (nat_of_ascii c) 13) as [E|]; [|left; reflexivity]. right. replace CR with c; [apply substring_all; assumption|].
  unfold CR. rewrite <- E. symmetry. apply ascii_nat_embedding.
Qed.
Lemma not_mentions_nil : ~ mentions "".
Proof. intros (a & b & E). destruct a; discriminate. Qed.
Lemma all_left P a b : all_chars P (a ++ b) -> all_chars P a.
Proof. induction a as [|c a IH]; cbn; [auto|]. intros [H H']. auto. Qed.
Lemma find_line : forall s w, all_chars (fun c => c <> LF) w ->
  match find (fun l => contains (lowercase l) "flags") (lines w s) with
  | Some l => first_flags_line (w ++ s) l
  | None => ~ mentions (w ++ s)
  end.
Proof.
  assert (Pm : forall l, contains (lowercase l) "flags" = true <-> mentions l) by (intros l; apply contains_spec).
  induction s as [|c s IH]; intros w Hw; cbn [lines].
  - rewrite app_nil_s. destruct (String.eqb_spec w "") as [->|N]; cbn [find]; [apply not_mentions_nil|].
    destruct (contains (lowercase w) "flags") eqn:E; [|rewrite <- Pm; congruence]. apply Pm in E. exists "", "". rewrite app_nil_s. split; [reflexivity|]. split; [apply not_mentions_nil|].
    split; [exact E|]. split; [exact Hw|]. split; left; reflexivity.
  - destruct (Nat.eqb_spec (nat_of_ascii c) 10) as [E|E].
    + assert (c = LF) by (unfold LF; rewrite <- E; symmetry; apply ascii_nat_embedding). subst c. clear E. cbn [find].
      destruct (contains (lowercase (no_cr w)) "flags") eqn:E.
      * apply Pm in E. destruct (no_cr_ok w) as [Ew|Ew].
        -- rewrite Ew in *. exists "", (String LF s). split; [reflexivity|]. split; [apply not_mentions_nil|]. split; [exact E|]. split; [exact Hw|]. split; [left; reflexivity|]. right. exists s. left. reflexivity.
        -- exists "", (String CR (String LF s)). split; [rewrite Ew at 1; rewrite app_assoc_s; reflexivity|]. split; [apply not_mentions_nil|]. split; [exact E|].
           split; [rewrite Ew in Hw; apply (all_left _ _ _ Hw)|]. split; [left; reflexivity|]. right. exists s. right. reflexivity.
      * assert (Nw : ~ mentions w).
        { intros M. assert (Nc : ~ mentions (no_cr w)) by (rewrite <- Pm; congruence). destruct (no_cr_ok w) as [Ew|Ew]; [rewrite Ew in Nc; contradiction|].
          rewrite Ew in M. apply mentions_sep in M; [|right; reflexivity]. destruct M as [M|M]; [contradiction|exact (not_mentions_nil M)]. }
        specialize (IH "" I). cbn [append] in IH. destruct (find _ (lines "" s)) as [l|].
        -- destruct IH as (a & b & Es & Na & Ml & Hl & Ha & Hb). exists (w ++ String LF a), b. split; [rewrite Es at 1; rewrite app_assoc_s; reflexivity|].
           split; [intros M; apply mentions_sep in M; [tauto|left; reflexivity]|]. split; [exact Ml|]. split; [exact Hl|]. split; [|exact Hb]. right.
           destruct Ha as [->|(a' & ->)]; [exists w; reflexivity|exists (w ++ String LF a'); rewrite app_assoc_s; reflexivity].
        -- intros M. apply mentions_sep in M; [tauto|left; reflexivity].
    + assert (c <> LF) by (intros ->; apply E; reflexivity). specialize (IH (w ++ String c "")). rewrite app_assoc_s in IH. apply IH.
      apply all_app; [exact Hw|split; [assumption|exact I]].
Qed.
(* the flags: lscpu's first line mentioning them, in any letter case; without one, sysctl's output *)
Theorem C75_flags : forall m,
  (forall o, lscpu_out m = Some o -> mentions o -> first_flags_line o (detect_cpu_flags m)) /\
  ((forall o, lscpu_out m = Some o -> ~ mentions o) ->
     detect_cpu_flags m = match sysctl_out m with Some o => o | None => "" end).
Proof.
  intros m. unfold detect_cpu_flags. split.
  - intros o -> M. pose proof (@find_line o "" I) as H. cbn [append] in H. destruct (find _ _); [exact H|contradiction].
  - intros H. destruct (lscpu_out m) as [o|]; [|reflexivity]. specialize (H o eq_refl). pose proof (@find_line o "" I) as H'. cbn [append] in H'. destruct (find _ _) as [l|]; [|reflexivity].
    exfalso. apply H. destruct H' as (a & b & -> & _ & Ml & _). unfold mentions. rewrite !lower_app. apply occurs_mono. exact Ml.
Qed.
Print Assumptions C75_flags.
(* the whole detection *)
Theorem C75_detect : forall m, exists w ms, words match env_features m with Some e => e | None => "" end w /\
  machine (detect_arch m) (detect_cpu_flags m) ms (rustflags (detect_config m)) /\
  features (detect_config m) = (ms ++ (match parallelism m with Some (S (S _)) => ["parallel"] | _ => [] end) ++ w)%list.
Proof.
  intros m. unfold detect_config. destruct (C63_features (detect_arch m) (detect_cpu_flags m) (match parallelism m with Some n => n | None => 1 end) (match env_features m with Some e => e | None => "" end)) as (ms & w & H1 & H2 & H3).
  exists w, ms. split; [exact H2|]. split; [exact H1|]. rewrite H3. destruct (parallelism m) as [[|[|k]]|]; reflexivity.
Qed.
Print Assumptions C75_detect.
Example C75_example : let m := mkMachine (Some "  ") (Some (" x86_64" ++ String LF "")) (Some ("Model: 1" ++ String LF ("FLAGS: avx2" ++ String LF "L1: flags"))) None (Some 8) None in
  detect_arch m = "x86_64" /\ detect_cpu_flags m = "FLAGS: avx2" /\ features (detect_config m) = ["x86_64"; "avx2"; "parallel"].
Proof. repeat split. Qed.

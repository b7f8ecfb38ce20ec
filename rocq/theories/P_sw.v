(* Property C92: the web page's static server and service worker. *)
From Coq Require Import List String Ascii Bool Lia Arith.
From Verif Require Import M_sw.
Import ListNotations.
Set Implicit Arguments.
Open Scope string_scope.

(* ---- specification ---- *)
Definition slashed (p : string) : Prop := exists q, p = q ++ "/".
(* a 2xx answer *)
Definition success {B} (r : reply B) : Prop := exists n b, r = Reply n b /\ 200 <= n < 300.
(* what a visitor should get for a file of the site *)
Definition current {B} (s : site B) (p : string) (b : B) : Prop := s_file s p = Some b /\ ~ slashed p /\ s_dir s p = false /\ p <> "/health".
(* the four paths of the application shell and nothing else *)
Definition shell_path (p : string) : Prop := p = "/" \/ p = "/index.html" \/ p = "/app.mjs" \/ p = "/manifest.json".
(* no install after the first n events *)
Definition no_install {B} (es : list (event B)) : Prop := ~ In (Install (B := B)) es.

Lemma ends_add q : ends_slash (q ++ "/") = true.
Proof. induction q as [|a q IH]; [reflexivity|]. cbn. destruct (q ++ "/") eqn:Q; [destruct q; discriminate Q|exact IH]. Qed.
Lemma ends_iff p : ends_slash p = true <-> slashed p.
Proof.
  split; [|intros [q ->]; apply ends_add]. induction p as [|a p IH]; [discriminate|]. destruct p as [|b p].
  - cbn [ends_slash]. intros E. apply Ascii.eqb_eq in E. subst a. exists "". reflexivity.
  - intros E. destruct (IH E) as [q Q]. exists (String a q). cbn. rewrite <- Q. reflexivity.
Qed.
Lemma ends_false p : ~ slashed p -> ends_slash p = false.
Proof. intros H. destruct (ends_slash p) eqn:E; [|reflexivity]. exfalso. apply H, ends_iff, E. Qed.
Lemma ok_iff B (r : reply B) : ok r = true <-> success r.
Proof.
  destruct r as [n b|t|]; cbn [ok]; split; try discriminate.
  - intros E. apply andb_true_iff in E. rewrite !Nat.leb_le in E. exists n, b. split; [reflexivity|lia].
  - intros (n' & b' & E & H). injection E as -> ->. apply andb_true_iff. rewrite !Nat.leb_le. lia.
  - intros (n' & b' & E & H). discriminate.
  - intros (n' & b' & E & H). discriminate.
Qed.

(* ------------------------------------------------------------ the server *)
Theorem C92_server : forall (B : Type) (s : site B) (i : B), s_file s "/index.html" = Some i ->
  (forall p b, current s p b -> app s p = Reply 200 (Some b)) /\
  (forall p, s_file s p = None -> s_dir s p = false -> ~ slashed p -> p <> "/health" -> app s p = Reply 200 (Some i)) /\
  (forall q b, s_file s (q ++ "/index.html") = Some b -> app s (q ++ "/") = Reply 200 (Some b)) /\
  (forall p, ~ slashed p -> s_dir s p = true -> p <> "/health" -> app s p = Redirect (p ++ "/")) /\
  (forall p, exists b, follow s p = Reply 200 b) /\
  (forall s' : site B, app s' "/health" = Reply 200 None).
Proof.
  intros B s i Hi. split; [|split; [|split; [|split; [|split]]]].
  - intros p b (H1 & H2 & H3 & H4). apply ends_false in H2. unfold app. apply String.eqb_neq in H4. rewrite H4. unfold serve_dir. rewrite H2, H3, H1. reflexivity.
  - intros p H1 H2 H3 H4. apply ends_false in H3. unfold app. apply String.eqb_neq in H4. rewrite H4. unfold serve_dir. rewrite H3, H2, H1. unfold serve_index. rewrite Hi. reflexivity.
  - intros q b H. unfold app, serve_dir. rewrite ends_add. destruct (String.eqb_spec (q ++ "/") "/health") as [X|_].
    + exfalso. pose proof (ends_add q) as Y. rewrite X in Y. discriminate Y.
    + replace ((q ++ "/") ++ "index.html") with (q ++ "/index.html"); [rewrite H; reflexivity|]. clear. induction q as [|a q IH]; [reflexivity|]. cbn. rewrite IH. reflexivity.
  - intros p H1 H2 H3. apply ends_false in H1. unfold app, serve_dir. apply String.eqb_neq in H3. rewrite H3, H1, H2. reflexivity.
  - assert (E : forall q, ends_slash q = true -> exists b, app s q = Reply 200 b).
    { intros q Hq. unfold app, serve_dir. destruct (String.eqb_spec q "/health") as [->|_]; [discriminate Hq|]. rewrite Hq.
      destruct (s_file s (q ++ "index.html")); [eauto|]. unfold serve_index. rewrite Hi. eauto. }
    intros p. unfold follow. unfold app at 1. destruct (String.eqb p "/health"); [eauto|]. unfold serve_dir.
    destruct (ends_slash p) eqn:Ep.
    + destruct (s_file s (p ++ "index.html")); [eauto|]. unfold serve_index. rewrite Hi. eauto.
    + destruct (s_dir s p); [apply E, ends_add|]. destruct (s_file s p); [eauto|]. unfold serve_index. rewrite Hi. eauto.
  - reflexivity.
Qed.
Print Assumptions C92_server.

(* ------------------------------------------------------------ the worker *)
Section L.
Context {B : Type}.
Lemma run_app (es fs : list (event B)) w : fst (run w (es ++ fs)) = fst (run (fst (run w es)) fs).
Proof.
  revert w. induction es as [|e es IH]; intros w; [reflexivity|]. cbn [run List.app]. destruct (step w e) as [w1 r]. specialize (IH w1).
  destruct (run w1 (es ++ fs)) as [a b]. destruct (run w1 es) as [c d]. cbn [fst] in *. exact IH.
Qed.
Lemma keep (es : list (event B)) w : no_install es -> w_active (fst (run w es)) = w_active w /\ w_cache (fst (run w es)) = w_cache w.
Proof.
  revert w. induction es as [|e es IH]; intros w H; [split; reflexivity|]. cbn [run].
  assert (H' : no_install es) by (intros I; apply H; right; exact I).
  assert (Hs : w_active (fst (step w e)) = w_active w /\ w_cache (fst (step w e)) = w_cache w).
  { destruct e; try (split; reflexivity). exfalso. apply H. left. reflexivity. }
  destruct (step w e) as [w1 r]. cbn [fst] in Hs. specialize (IH w1 H'). destruct (run w1 es). cbn [fst] in *. destruct Hs as [<- <-]. exact IH.
Qed.
Lemma shell_in p : shell_path p <-> In p shell.
Proof. unfold shell_path, shell. cbn. intuition congruence. Qed.
Lemma lookup_new (g : string -> reply B) l c p : lookup (map (fun q => (q, g q)) l ++ c)%list p = if existsb (String.eqb p) l then Some (g p) else lookup c p.
Proof.
  induction l as [|q l IH]; [reflexivity|]. cbn [map List.app lookup existsb]. destruct (String.eqb_spec p q) as [->|_]; [reflexivity|]. cbn [orb]. exact IH.
Qed.
Lemma existsb_in p l : existsb (String.eqb p) l = true <-> In p l.
Proof. rewrite existsb_exists. split; [intros (q & H & E); apply String.eqb_eq in E; subst; exact H|intros H; exists p; split; [exact H|apply String.eqb_refl]]. Qed.
Lemma add_all_iff up (s : site B) c : (exists c', add_all up s c = Some c') <-> forall p, shell_path p -> ok (net up s p) = true.
Proof.
  unfold add_all. set (rs := map _ shell). assert (E : forallb (fun e => ok (snd e)) rs = true <-> forall p, shell_path p -> ok (net up s p) = true).
  { rewrite forallb_forall. split.
    - intros H p Hp. apply shell_in in Hp. apply (H (p, net up s p)). unfold rs. apply in_map_iff. exists p. auto.
    - intros H e He. unfold rs in He. apply in_map_iff in He. destruct He as (p & <- & Hp). apply H, shell_in, Hp. }
  rewrite <- E. destruct (forallb _ rs); split; intros H; try eauto; [destruct H; discriminate|discriminate].
Qed.
(* the cache never holds anything but the shell, and an ok reply each time *)
Definition cache_inv (w : world B) : Prop := forall p r, lookup (w_cache w) p = Some r -> shell_path p /\ ok r = true.
Lemma step_inv w e : cache_inv w -> cache_inv (fst (step w e)).
Proof.
  intros H. destruct e; try exact H. cbn [step fst]. destruct (add_all (w_up w) (w_site w) (w_cache w)) as [c|] eqn:E; [|exact H].
  assert (K : forall p, shell_path p -> ok (net (w_up w) (w_site w) p) = true) by (eapply add_all_iff; eauto).
  unfold add_all in E. destruct (forallb _ _); [|discriminate]. injection E as <-. intros p r. cbn [w_cache]. change (lookup (map (fun q => (q, net (w_up w) (w_site w) q)) shell ++ w_cache w)%list p = Some r -> shell_path p /\ ok r = true). rewrite lookup_new. destruct (existsb _ shell) eqn:X; [|apply H].
  intros [= <-]. apply existsb_in, shell_in in X. split; [exact X|apply K, X].
Qed.
Lemma run_inv es w : cache_inv w -> cache_inv (fst (run w es)).
Proof.
  revert w. induction es as [|e es IH]; intros w H; [exact H|]. cbn [run]. pose proof (step_inv e H) as H1. destruct (step w e) as [w1 r]. specialize (IH w1 H1). destruct (run w1 es). exact IH.
Qed.
End L.

(* the install succeeds exactly when the network is up and the server answers the four requests with a success; then and
   until the next install the shell comes from that moment's site, whatever happens to the network and to the server *)
Theorem C92_installed_copy : forall (B : Type) (before after : list (event B)) (s0 : site B) (p : string),
  let w := fst (run (fresh s0) before) in
  w_up w = true -> (forall q, shell_path q -> success (follow (w_site w) q)) -> no_install after -> shell_path p ->
  respond (fst (run w (Install :: after))) p = follow (w_site w) p.
Proof.
  intros B before after s0 p w Hu Hok Hn Hp. cbn [run]. destruct (step w Install) as [w1 r] eqn:E. cbn [step] in E.
  destruct (proj2 (add_all_iff (w_up w) (w_site w) (w_cache w))) as [c Ec]; [rewrite Hu; intros q Hq; apply ok_iff, Hok, Hq|]. rewrite Ec in E. injection E as <- <-.
  destruct (@keep B after (mkWorld (w_up w) (w_site w) true c) Hn) as [Ka Kc]. destruct (run (mkWorld (w_up w) (w_site w) true c) after) as [w2 rs]. cbn [fst w_active w_cache] in *.
  unfold respond. rewrite Ka, Kc. unfold add_all in Ec. destruct (forallb _ _); [|discriminate]. injection Ec as <-.
  change (match lookup (map (fun q => (q, net (w_up w) (w_site w) q)) shell ++ w_cache w)%list p with Some r => r | None => net (w_up w2) (w_site w2) p end = follow (w_site w) p).
  rewrite lookup_new. apply shell_in, existsb_in in Hp. rewrite Hp. unfold net. rewrite Hu. reflexivity.
Qed.
Print Assumptions C92_installed_copy.
(* a failed install changes nothing *)
Theorem C92_failed_install : forall (B : Type) (w : world B), w_up w = false \/ (exists q, shell_path q /\ ~ success (follow (w_site w) q)) ->
  run w [Install] = (w, []).
Proof.
  intros B w H. cbn [run step]. destruct (add_all (w_up w) (w_site w) (w_cache w)) as [c|] eqn:E; [|reflexivity]. exfalso.
  assert (K : forall p, shell_path p -> ok (net (w_up w) (w_site w) p) = true) by (eapply add_all_iff; eauto).
  destruct H as [Hu|(q & Hq & Hf)].
  - specialize (K "/" (or_introl eq_refl)). rewrite Hu in K. discriminate.
  - specialize (K q Hq). unfold net in K. destruct (w_up w); [apply Hf, ok_iff, K|discriminate].
Qed.
Print Assumptions C92_failed_install.
(* until an install no worker is in control, and without an index.html on the server an install fails: a fresh browser then
   stays without a worker *)
Theorem C92_before_install : forall (B : Type) (es : list (event B)) (s : site B),
  (no_install es -> w_active (fst (run (fresh s) es)) = false) /\
  (s_file s "/index.html" = None -> fst (run (fresh s) [Install]) = fresh s).
Proof.
  intros B es s. split; [intros H; exact (proj1 (@keep B es (fresh s) H))|]. intros H.
  rewrite (@C92_failed_install B (fresh s)); [reflexivity|]. right. exists "/". split; [left; reflexivity|].
  cbn [fresh w_site]. assert (E : follow s "/" = Reply 404 None) by (unfold follow, app, serve_dir; cbn; unfold serve_index; rewrite H; reflexivity).
  rewrite E. intros (n & b & X & Y). injection X as <- <-. lia.
Qed.
Print Assumptions C92_before_install.
(* every other request goes to the network in every reachable state: fresh when online, lost when not *)
Theorem C92_rest_from_network : forall (B : Type) (es : list (event B)) (s0 : site B) (p : string), ~ shell_path p ->
  let w := fst (run (fresh s0) es) in respond w p = if w_up w then follow (w_site w) p else NetErr.
Proof.
  intros B es s0 p Hp w. assert (I : cache_inv w) by (apply run_inv; intros q r; discriminate). unfold respond.
  destruct (lookup (w_cache w) p) as [r|] eqn:E; [destruct (I _ _ E); contradiction|]. destruct (w_active w); reflexivity.
Qed.
Print Assumptions C92_rest_from_network.
(* hence the page does not work offline, whatever was installed and requested before: app.mjs imports
   ./pkg/web_spectrogram.js (app.mjs 23), which is never cached *)
Theorem C92_offline_refuted : forall (B : Type) (es : list (event B)) (s0 : site B),
  respond (fst (run (fresh s0) (es ++ [Down]))) "/pkg/web_spectrogram.js" = NetErr.
Proof.
  intros B es s0. assert (N : ~ shell_path "/pkg/web_spectrogram.js") by (unfold shell_path; intuition discriminate).
  pose proof (@C92_rest_from_network B (es ++ [Down])%list s0 _ N) as E. cbv zeta in E. rewrite E. rewrite run_app. cbn [run step fst w_up]. reflexivity.
Qed.
Print Assumptions C92_offline_refuted.
(* a new app.mjs on the server is never seen online once the worker is installed *)
Theorem C92_update_refuted : forall (B : Type) (s1 s2 : site B) (i a1 a2 : B) (between : list (event B)),
  s_file s1 "/index.html" = Some i -> current s1 "/app.mjs" a1 -> current s2 "/app.mjs" a2 -> a1 <> a2 ->
  no_install between ->
  let w := fst (run (fresh s1) (Install :: between ++ [Publish s2; Up])%list) in
  w_up w = true /\ follow (w_site w) "/app.mjs" = Reply 200 (Some a2) /\ respond w "/app.mjs" = Reply 200 (Some a1).
Proof.
  intros B s1 s2 i a1 a2 between Hi H1 H2 Hne Hn w.
  assert (Wu : w_up w = true /\ w_site w = s2).
  { unfold w. change (Install :: between ++ [Publish s2; Up])%list with ((Install :: between) ++ [Publish s2; Up])%list. rewrite run_app. split; reflexivity. }
  destruct Wu as [Wu Ws]. split; [exact Wu|]. destruct H1 as (F1 & _ & D1 & _). destruct H2 as (F2 & _ & D2 & _).
  split; [rewrite Ws; unfold follow, app, serve_dir; cbn [String.eqb ends_slash Ascii.eqb Bool.eqb]; cbn; rewrite D2, F2; reflexivity|].
  unfold w. pose proof (@C92_installed_copy B [] (between ++ [Publish s2; Up])%list s1 "/app.mjs") as K. cbv zeta in K. cbn [run fst] in K.
  change (fresh s1) with (fst (run (fresh s1) [])) in K. etransitivity; [apply K|].
  - reflexivity.
  - intros q Hq. cbn [run fst fresh w_site]. destruct (@C92_server B s1 i Hi) as (_ & _ & _ & _ & S & _). destruct (S q) as [b ->]. exists 200, b. split; [reflexivity|lia].
  - intros X. apply in_app_or in X. destruct X as [X|[X|[X|[]]]]; [exact (Hn X)|discriminate|discriminate].
  - right. right. left. reflexivity.
  - cbn [run fst fresh w_site]. unfold follow, app, serve_dir. cbn. rewrite D1, F1. reflexivity.
Qed.
Print Assumptions C92_update_refuted.
(* the server's fallback hides missing files from addAll: without app.mjs on the server the install succeeds and the
   worker answers /app.mjs with the page's HTML, also after the file has been put in place *)
Theorem C92_missing_file_refuted : forall (B : Type) (s1 s2 : site B) (i : B),
  s_file s1 "/index.html" = Some i -> s_file s1 "/app.mjs" = None -> s_dir s1 "/app.mjs" = false ->
  w_active (fst (run (fresh s1) [Install])) = true /\
  respond (fst (run (fresh s1) [Install; Publish s2])) "/app.mjs" = Reply 200 (Some i).
Proof.
  intros B s1 s2 i Hi Ha Hd. destruct (@C92_server B s1 i Hi) as (_ & S1 & _ & _ & S & _).
  assert (Hok : forall q, shell_path q -> success (follow s1 q)) by (intros q _; destruct (S q) as [b ->]; exists 200, b; split; [reflexivity|lia]).
  split.
  - cbn [run step fresh w_up w_site w_cache]. destruct (proj2 (add_all_iff true s1 [])) as [c Ec]; [intros q Hq; apply ok_iff, Hok, Hq|]. rewrite Ec. reflexivity.
  - pose proof (@C92_installed_copy B [] [Publish s2] s1 "/app.mjs") as K. cbv zeta in K. cbn [run fst fresh w_up w_site] in K.
    etransitivity; [apply K|].
    + reflexivity.
    + exact Hok.
    + intros [X|[]]. discriminate.
    + right. right. left. reflexivity.
    + unfold follow. rewrite S1; [reflexivity|exact Ha|exact Hd|intros N; apply ends_iff in N; discriminate N|discriminate].
Qed.
Print Assumptions C92_missing_file_refuted.

(* a site with the four files (numbers as contents) and one with another app.mjs *)
Definition demo (n : nat) : site nat := mkSite (fun p => if String.eqb p "/index.html" then Some 1 else if String.eqb p "/app.mjs" then Some n else if String.eqb p "/manifest.json" then Some 3 else None) (fun _ => false).
Example C92_example : current (demo 2) "/app.mjs" 2 /\ current (demo 7) "/app.mjs" 7 /\ no_install [Down; Get "/"; Up : event nat] /\
  snd (run (fresh (demo 2)) [Get "/app.mjs"; Install; Down; Get "/app.mjs"; Get "/"; Get "/pkg/web_spectrogram.js"; Publish (demo 7); Up; Get "/app.mjs"; Get "/none"; Install; Get "/app.mjs"])
  = [Reply 200 (Some 2); Reply 200 (Some 2); Reply 200 (Some 1); NetErr; Reply 200 (Some 2); Reply 200 (Some 1); Reply 200 (Some 7)] /\
  success (follow (demo 2) "/manifest.json") /\ ~ success (app (mkSite (fun _ => None) (fun _ => false) : site nat) "/") /\ app (mkSite (fun _ => None) (fun _ => false) : site nat) "/app.mjs" = Reply 404 None.
Proof.
  split; [|split; [|split; [|split; [|split; [|split]]]]]; try reflexivity.
  - repeat split; try discriminate. intros N. apply ends_iff in N. discriminate N.
  - repeat split; try discriminate. intros N. apply ends_iff in N. discriminate N.
  - intros [X|[X|[X|[]]]]; discriminate.
  - eexists _, _. split; [reflexivity|lia].
  - intros (n & b & X & Y). cbn in X. injection X as <- <-. lia.
Qed.

(* web-spectrogram/src/main.rs (static file server) and web-spectrogram/sw.js (service worker).
   Simplifications: only GET requests; paths are plain strings after percent decoding, without "." and ".." segments; no
   range or conditional requests; the axum router and tower-http's ServeDir are read from their documentation: ServeDir
   appends index.html to a path ending in "/", redirects a directory without the slash, and hands what it does not find to
   the fallback, whose status is kept. The browser activates an installed worker at once; an install is one step. *)
From Coq Require Import List String Ascii Bool.
Import ListNotations.
Set Implicit Arguments.
Open Scope string_scope.

Section Sw.
Context {B : Type}.   (* file contents *)

(* the directory served: the file at a path, and which paths are directories *)
Record site := mkSite { s_file : string -> option B; s_dir : string -> bool }.
Inductive reply := Reply (status : nat) (body : option B) | Redirect (to : string) | NetErr.

Fixpoint ends_slash (p : string) : bool :=
  match p with
  | EmptyString => false
  | String a EmptyString => Ascii.eqb a "/"
  | String _ t => ends_slash t
  end.
(* ServeFile::new(dir.join("index.html")), main.rs 16 *)
Definition serve_index (s : site) : reply :=
  match s_file s "/index.html" with Some b => Reply 200 (Some b) | None => Reply 404 None end.
(* ServeDir::new(dir).append_index_html_on_directories(true).fallback(..), main.rs 14-16 *)
Definition serve_dir (s : site) (p : string) : reply :=
  let file q := match s_file s q with Some b => Reply 200 (Some b) | None => serve_index s end in
  if ends_slash p then file (p ++ "index.html")
  else if s_dir s p then Redirect (p ++ "/")
  else file p.
(* fn app, main.rs 11-23: the route "/health" is more specific than the nested service at "/" *)
Definition app (s : site) (p : string) : reply :=
  if String.eqb p "/health" then Reply 200 None else serve_dir s p.
(* fetch follows redirects; a redirect of the server always leads to a path ending in "/" *)
Definition follow (s : site) (p : string) : reply :=
  match app s p with Redirect q => app s q | r => r end.

(* ---- sw.js ---- *)
(* lines 5-10 *)
Definition shell : list string := ["/"; "/index.html"; "/app.mjs"; "/manifest.json"].
Definition cache := list (string * reply).
(* caches.match: the stored reply for the path *)
Fixpoint lookup (c : cache) (p : string) : option reply :=
  match c with
  | [] => None
  | (q, r) :: t => if String.eqb p q then Some r else lookup t p
  end.
Definition net (up : bool) (s : site) (p : string) : reply := if up then follow s p else NetErr.
Definition ok (r : reply) : bool := match r with Reply n _ => Nat.leb 200 n && Nat.leb n 299 | _ => false end.
(* c.addAll(list), lines 4-11: all replies must be ok, else nothing is stored and the install fails; a stored path is replaced *)
Definition add_all (up : bool) (s : site) (c : cache) : option cache :=
  let rs := map (fun p => (p, net up s p)) shell in
  if forallb (fun e => ok (snd e)) rs then Some (rs ++ c)%list else None.

Record world := mkWorld { w_up : bool; w_site : site; w_active : bool; w_cache : cache }.
Inductive event :=
| Publish (s : site)     (* other files on the server *)
| Up | Down              (* the network *)
| Install                (* the browser runs the install event, lines 2-12 *)
| Get (p : string).      (* the page requests a path *)
(* the fetch handler, lines 14-18: resp || fetch(event.request) *)
Definition respond (w : world) (p : string) : reply :=
  if w_active w then match lookup (w_cache w) p with Some r => r | None => net (w_up w) (w_site w) p end
  else net (w_up w) (w_site w) p.
Definition step (w : world) (e : event) : world * option reply :=
  match e with
  | Publish s => (mkWorld (w_up w) s (w_active w) (w_cache w), None)
  | Up => (mkWorld true (w_site w) (w_active w) (w_cache w), None)
  | Down => (mkWorld false (w_site w) (w_active w) (w_cache w), None)
  | Install => (match add_all (w_up w) (w_site w) (w_cache w) with
                | Some c => mkWorld (w_up w) (w_site w) true c
                | None => w
                end, None)
  | Get p => (w, Some (respond w p))
  end.
Fixpoint run (w : world) (es : list event) : world * list reply :=
  match es with
  | [] => (w, [])
  | e :: t => let '(w1, r) := step w e in
              let '(w2, rs) := run w1 t in
              (w2, match r with Some r => r :: rs | None => rs end)
  end.
(* a browser that has never seen the page *)
Definition fresh (s : site) : world := mkWorld true s false [].
End Sw.
Arguments site : clear implicits.
Arguments reply : clear implicits.
Arguments world : clear implicits.
Arguments event : clear implicits.

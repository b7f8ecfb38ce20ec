(* Model of src/media/index.rs. Paths are an arbitrary type; file_name is
   path.file_name().and_then(to_str). A file system maps a path to the bytes read from it, or to
   nothing when opening or reading fails; it may differ from call to call. blake3 is the external
   hash function; feeding it 8192-byte pieces is the hash of the whole. *)
From Coq Require Import String List Bool Arith.
Import ListNotations.
Set Implicit Arguments.

Section Index.
Variable path : Type.
Variable file_name : path -> option string.
Variable blake3 : list nat -> list nat.
Definition fs := path -> option (list nat).
Definition digest_eqb (a b : list nat) : bool := if list_eq_dec Nat.eq_dec a b then true else false.

(* HashMap::get / insert on an association list, newest entry first *)
Fixpoint lookup {K V} (eqb : K -> K -> bool) (k : K) (m : list (K * V)) : option V :=
  match m with [] => None | (k', v) :: m => if eqb k k' then Some v else lookup eqb k m end.
(* SongIndex 27-30; SongId wraps a path *)
Record index := mkIndex { by_name : list (string * path); by_hash : list (list nat * path) }.
(* new 35-37 *)
Definition new_index : index := mkIndex [] [].
Definition get_name (x : index) (n : string) : option path := lookup String.eqb n (by_name x).
Definition get_hash (x : index) (h : list nat) : option path := lookup digest_eqb h (by_hash x).
(* hash_file 40-52 *)
Definition hash_file (f : fs) (p : path) : option (list nat) := option_map blake3 (f p).
(* 58-61 and 81-84 *)
Definition insert (x : index) (h : list nat) (p : path) : index :=
  mkIndex (match file_name p with Some n => (n, p) :: by_name x | None => by_name x end) ((h, p) :: by_hash x).
(* index_song 55-63; None is an io error *)
Definition index_song (f : fs) (x : index) (p : path) : index * option path :=
  match hash_file f p with
  | None => (x, None)
  | Some h => (insert x h p, Some p)
  end.
(* identify 70-86 *)
Definition identify (f : fs) (x : index) (p : path) : index * option path :=
  let named := match file_name p with Some n => get_name x n | None => None end in
  match named with
  | Some id => (x, Some id)
  | None =>
    match hash_file f p with
    | None => (x, None)
    | Some h =>
      match get_hash x h with
      | Some id => (x, Some id)
      | None => (insert x h p, Some p)
      end
    end
  end.
End Index.

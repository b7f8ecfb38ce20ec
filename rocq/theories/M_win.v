(* Model of src/window.rs and src/window_more.rs (f32 in the source, any T here). The std and
   no_std kaiser (50-74) have the same body. libm's cosf/sinf and f32::cos are both fcos/fsin. *)
From Verif Require Export M_cep.
Set Implicit Arguments.

Section Win.
Context {T : Type} {F : Float T} {X : FloatX T}.
Local Notation four := (flit 4).

(* window.rs 9-21: n in 1..20 *)
Definition bessel0 (x : T) : T :=
  let y := fdiv (fmul x x) four in
  let '(sum, _, _) := fold_left (fun '(sum, t, k) n =>
     let k := fmul k (fas n) in
     (fadd sum (fdiv t (fmul k k)), fmul t y, k)) (seq 1 19) (fone, y, fone) in
  sum.

(* the closures of 26, 33, 40-46 *)
Definition hann_at (len i : nat) : T :=
  fsub half (fmul half (fcos (fdiv (fmul (fmul two fpi) (fas i)) (fas len)))).
Definition hamming_at (len i : nat) : T :=
  fsub (flit (54 # 100)) (fmul (flit (46 # 100)) (fcos (fdiv (fmul (fmul two fpi) (fas i)) (fas len)))).
Definition blackman_at (len i : nat) : T :=
  let a0 := flit (42 # 100) in let a1 := half in let a2 := flit (8 # 100) in
  let x := fdiv (fas i) (fas len) in
  fadd (fsub a0 (fmul a1 (fcos (fmul (fmul two fpi) x)))) (fmul a2 (fcos (fmul (fmul four fpi) x))).
(* 24-48 *)
Definition hann (len : nat) : list T := tab len (hann_at len).
Definition hamming (len : nat) : list T := tab len (hamming_at len).
Definition blackman (len : nat) : list T := tab len (blackman_at len).

(* 52-61; len - 1 is a usize subtraction *)
Definition kaiser (len : nat) (beta : T) : exec (list T) :=
  let denom := bessel0 beta in
  l1 <- usub len 1 ;;
  let m := fdiv (fas l1) two in
  Done (tab len (fun i =>
    let r := fdiv (fsub (fas i) m) m in
    fdiv (bessel0 (fmul beta (fsqrt (fsub fone (fmul r r))))) denom)).

(* *x = ... for every entry of a buffer, 77-102; N is the length of the buffer *)
Definition hann_inplace_stack (out : list T) : exec (list T) := fill out (fun i => Done (hann_at (length out) i)).
Definition hamming_inplace_stack (out : list T) : exec (list T) := fill out (fun i => Done (hamming_at (length out) i)).
Definition blackman_inplace_stack (out : list T) : exec (list T) := fill out (fun i => Done (blackman_at (length out) i)).

(* window_more.rs *)
(* f32::clamp *)
Definition fclamp (x lo hi : T) : T := if fltb x lo then lo else if fltb hi x then hi else x.
(* tukey 12-28 *)
Definition tukey (len : nat) (alpha : T) : exec (list T) :=
  let alpha := fclamp alpha fzero fone in
  let l1 := fsub (fas len) fone in
  let edge := ffloor (fdiv (fmul alpha l1) two) in
  fill (zvec len) (fun n =>
    if n <? edge then
      Done (fmul half (fadd fone (fcos (fmul fpi (fsub (fdiv (fmul two (fas n)) (fmul alpha l1)) fone)))))
    else
      d <- usub len edge ;;
      Done (if n <? d then fone else
        fmul half (fadd fone (fcos (fmul fpi
          (fadd (fsub (fdiv (fmul two (fas n)) (fmul alpha l1)) (fdiv two alpha)) fone)))))).
(* bartlett 31-39 *)
Definition bartlett (len : nat) : exec (list T) :=
  let n := fas len in
  fill (zvec len) (fun i =>
    let h := fdiv (fsub n fone) two in
    let x := fdiv (fsub (fas i) h) h in
    Done (fsub fone (fabs x))).
(* bohman 42-50 *)
Definition bohman (len : nat) : exec (list T) :=
  let n := fas len in
  fill (zvec len) (fun i =>
    let x := fsub (fdiv (fas i) (fsub n fone)) half in
    Done (fadd (fmul (fsub fone (fabs x)) (fcos (fmul fpi x))) (fmul (fdiv fone fpi) (fsin (fmul fpi x))))).
(* nuttall 53-64 *)
Definition nuttall (len : nat) : exec (list T) :=
  let a0 := flit (355768 # 1000000) in
  let a1 := flit (487396 # 1000000) in
  let a2 := flit (144232 # 1000000) in
  let a3 := flit (12604 # 1000000) in
  fill (zvec len) (fun n =>
    let x := fdiv (fmul (fmul two fpi) (fas n)) (fsub (fas len) fone) in
    Done (fsub (fadd (fsub a0 (fmul a1 (fcos x))) (fmul a2 (fcos (fmul two x)))) (fmul a3 (fcos (fmul (flit 3) x))))).
End Win.

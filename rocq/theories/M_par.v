(* Model of the last free functions of src/fft.rs: the one-shot transforms and an unused butterfly. *)
From Verif Require Export M_fft.
Set Implicit Arguments.
Open Scope nat_scope.
Section Par.
Context {T : Type} {F : Float T}.
Variable c : cfg.
Local Notation cx := (cx T).
(* fft_parallel 2119-2121, ifft_parallel 2125-2127: a fresh scalar object, dropped after the call *)
Definition fft_parallel (x : list cx) : exec (list cx * rres) := '(_, y, r) <- fft c new_planner x ;; Done (y, r).
Definition ifft_parallel (x : list cx) : exec (list cx * rres) := '(_, y, r) <- ifft c new_planner x ;; Done (y, r).
(* butterfly8 1611-1640 (dead code); from_f32(FRAC_1_SQRT_2) is the constant fk707 *)
Definition butterfly8 (x0 x1 x2 x3 x4 x5 x6 x7 : cx) : list cx :=
  let '(e0, e1, e2, e3) := butterfly4 c x0 x2 x4 x6 in
  let '(o0, o1, o2, o3) := butterfly4 c x1 x3 x5 x7 in
  let w1 := mkcx fk707 (fneg fk707) in
  let w2 := mkcx fzero (fneg fone) in
  let w3 := mkcx (fneg fk707) (fneg fk707) in
  let o1 := cmul c o1 w1 in
  let o2 := cmul c o2 w2 in
  let o3 := cmul c o3 w3 in
  [cadd e0 o0; cadd e1 o1; cadd e2 o2; cadd e3 o3; csub e0 o0; csub e1 o1; csub e2 o2; csub e3 o3].
End Par.

(* Model of the owned split-complex type of src/num.rs (262-330) and of the functions of src/fft.rs
   working on it; the copy functions are in Num.v. f32 in the source, any T here. *)
From Verif Require Export M_fft.
Set Implicit Arguments.
Open Scope nat_scope.
Section Util.
Context {T : Type} {F : Float T}.
(* SplitComplex::new 242-245 and ComplexVec::new 270-273: assert_eq! of the lengths *)
Record cvec := mkcv { cv_re : list T; cv_im : list T }.
Definition cv_new (r i : list T) : exec cvec := if length r =? length i then Done (mkcv r i) else Panic.
(* len and is_empty, 246-251 and 275-280 *)
Definition cv_len (v : cvec) : nat := length (cv_re v).
Definition cv_is_empty (v : cvec) : bool := length (cv_re v) =? 0.
(* from_complex_vec 282-290 and From<Vec<Complex32>> 308-318: two pushes per element *)
Definition cv_from (v : list (cx T)) : cvec :=
  fold_left (fun cv z => mkcv (cv_re cv ++ [re z]) (cv_im cv ++ [im z])) v (mkcv [] []).
(* to_complex_vec 292-298 and From<ComplexVec> 320-328: both index im by the length of re *)
Definition cv_to (v : cvec) : exec (list (cx T)) :=
  for_range 0 (length (cv_re v)) (fun i out =>
    a <- get (cv_re v) i ;; b <- get (cv_im v) i ;; Done (out ++ [mkcx a b])) [].
(* SplitComplex::copy_from_complex 252-255, copy_to_complex 256-258 *)
Definition split_copy_from (input : list (cx T)) (r i : list T) : exec cvec :=
  '(r, i) <- copy_from_complex input r i ;; Done (mkcv r i).
Definition split_copy_to (v : cvec) (out : list (cx T)) : exec (list (cx T)) := copy_to_complex (cv_re v) (cv_im v) out.
(* complex32_to_split, split_to_complex32: src/fft.rs 317-328 *)
Definition complex32_to_split := split_copy_from.
Definition split_to_complex32 := split_copy_to.
(* fft_split_complex / ifft_split_complex 2137-2143, fft_complex_vec / ifft_complex_vec 2146-2153 of
   src/fft.rs: a fresh scalar object and its split entry *)
Definition fft_complex_vec (c : cfg) (v : cvec) : exec (cvec * rres) :=
  '(_, r, i, res) <- fft_split c new_planner (cv_re v) (cv_im v) ;; Done (mkcv r i, res).
Definition ifft_complex_vec (c : cfg) (v : cvec) : exec (cvec * rres) :=
  '(_, r, i, res) <- ifft_split c new_planner (cv_re v) (cv_im v) ;; Done (mkcv r i, res).
(* FftPlan::fft_complex_vec / ifft_complex_vec 2098-2112: only the length of re is compared *)
Definition plan_complex_vec (op : planner T -> list T -> list T -> exec (planner T * list T * list T * rres))
  (pn : plan T) (v : cvec) : exec (plan T * cvec * rres) :=
  if negb (cv_len v =? plan_n pn) then Done (pn, v, RErr MismatchedLengths) else
  '(p, r, i, res) <- op (plan_pl pn) (cv_re v) (cv_im v) ;;
  Done (mkPlan (plan_n pn) (plan_strat pn) p, mkcv r i, res).
End Util.
Arguments cvec : clear implicits.

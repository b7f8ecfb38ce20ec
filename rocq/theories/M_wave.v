(* Model of src/wavelet.rs (f32 code, modelled over an arbitrary float type). *)
From Coq Require Import ZArith.
From Verif Require Export Num.
Set Implicit Arguments.
Open Scope nat_scope.

Section Wave.
Context {T : Type} {F : Float T}.
Local Notation l2 := (flit 2).

(* the loop shared by haar_forward (16-19) and haar_forward_inplace_stack (131-134) *)
Definition haar_split (input : list T) (n : nat) (ad : list T * list T) : exec (list T * list T) :=
  for_range 0 n (fun i '(avg, diff) =>
    a <- get input (2 * i) ;; b <- get input (2 * i + 1) ;;
    avg <- set avg i (fdiv (fadd a b) l2) ;;
    diff <- set diff i (fdiv (fsub a b) l2) ;;
    Done (avg, diff)) ad.
(* the loop shared by haar_inverse (27-30) and haar_inverse_inplace_stack (145-148) *)
Definition haar_merge (avg diff : list T) (out : list T) : exec (list T) :=
  for_range 0 (length avg) (fun i out =>
    a <- get avg i ;; d <- get diff i ;;
    out <- set out (2 * i) (fadd a d) ;;
    set out (2 * i + 1) (fsub a d)) out.
(* haar_forward, 12-21 *)
Definition haar_forward (input : list T) : exec (list T * list T) :=
  let n := length input / 2 in
  haar_split input n (repeat fzero n, repeat fzero n).
(* haar_inverse, 24-32 *)
Definition haar_inverse (avg diff : list T) : exec (list T) :=
  haar_merge avg diff (repeat fzero (length avg * 2)).
(* haar_forward_inplace_stack, 121-135; N = length input *)
Definition haar_forward_stack (input avg diff : list T) : exec (list T * list T) :=
  let n := length input / 2 in
  if (length avg =? n) && (length diff =? n) then haar_split input n (avg, diff) else Panic.
(* haar_inverse_inplace_stack, 139-149 *)
Definition haar_inverse_stack (avg diff out : list T) : exec (list T) :=
  if (length diff =? length avg) && (length out =? 2 * length avg) then haar_merge avg diff out else Panic.

(* batch_forward 35-44, db2_forward_batch 244-253 *)
Fixpoint batch_fwd {A B C} (f : A -> exec (B * C)) (inputs : list A) : exec (list B * list C) :=
  match inputs with
  | [] => Done ([], [])
  | x :: rest => '(a, d) <- f x ;; '(aa, dd) <- batch_fwd f rest ;; Done (a :: aa, d :: dd)
  end.
(* batch_inverse 46-51, db2_inverse_batch 255-260, multi_level_inverse_batch 105-117 (zip) *)
Fixpoint batch_inv {A B C} (f : A -> B -> exec C) (avgs : list A) (diffs : list B) : exec (list C) :=
  match avgs, diffs with
  | a :: aa, d :: dd => o <- f a d ;; os <- batch_inv f aa dd ;; Done (o :: os)
  | _, _ => Done []
  end.

(* multi_level_forward, 54-71: an odd-length signal gets its last sample repeated *)
Definition pad_even (l : list T) : list T :=
  if Nat.even (length l) then l else match rev l with [] => l | last :: _ => l ++ [last] end.
Fixpoint multi_forward (forward : list T -> exec (list T * list T)) (current : list T) (levels : nat)
  : exec (list T * list (list T)) :=
  match levels with
  | 0 => Done (current, [])
  | S k => '(avg, diff) <- forward (pad_even current) ;;
           '(last, details) <- multi_forward forward avg k ;; Done (last, diff :: details)
  end.
(* multi_level_inverse, 74-83: details in reverse order *)
Fixpoint fold_inverse (inverse : list T -> list T -> exec (list T)) (current : list T) (rdetails : list (list T)) : exec (list T) :=
  match rdetails with [] => Done current | d :: rest => cur <- inverse current d ;; fold_inverse inverse cur rest end.
Definition multi_inverse (inverse : list T -> list T -> exec (list T)) (approx : list T) (details : list (list T)) : exec (list T) :=
  fold_inverse inverse approx (rev details).

(* the closure `reflect` (168-178, 203-213, 289-299, ...): isize arithmetic;
   the bound 2*|idx|+3 is the model's, a longer run is NoFuel *)
Definition mirror (len : nat) (idx : Z) : exec Z :=
  let n := Z.of_nat len in
  while_ (Z.to_nat (2 * Z.abs idx + 3)) (fun i => ((i <? 0) || (n <=? i))%Z)
    (fun i => Done (if i <? 0 then - i else 2 * (n - 1) - i)%Z) idx.
Definition mirror_val (input : list T) (idx : nat) : exec T :=
  i <- mirror (length input) (Z.of_nat idx) ;; get input (Z.to_nat i).

(* db2_forward, 154-187: the four products are added left to right, no initial 0 *)
Definition db2_h : list Q := [4829629131445341 # 10000000000000000; 8365163037378079 # 10000000000000000; 2241438680420134 # 10000000000000000; - (1294095225512604 # 10000000000000000)]%Q.
Definition db2_g : list Q := [- (1294095225512604 # 10000000000000000); - (2241438680420134 # 10000000000000000); 8365163037378079 # 10000000000000000; - (4829629131445341 # 10000000000000000)]%Q.
Definition dot4 (t : list Q) (a b c d : T) : T :=
  match t with
  | [t0; t1; t2; t3] => fadd (fadd (fadd (fmul (flit t0) a) (fmul (flit t1) b)) (fmul (flit t2) c)) (fmul (flit t3) d)
  | _ => fzero
  end.
Definition db2_forward (input : list T) : exec (list T * list T) :=
  let n := length input / 2 in
  for_range 0 n (fun i '(approx, detail) =>
    a <- mirror_val input (2 * i) ;; b <- mirror_val input (2 * i + 1) ;;
    c <- mirror_val input (2 * i + 2) ;; d <- mirror_val input (2 * i + 3) ;;
    approx <- set approx i (dot4 db2_h a b c d) ;;
    detail <- set detail i (dot4 db2_g a b c d) ;;
    Done (approx, detail)) (repeat fzero n, repeat fzero n).
(* db4_forward 263-309, sym4_forward 358-403, coif1_forward 452-493: same loop, other taps *)
Definition bank_forward (h g : list Q) (input : list T) : exec (list T * list T) :=
  let n := length input / 2 in
  for_range 0 n (fun i st =>
    for_range 0 (length h) (fun k '(approx, detail) =>
      val <- mirror_val input (2 * i + k) ;;
      hk <- get h k ;; a <- get approx i ;; approx <- set approx i (fadd a (fmul (flit hk) val)) ;;
      gk <- get g k ;; d <- get detail i ;; detail <- set detail i (fadd d (fmul (flit gk) val)) ;;
      Done (approx, detail)) st) (repeat fzero n, repeat fzero n).
(* db2_inverse 190-223 (taps through gk, hk 225-242), db4_inverse 312-355,
   sym4_inverse 406-449, coif1_inverse 496-535: same loop, other taps *)
Definition bank_inverse (g h : list Q) (approx detail : list T) : exec (list T) :=
  let n := length approx in
  for_range 0 n (fun i out =>
    for_range 0 (length g) (fun k out =>
      idx <- mirror (n * 2) (Z.of_nat (2 * i + k)) ;;
      gk <- get g k ;; a <- get approx i ;; hk <- get h k ;; d <- get detail i ;;
      o <- get out (Z.to_nat idx) ;;
      set out (Z.to_nat idx) (fadd o (fadd (fmul (flit gk) a) (fmul (flit hk) d)))) out) (repeat fzero (n * 2)).
Definition db2_inverse := bank_inverse db2_h db2_g.

(* 268-287 *)
Definition db4_h : list Q := [- (10597401785069032 # 1000000000000000000); 328830116668852 # 10000000000000000; 30841381835560764 # 1000000000000000000; - (18703481171909309 # 100000000000000000);
  - (27983769416859854 # 1000000000000000000); 6308807679298589 # 10000000000000000; 7148465705529157 # 10000000000000000; 2303778133088965 # 10000000000000000]%Q.
Definition db4_g : list Q := [- (2303778133088965 # 10000000000000000); 7148465705529157 # 10000000000000000; - (6308807679298589 # 10000000000000000); - (27983769416859854 # 1000000000000000000);
  18703481171909309 # 100000000000000000; 30841381835560764 # 1000000000000000000; - (328830116668852 # 10000000000000000); - (10597401785069032 # 1000000000000000000)]%Q.
(* 316-335 *)
Definition db4_ig : list Q := [2303778133088965 # 10000000000000000; 7148465705529157 # 10000000000000000; 6308807679298589 # 10000000000000000; - (27983769416859854 # 1000000000000000000);
  - (18703481171909309 # 100000000000000000); 30841381835560764 # 1000000000000000000; 328830116668852 # 10000000000000000; - (10597401785069032 # 1000000000000000000)]%Q.
Definition db4_ih : list Q := [- (10597401785069032 # 1000000000000000000); - (328830116668852 # 10000000000000000); 30841381835560764 # 1000000000000000000; 18703481171909309 # 100000000000000000;
  - (27983769416859854 # 1000000000000000000); - (6308807679298589 # 10000000000000000); 7148465705529157 # 10000000000000000; - (2303778133088965 # 10000000000000000)]%Q.
Definition db4_forward := bank_forward db4_h db4_g.
Definition db4_inverse := bank_inverse db4_ig db4_ih.
(* 362-381 *)
Definition sym4_h : list Q := [- (7576571478927333 # 100000000000000000); - (2963552764599851 # 100000000000000000); 49761866763201545 # 100000000000000000; 8037387518059161 # 10000000000000000;
  29785779560527736 # 100000000000000000; - (9921954357684722 # 100000000000000000); - (12603967262037833 # 1000000000000000000); 322231006040427 # 10000000000000000]%Q.
Definition sym4_g : list Q := [- (322231006040427 # 10000000000000000); - (12603967262037833 # 1000000000000000000); 9921954357684722 # 100000000000000000; 29785779560527736 # 100000000000000000;
  - (8037387518059161 # 10000000000000000); 49761866763201545 # 100000000000000000; 2963552764599851 # 100000000000000000; - (7576571478927333 # 100000000000000000)]%Q.
(* 410-429 *)
Definition sym4_ig : list Q := [322231006040427 # 10000000000000000; - (12603967262037833 # 1000000000000000000); - (9921954357684722 # 100000000000000000); 29785779560527736 # 100000000000000000;
  8037387518059161 # 10000000000000000; 49761866763201545 # 100000000000000000; - (2963552764599851 # 100000000000000000); - (7576571478927333 # 100000000000000000)]%Q.
Definition sym4_ih : list Q := [- (7576571478927333 # 100000000000000000); 2963552764599851 # 100000000000000000; 49761866763201545 # 100000000000000000; - (8037387518059161 # 10000000000000000);
  29785779560527736 # 100000000000000000; 9921954357684722 # 100000000000000000; - (12603967262037833 # 1000000000000000000); - (322231006040427 # 10000000000000000)]%Q.
Definition sym4_forward := bank_forward sym4_h sym4_g.
Definition sym4_inverse := bank_inverse sym4_ig sym4_ih.
(* 456-471 *)
Definition coif1_h : list Q := [- (15655728135791993 # 1000000000000000000); - (7273261951252645 # 100000000000000000); 3848648468648578 # 10000000000000000; 8525720202116004 # 10000000000000000;
  3378976624574818 # 10000000000000000; - (7273261951252645 # 100000000000000000)]%Q.
Definition coif1_g : list Q := [7273261951252645 # 100000000000000000; 3378976624574818 # 10000000000000000; - (8525720202116004 # 10000000000000000); 3848648468648578 # 10000000000000000;
  7273261951252645 # 100000000000000000; - (15655728135791993 # 1000000000000000000)]%Q.
(* 500-515 *)
Definition coif1_ig : list Q := [- (7273261951252645 # 100000000000000000); 3378976624574818 # 10000000000000000; 8525720202116004 # 10000000000000000; 3848648468648578 # 10000000000000000;
  - (7273261951252645 # 100000000000000000); - (15655728135791993 # 1000000000000000000)]%Q.
Definition coif1_ih : list Q := [- (15655728135791993 # 1000000000000000000); 7273261951252645 # 100000000000000000; 3848648468648578 # 10000000000000000; - (8525720202116004 # 10000000000000000);
  3378976624574818 # 10000000000000000; 7273261951252645 # 100000000000000000]%Q.
Definition coif1_forward := bank_forward coif1_h coif1_g.
Definition coif1_inverse := bank_inverse coif1_ig coif1_ih.

(* haar_forward_multi .. coif1_inverse_multi, 538-567 *)
Definition haar_forward_multi := multi_forward haar_forward.
Definition haar_inverse_multi := multi_inverse haar_inverse.
Definition db2_forward_multi := multi_forward db2_forward.
Definition db2_inverse_multi := multi_inverse db2_inverse.
Definition db4_forward_multi := multi_forward db4_forward.
Definition db4_inverse_multi := multi_inverse db4_inverse.
Definition sym4_forward_multi := multi_forward sym4_forward.
Definition sym4_inverse_multi := multi_inverse sym4_inverse.
Definition coif1_forward_multi := multi_forward coif1_forward.
Definition coif1_inverse_multi := multi_inverse coif1_inverse.
(* multi_level_forward_batch 86-102 *)
Definition multi_forward_batch f inputs levels := batch_fwd (fun x => multi_forward f x levels) inputs.
Definition multi_inverse_batch f avgs diffs := batch_inv (multi_inverse f) avgs diffs.
End Wave.

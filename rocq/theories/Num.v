(* Model of src/num.rs: the Float trait and Complex<T>. *)
From Coq Require Export QArith.
From Coq Require Import ZArith.
From Verif Require Export Exec.
Set Implicit Arguments.
Open Scope nat_scope.

(* src/num.rs 5-29 (trait Float). The operations are uninterpreted: no law is
   assumed about them, so that theorems over an arbitrary instance hold for
   f32 and f64 with whatever rounding their operations perform.
     fofnat n   from_f32(n as f32)   (usize -> f32 -> T conversion)
     fas n      n as T for a concrete T, not going through f32 (src/fft.rs 1421)
     freparse   decimal printing and re-reading of build.rs 31, 55
     flit q     from_f32(literal q), literal written exactly in the source
     fk707, fk924, fk383   from_f32(0.70710677), from_f32(0.9238795),
       from_f32(0.38268343), the literals of src/fft_kernels.rs; they are
       separate fields so that the exact-arithmetic instance can choose between
       the ideal constants and the literal values. *)
Class Float (T : Type) := {
  fzero : T; fone : T;
  fadd : T -> T -> T; fsub : T -> T -> T; fmul : T -> T -> T; fdiv : T -> T -> T;
  fneg : T -> T;
  fmul_add : T -> T -> T -> T;      (* a.mul_add(b, c) *)
  fcos : T -> T; fsin : T -> T;
  fsin_cos : T -> T * T;            (* (sin, cos) *)
  fpi : T;
  fofnat : nat -> T;
  fas : nat -> T;                   (* n as f32 / n as f64 directly *)
  freparse : T -> T;                (* print with {:.10}/{:.16}, parse back *)
  flit : Q -> T;
  fk707 : T; fk924 : T; fk383 : T }.

(* Further f32/f64 std operations used outside the Float trait
   (f32::sqrt, ln, log10, powf, abs, <=, <, `as usize` after floor/round). *)
Class FloatX (T : Type) := {
  fsqrt : T -> T; fln : T -> T; flog10 : T -> T; fpowf : T -> T -> T;
  fabs : T -> T;
  fltb : T -> T -> bool; fleb : T -> T -> bool; feqb : T -> T -> bool;
  ffloor : T -> nat;                (* x.floor() as usize, saturating *)
  ffloorf : T -> T;                 (* libm floorf *)
  fmaxf : T -> T -> T;              (* f32::max *)
  fround_nat : T -> nat }.          (* x.round() as usize, saturating *)

(* TypeId of T, consulted in src/fft.rs 373, 381, 685, 707, 1149, ... *)
Inductive kind := F32 | F64 | OtherT.

(* Build configuration: cargo features and target.
     c_lanes = 0: no SIMD block compiled in fft_split_simd; otherwise its width. *)
Record cfg := {
  c_std : bool;        (* feature std *)
  c_parallel : bool;   (* feature parallel *)
  c_fma : bool;        (* target_feature fma *)
  c_precomp : bool;    (* feature precomputed-twiddles *)
  c_kind : kind;
  c_lanes : nat }.

Section Num.
Context {T : Type} {F : Float T}.

(* src/num.rs 107-110 *)
Record cx := mkcx { re : T; im : T }.

Definition czero : cx := mkcx fzero fzero.                      (* 116-121 *)
Definition expi (theta : T) : cx :=                             (* 123-126 *)
  let '(s, c) := fsin_cos theta in mkcx c s.
Definition cadd (a b : cx) : cx :=                              (* 129-134 *)
  mkcx (fadd (re a) (re b)) (fadd (im a) (im b)).
Definition csub (a b : cx) : cx :=                              (* 137-142 *)
  mkcx (fsub (re a) (re b)) (fsub (im a) (im b)).
Definition cmul_plain (a b : cx) : cx :=                        (* 157-166 *)
  mkcx (fsub (fmul (re a) (re b)) (fmul (im a) (im b)))
       (fadd (fmul (re a) (im b)) (fmul (im a) (re b))).
Definition cmul_fma (a b : cx) : cx :=                          (* 174-188 *)
  mkcx (fmul_add (re a) (re b) (fneg (fmul (im a) (im b))))
       (fmul_add (re a) (im b) (fmul (im a) (re b))).
Definition cmul (c : cfg) (a b : cx) : cx :=                    (* 145-167 *)
  if c_fma c then cmul_fma a b else cmul_plain a b.
Definition cneg (a : cx) : cx := mkcx (fneg (re a)) (fneg (im a)). (* 191-200 *)
(* c.im = -c.im, the conjugation loops of src/fft.rs *)
Definition cconj (a : cx) : cx := mkcx (re a) (fneg (im a)).

(* from_complex_vec 283-291 / the unzip loops of src/fft.rs *)
Definition res_of (l : list cx) : list T := map re l.
Definition ims_of (l : list cx) : list T := map im l.
(* to_complex_vec 293-299 for equal lengths *)
Definition zipc (r i : list T) : list cx := zip_with mkcx r i.

(* copy_from_complex 332-339: panics unless all lengths agree *)
Definition copy_from_complex (input : list cx) (r i : list T) : exec (list T * list T) :=
  if (length input =? length r) && (length input =? length i)
  then for_range 0 (length input) (fun k '(r, i) =>
         c <- get input k ;; r' <- set r k (re c) ;; i' <- set i k (im c) ;; Done (r', i')) (r, i)
  else Panic.
(* copy_to_complex 341-348 *)
Definition copy_to_complex (r i : list T) (out : list cx) : exec (list cx) :=
  if (length r =? length i) && (length r =? length out)
  then for_range 0 (length r) (fun k out =>
         c <- get out k ;; rv <- get r k ;; out <- set out k (mkcx rv (im c)) ;;
         c <- get out k ;; iv <- get i k ;; set out k (mkcx (re c) iv)) out
  else Panic.
End Num.
Arguments cx T : clear implicits.

(* The further f32 operations (class FloatX) over Coq's reals. *)
From Coq Require Import Reals Lra ZArith.
From Verif Require Export RC.
Set Implicit Arguments.

(* greatest integer below x, 0 for negative x (Rust's float-to-usize cast saturates) *)
Definition Rfloor_nat (x : R) : nat := Z.to_nat (Int_part x).
Global Instance RX : FloatX R := {|
  fsqrt := sqrt; fln := ln; flog10 := fun x => (ln x / ln 10)%R; fpowf := Rpower; fabs := Rabs;
  fltb := fun a b => if Rlt_dec a b then true else false;
  fleb := fun a b => if Rle_dec a b then true else false;
  feqb := fun a b => if Req_EM_T a b then true else false;
  ffloor := Rfloor_nat;
  ffloorf := fun x => IZR (Int_part x); fmaxf := Rmax;
  fround_nat := fun x => Rfloor_nat (x + / 2) |}.

(* Model of src/fft_kernels.rs: straight-line FFTs of size 2, 4, 8, 16.
   The slice is a list; a list of another length is the debug_assert failure
   (Panic). Values stored into input[..] and re-read later are let-bound. *)
From Verif Require Export Num.
Set Implicit Arguments.

Section Kernels.
Context {T : Type} {F : Float T}.
Variable c : cfg.
Local Notation "a +c b" := (cadd a b) (at level 50, left associativity).
Local Notation "a -c b" := (csub a b) (at level 50, left associativity).
Local Notation "a *c b" := (cmul c a b) (at level 40, left associativity).

(* lines 4-10 *)
Definition fft2 (x : list (cx T)) : exec (list (cx T)) :=
  match x with
  | [a; b] => Done [a +c b; a -c b]
  | _ => Panic
  end.

(* lines 13-29 *)
Definition fft4 (x : list (cx T)) : exec (list (cx T)) :=
  match x with
  | [a0; a1; a2; a3] =>
    let even0 := a0 +c a2 in
    let even1 := a0 -c a2 in
    let odd0 := a1 +c a3 in
    let odd1 := a1 -c a3 in
    let w1 := mkcx fzero (fneg fone) in
    let t1 := odd1 *c w1 in
    Done [even0 +c odd0; even1 +c t1; even0 -c odd0; even1 -c t1]
  | _ => Panic
  end.

(* lines 32-86 *)
Definition fft8 (x : list (cx T)) : exec (list (cx T)) :=
  match x with
  | [x0; x1; x2; x3; x4; x5; x6; x7] =>
    let w1 := mkcx fzero (fneg fone) in
    let s := fk707 in
    let a0 := x0 +c x4 in
    let a1 := x0 -c x4 in
    let a2 := x2 +c x6 in
    let a3 := x2 -c x6 in
    let t := a3 *c w1 in
    let i0 := a0 +c a2 in
    let i2 := a0 -c a2 in
    let i1 := a1 +c t in
    let i3 := a1 -c t in
    let b0 := x1 +c x5 in
    let b1 := x1 -c x5 in
    let b2 := x3 +c x7 in
    let b3 := x3 -c x7 in
    let t' := b3 *c w1 in
    let i4 := b0 +c b2 in
    let i6 := b0 -c b2 in
    let i5 := b1 +c t' in
    let i7 := b1 -c t' in
    let t1 := i5 *c mkcx s (fneg s) in
    let t2 := i6 *c w1 in
    let t3 := i7 *c mkcx (fneg s) (fneg s) in
    let o0 := i4 in
    Done [i0 +c o0; i1 +c t1; i2 +c t2; i3 +c t3;
          i0 -c o0; i1 -c t1; i2 -c t2; i3 -c t3]
  | _ => Panic
  end.

(* lines 89-224. from_f32(-x) is modelled as fneg (from_f32 x). *)
Definition fft16 (x : list (cx T)) : exec (list (cx T)) :=
  match x with
  | [x0; x1; x2; x3; x4; x5; x6; x7; x8; x9; x10; x11; x12; x13; x14; x15] =>
    let w1 := mkcx fzero (fneg fone) in
    let s := fk707 in
    (* even index FFT8, 113-144 *)
    let a0 := x0 +c x8 in
    let a1 := x0 -c x8 in
    let a2 := x4 +c x12 in
    let a3 := x4 -c x12 in
    let t := a3 *c w1 in
    let ea0 := a0 +c a2 in
    let ea2 := a0 -c a2 in
    let ea1 := a1 +c t in
    let ea3 := a1 -c t in
    let b0 := x2 +c x10 in
    let b1 := x2 -c x10 in
    let b2 := x6 +c x14 in
    let b3 := x6 -c x14 in
    let t := b3 *c w1 in
    let eb0 := b0 +c b2 in
    let eb2 := b0 -c b2 in
    let eb1 := b1 +c t in
    let eb3 := b1 -c t in
    let t0 := eb0 in
    let t1 := eb1 *c mkcx s (fneg s) in
    let t2 := eb2 *c w1 in
    let t3 := eb3 *c mkcx (fneg s) (fneg s) in
    let e0 := ea0 +c t0 in
    let e1 := ea1 +c t1 in
    let e2 := ea2 +c t2 in
    let e3 := ea3 +c t3 in
    let e4 := ea0 -c t0 in
    let e5 := ea1 -c t1 in
    let e6 := ea2 -c t2 in
    let e7 := ea3 -c t3 in
    (* odd index FFT8, 147-178 *)
    let c0 := x1 +c x9 in
    let c1 := x1 -c x9 in
    let c2 := x5 +c x13 in
    let c3 := x5 -c x13 in
    let t := c3 *c w1 in
    let oa0 := c0 +c c2 in
    let oa2 := c0 -c c2 in
    let oa1 := c1 +c t in
    let oa3 := c1 -c t in
    let d0 := x3 +c x11 in
    let d1 := x3 -c x11 in
    let d2 := x7 +c x15 in
    let d3 := x7 -c x15 in
    let t := d3 *c w1 in
    let ob0 := d0 +c d2 in
    let ob2 := d0 -c d2 in
    let ob1 := d1 +c t in
    let ob3 := d1 -c t in
    let t0 := ob0 in
    let t1 := ob1 *c mkcx s (fneg s) in
    let t2 := ob2 *c w1 in
    let t3 := ob3 *c mkcx (fneg s) (fneg s) in
    let i8 := oa0 +c t0 in
    let i9 := oa1 +c t1 in
    let i10 := oa2 +c t2 in
    let i11 := oa3 +c t3 in
    let i12 := oa0 -c t0 in
    let i13 := oa1 -c t1 in
    let i14 := oa2 -c t2 in
    let i15 := oa3 -c t3 in
    (* twiddle multiply odd half, 181-197 *)
    let c1 := fk924 in
    let s1 := fneg fk383 in
    let c2 := fk707 in
    let s2 := fneg fk707 in
    let c3 := fk383 in
    let s3 := fneg fk924 in
    let c4 := fzero in
    let s4 := fneg fone in
    let o0 := i8 in
    let o1 := i9 *c mkcx c1 s1 in
    let o2 := i10 *c mkcx c2 s2 in
    let o3 := i11 *c mkcx c3 s3 in
    let o4 := i12 *c mkcx c4 s4 in
    let o5 := i13 *c mkcx (fneg c3) s3 in
    let o6 := i14 *c mkcx (fneg c2) s2 in
    let o7 := i15 *c mkcx (fneg c1) s1 in
    Done [e0 +c o0; e1 +c o1; e2 +c o2; e3 +c o3;
          e4 +c o4; e5 +c o5; e6 +c o6; e7 +c o7;
          e0 -c o0; e1 -c o1; e2 -c o2; e3 -c o3;
          e4 -c o4; e5 -c o5; e6 -c o6; e7 -c o7]
  | _ => Panic
  end.
End Kernels.

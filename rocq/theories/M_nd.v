(* Model of src/ndfft.rs: flattening and the 2D/3D transforms. *)
From Verif Require Export M_fft.
Set Implicit Arguments.
Open Scope nat_scope.

Section Nd.
Context {T : Type} {F : Float T}.
Variable c : cfg.
Local Notation cx := (cx T).

(* flatten_2d, 21-37 *)
Definition flatten_2d (data : list (list cx)) : result (list cx * nat * nat) :=
  match data with
  | [] => Ok ([], 0, 0)
  | row0 :: _ =>
    let cols := length row0 in
    if existsb (fun row => negb (length row =? cols)) data then Err MismatchedLengths
    else Ok (concat data, length data, cols)
  end.

(* flatten_3d, 41-67; the two nested checking loops, 51-60 *)
Definition plane_ok (rows cols : nat) (plane : list (list cx)) : bool :=
  (length plane =? rows) && forallb (fun row => length row =? cols) plane.
Definition flatten_3d (data : list (list (list cx))) : result (list cx * nat * nat * nat) :=
  match data with
  | [] => Ok ([], 0, 0, 0)
  | plane0 :: _ =>
    let rows := length plane0 in
    let cols := match plane0 with row0 :: _ => length row0 | [] => 0 end in
    if forallb (plane_ok rows cols) data then Ok (concat (map (@concat cx) data), length data, rows, cols)
    else Err MismatchedLengths
  end.

(* for i in lo..lo+n { body(i)?; } *)
Fixpoint for_try {S} (n i : nat) (body : nat -> S -> exec (S * rres)) (s : S) : exec (S * rres) :=
  match n with
  | 0 => Done (s, ROk)
  | Datatypes.S m =>
    '(s, r) <- body i s ;;
    match r with RErr e => Done (s, RErr e) | ROk => for_try m (Datatypes.S i) body s end
  end.

(* fft.fft(&mut data[start..start + len]) *)
Definition fft_slice (start len : nat) (s : planner T * list cx) : exec (planner T * list cx * rres) :=
  let '(p, data) := s in
  if start + len <=? length data then
    '(p, part, r) <- fft c p (firstn len (skipn start data)) ;;
    Done (p, firstn start data ++ part ++ skipn (start + len) data, r)
  else Panic.
(* fft.fft_strided(&mut data[start..], stride, scratch) *)
Definition strided_slice (start stride : nat) (s : planner T * list cx * list cx) : exec (planner T * list cx * list cx * rres) :=
  let '(p, data, scratch) := s in
  rest <- slice_from data start ;;
  '(p, rest, scratch, r) <- fft_strided c p rest stride scratch ;;
  Done (p, firstn start data ++ rest, scratch, r).

(* fft2d_inplace, 74-100 *)
Definition fft2d_inplace (p : planner T) (data : list cx) (rows cols : nat) (scratch_col : list cx)
  : exec (planner T * list cx * list cx * rres) :=
  if negb (rows * cols =? length data) then Done (p, data, scratch_col, RErr MismatchedLengths)
  else if (rows =? 0) || (cols =? 0) then Done (p, data, scratch_col, ROk)
  else if negb (length scratch_col =? rows) then Done (p, data, scratch_col, RErr MismatchedLengths)
  else
    '(p, data, r) <- for_try rows 0 (fun r => fft_slice (r * cols) cols) (p, data) ;;
    match r with
    | RErr e => Done (p, data, scratch_col, RErr e)
    | ROk => for_try cols 0 (fun k => strided_slice k cols) (p, data, scratch_col)
    end.

(* fft3d_inplace, 114-153; the column scratch is only measured, never written *)
Definition fft3d_inplace (p : planner T) (data : list cx) (depth rows cols : nat) (tube row col : list cx)
  : exec (planner T * list cx * (list cx * list cx * list cx) * rres) :=
  if negb (depth * rows * cols =? length data) then Done (p, data, (tube, row, col), RErr MismatchedLengths)
  else if (depth =? 0) || (rows =? 0) || (cols =? 0) then Done (p, data, (tube, row, col), ROk)
  else if negb ((length tube =? depth) && (length row =? rows) && (length col =? cols))
  then Done (p, data, (tube, row, col), RErr MismatchedLengths)
  else
    '(p, data, tube, r) <- for_try rows 0 (fun r => for_try cols 0 (fun k => strided_slice (r * cols + k) (rows * cols))) (p, data, tube) ;;
    match r with
    | RErr e => Done (p, data, (tube, row, col), RErr e)
    | ROk =>
      '(p, data, row, r) <- for_try depth 0 (fun d => for_try cols 0 (fun k => strided_slice (d * rows * cols + k) cols)) (p, data, row) ;;
      match r with
      | RErr e => Done (p, data, (tube, row, col), RErr e)
      | ROk =>
        '(p, data, r) <- for_try depth 0 (fun d => for_try rows 0 (fun r => fft_slice (d * rows * cols + r * cols) cols)) (p, data) ;;
        Done (p, data, (tube, row, col), r)
      end
    end.
End Nd.

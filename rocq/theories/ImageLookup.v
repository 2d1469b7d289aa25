(** Reading a grey value between the pixels of an image:
    src/utMath/Optimization/NewFunction/ImageLookup.h.  Pixels are real numbers (the subtraction in
    a narrow unsigned pixel type is not modelled); image.imageData with widthStep is a map from
    coordinates; reading outside the image is [None]. *)
From Coq Require Import Reals ZArith.
Open Scope R_scope.

Record image := Image { width : Z; height : Z; pix : Z -> Z -> R }.
(** the pixel at column x of row y: imageData + y * widthStep, column x *)
Definition read (g : image) (x y : Z) : option R :=
  if ((0 <=? x) && (x <? width g) && (0 <=? y) && (y <? height g))%Z%bool then Some (pix g x y) else None.
Definition bind {A B} (o : option A) (f : A -> option B) : option B := match o with Some a => f a | None => None end.

(** static_cast< int >( std::floor( . ) ): 61-62, 85-86; numbers beyond the range of int are not modelled *)
Definition floor_int (r : R) : Z := Int_part r.

(** evaluate, 57-79 *)
Definition evaluate (g : image) (px py : R) : option R :=
  let x := floor_int px in let y := floor_int py in
  if ((x <? 0) || (width g - 1 <=? x) || (y <? 0) || (height g - 1 <=? y))%Z%bool then Some 0
  else
    let dx := px - IZR x in let dy := py - IZR y in
    bind (read g x y) (fun i0 => bind (read g (x + 1) y) (fun i1 =>
    let a := i0 + dx * (i1 - i0) in
    bind (read g x (y + 1)) (fun i0 => bind (read g (x + 1) (y + 1)) (fun i1 =>
    let b := i0 + dx * (i1 - i0) in
    Some (a + dy * (b - a)))))).

(** round x / y, 88-91: upwards only beyond one half *)
Definition round_int (r : R) : Z := if Rlt_dec (1 / 2) (r - IZR (floor_int r)) then (floor_int r + 1)%Z else floor_int r.

(** multiplyJacobian1, 81-120, with l( 0, 0 ) = l *)
Definition multiply_jacobian (g : image) (l px py : R) : option (R * R) :=
  let x := round_int px in let y := round_int py in
  if ((x <? 1) || (width g - 2 <=? x) || (y <? 1) || (height g - 2 <=? y))%Z%bool then Some (0, 0)
  else
    bind (read g (x - 1) (y - 1)) (fun a0 => bind (read g x (y - 1)) (fun a1 => bind (read g (x + 1) (y - 1)) (fun a2 =>
    let sobX := 0 + (a2 - a0) in let sobY := 0 - (a0 + 2 * a1 + a2) in
    bind (read g (x - 1) y) (fun b0 => bind (read g (x + 1) y) (fun b2 =>
    let sobX := sobX + 2 * (b2 - b0) in
    bind (read g (x - 1) (y + 1)) (fun c0 => bind (read g x (y + 1)) (fun c1 => bind (read g (x + 1) (y + 1)) (fun c2 =>
    let sobX := sobX + (c2 - c0) in let sobY := sobY + (c0 + 2 * c1 + c2) in
    Some (l * (sobX / 8), l * (sobY / 8)))))))))).

(** Quaternions in IEEE 754 double precision.  Elsewhere in this development a double is a real number; here the operations
    of utMath/Quaternion.h and Quaternion.cpp are modelled with binary64 arithmetic, round to nearest even, as defined by the
    Flocq library: infinities, NaN, signed zeros, overflow and underflow included.  Every operation of the source is rounded
    once (no fused multiply-add, no extended precision). *)
From Coq Require Import ZArith Reals Bool List.
From Flocq Require Import Core BinarySingleNaN Binary Bits.
Import ListNotations.
Open Scope Z_scope.

Definition dbl := binary64.
Definition dadd : dbl -> dbl -> dbl := b64_plus mode_NE.
Definition dsub : dbl -> dbl -> dbl := b64_minus mode_NE.
Definition dmul : dbl -> dbl -> dbl := b64_mult mode_NE.
Definition ddiv : dbl -> dbl -> dbl := b64_div mode_NE.
Definition dsqrt : dbl -> dbl := b64_sqrt mode_NE.
Definition dopp : dbl -> dbl := b64_opp.
Definition dabs : dbl -> dbl := b64_abs.
Definition d0 : dbl := b64_of_bits 0.
Definition d1 : dbl := b64_of_bits 4607182418800017408.
Definition d2 : dbl := b64_of_bits 4611686018427387904.
(** the literals -1 and 0.9999 *)
Definition dm1 : dbl := dopp d1.
Definition d09999 : dbl := b64_of_bits 4607181518080091934.
(** comparisons; false if one side is NaN *)
Definition dlt (a b : dbl) : bool := match b64_compare a b with Some Lt => true | _ => false end.
Definition dle (a b : dbl) : bool := match b64_compare a b with Some Lt | Some Eq => true | _ => false end.
Definition deq (a b : dbl) : bool := match b64_compare a b with Some Eq => true | _ => false end.

Record dq := DQ { dx : dbl; dy : dbl; dz : dbl; dw : dbl }.
Definition done : dq := DQ d0 d0 d0 d1.

(** boost::math::quaternion operator*, from left to right:
    a*ar - b*br - c*cr - d*dr,  a*br + b*ar + c*dr - d*cr,  a*cr - b*dr + c*ar + d*br,  a*dr + b*cr - c*br + d*ar *)
Definition dqmul (p q : dq) : dq :=
  DQ (dsub (dadd (dadd (dmul (dw p) (dx q)) (dmul (dx p) (dw q))) (dmul (dy p) (dz q))) (dmul (dz p) (dy q)))
     (dadd (dadd (dsub (dmul (dw p) (dy q)) (dmul (dx p) (dz q))) (dmul (dy p) (dw q))) (dmul (dz p) (dx q)))
     (dadd (dsub (dadd (dmul (dw p) (dz q)) (dmul (dx p) (dy q))) (dmul (dy p) (dx q))) (dmul (dz p) (dw q)))
     (dsub (dsub (dsub (dmul (dw p) (dw q)) (dmul (dx p) (dx q))) (dmul (dy p) (dy q))) (dmul (dz p) (dz q))).
(** std::max( a, b ) *)
Definition dmax (a b : dbl) : dbl := if dlt a b then b else a.
(** boost::math::abs: scaled by the largest component *)
Definition dqabs (q : dq) : dbl :=
  let maxim := dmax (dmax (dabs (dw q)) (dabs (dx q))) (dmax (dabs (dy q)) (dabs (dz q))) in
  if deq maxim d0 then d0 else
  let mixam := ddiv d1 maxim in
  let sq := fun c => let t := dmul (dabs c) mixam in dmul t t in
  dmul maxim (dsqrt (dadd (dadd (dadd (sq (dw q)) (sq (dx q))) (sq (dy q))) (sq (dz q)))).
(** normalize, Quaternion.h:146-149 *)
Definition dnormalize (q : dq) : dq :=
  let n := dqabs q in DQ (ddiv (dx q) n) (ddiv (dy q) n) (ddiv (dz q) n) (ddiv (dw q) n).

(** ** What the library hands to acos *)
(** angle, Quaternion.h:179-180 *)
Definition angle_arg (q : dq) : dbl := if dlt d0 (dw q) then dw q else dopp (dw q).
(** toAxisAngle, Quaternion.h:326 *)
Definition axis_angle_arg (q : dq) : dbl := dw q.
(** the axis of toAxisAngle, Quaternion.h:328-339, T = double; 0.001 *)
Record dv3 := DV { d_x : dbl; d_y : dbl; d_z : dbl }.
Definition d0001 : dbl := b64_of_bits 4562254508917369340.
Definition to_axis (q : dq) : dv3 :=
  let s := dsqrt (dsub d1 (dmul (dw q) (dw q))) in
  if dlt s d0001 then DV (dx q) (dy q) (dz q) else DV (ddiv (dx q) s) (ddiv (dy q) s) (ddiv (dz q) s).
(** toLogarithm, Quaternion.cpp:231-237; [None]: acos is not called *)
Definition log_arg (q : dq) : option dbl :=
  let s := if dle d0 (dw q) then d1 else dm1 in
  if dlt (dmul (dw q) s) d1 then Some (dmul (dw q) s) else None.
(** slerp, Quaternion.cpp:279-310; boost::math::norm is the real part of q * conj( q ), boost's operator- is componentwise *)
Definition dnorm (q : dq) : dbl :=
  dsub (dsub (dsub (dmul (dw q) (dw q)) (dmul (dx q) (dopp (dx q)))) (dmul (dy q) (dopp (dy q)))) (dmul (dz q) (dopp (dz q))).
Definition slerp_arg (a b : dq) : option dbl :=
  let diff := DQ (dsub (dx a) (dx b)) (dsub (dy a) (dy b)) (dsub (dz a) (dz b)) (dsub (dw a) (dw b)) in
  let x := if dlt d2 (dnorm diff) then DQ (dopp (dx a)) (dopp (dy a)) (dopp (dz a)) (dopp (dw a)) else a in
  let dot := dadd (dadd (dadd (dmul (dx x) (dx b)) (dmul (dy x) (dy b))) (dmul (dz x) (dz b))) (dmul (dw x) (dw b)) in
  if dlt d09999 dot then None else Some dot.

(** rotating a vector, Quaternion.cpp:206-226 *)
Definition drot (q : dq) (v : dv3) : dv3 :=
  let x := dx q in let y := dy q in let z := dz q in let w := dw q in
  let xy := dmul x y in let xz := dmul x z in let yz := dmul y z in let ww := dmul w w in let wx := dmul w x in let wy := dmul w y in let wz := dmul w z in
  DV (dadd (dadd (dmul (d_x v) (dsub (dmul d2 (dadd (dmul x x) ww)) d1)) (dmul (dmul (d_y v) d2) (dsub xy wz))) (dmul (dmul (d_z v) d2) (dadd wy xz)))
     (dadd (dadd (dmul (dmul (d_x v) d2) (dadd xy wz)) (dmul (d_y v) (dsub (dmul d2 (dadd (dmul y y) ww)) d1))) (dmul (dmul (d_z v) d2) (dsub yz wx)))
     (dadd (dadd (dmul (dmul (d_x v) d2) (dsub xz wy)) (dmul (dmul (d_y v) d2) (dadd wx yz))) (dmul (d_z v) (dsub (dmul d2 (dadd (dmul z z) ww)) d1))).
(** a chain of rotations, from the left *)
Definition dchain (qs : list dq) : dq := fold_left dqmul qs done.

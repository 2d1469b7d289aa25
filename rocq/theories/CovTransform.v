(** Model of utMath/Stochastic/CovarianceTransform.h.  The function object is
    represented by the two things [evaluateWithJacobian] returns: the result
    vector and the Jacobian it wrote. *)
From Coq Require Import Reals Bool Arith.
From Verif Require Import Mat.
Open Scope R_scope.

(** the function object: input vector to (result, Jacobian) *)
Definition cfun := vect -> vect * mat.
(** a function object of two arguments: result and both Jacobians *)
Definition cfun2 := vect -> vect -> vect * mat * mat.

Record errvec := EV { value : vect; covariance : mat }.

(** [transformWithCovariance], CovarianceTransform.h:71-87; n is the size of the input *)
Definition transform_cov (n : nat) (f : cfun) (x : errvec) : errvec :=
  let '(r, J) := f (value x) in
  let im := mmul n J (covariance x) in
  EV r (mmul n im (tr J)).

(** reading and assigning [ublas::subrange] of a matrix and a vector *)
Definition sub (C : mat) (r0 c0 : nat) : mat := fun i j => C (r0 + i)%nat (c0 + j)%nat.
Definition set_sub (C : mat) (r0 r1 c0 c1 : nat) (B : mat) : mat := fun i j =>
  if (r0 <=? i) && (i <? r1) && (c0 <=? j) && (j <? c1) then B (i - r0)%nat (j - c0)%nat else C i j.
Definition vsub_range (x : vect) (b : nat) : vect := fun i => x (b + i)%nat.
Definition vset_range (x : vect) (b e : nat) (y : vect) : vect := fun i =>
  if (b <=? i) && (i <? e) then y (i - b)%nat else x i.

(** [transformRangeInternalWithCovariance], CovarianceTransform.h:118-160; [n] is
    [value.size()].  The assignments are kept in program order. *)
Definition transform_range (n : nat) (f : cfun) (ob oe ib ie : nat) (x : errvec) : errvec :=
  let nIn := (ie - ib)%nat in
  let '(r, J) := f (vsub_range (value x) ib) in
  let v' := vset_range (value x) ob oe r in
  let im := mmul nIn J (sub (covariance x) ib 0) in
  let C0 := covariance x in
  let C1 := if 0 <? ob then set_sub C0 ob oe 0 ob (sub im 0 0) else C0 in
  let C2 := if 0 <? ob then set_sub C1 0 ob ob oe (tr (sub im 0 0)) else C1 in
  let C3 := set_sub C2 ob oe ob oe (mmul nIn (sub im 0 ib) (tr J)) in
  let C4 := if oe <? n then set_sub C3 ob oe oe n (sub im 0 oe) else C3 in
  let C5 := if oe <? n then set_sub C4 oe n ob oe (tr (sub im 0 oe)) else C4 in
  EV v' C5.

(** [binarytransformWithCovariance], CovarianceTransform.h:172-193 *)
Definition binary_transform (n1 n2 : nat) (f : cfun2) (x y : errvec) : errvec :=
  let '(r, J1, J2) := f (value x) (value y) in
  let im1 := mmul n1 J1 (covariance x) in
  let C := mmul n1 im1 (tr J1) in
  let im2 := mmul n2 J2 (covariance y) in
  EV r (madd C (mmul n2 im2 (tr J2))).

(** ** Specification vocabulary *)

(** The Jacobian of the map that replaces entries [ob .. oe) of the whole state by a
    function with Jacobian J of entries [ib .. ie), and leaves the others alone. *)
Definition block_map (J : mat) (ob oe ib ie : nat) : mat := fun i j =>
  if (ob <=? i) && (i <? oe) then
    (if (ib <=? j) && (j <? ie) then J (i - ob)%nat (j - ib)%nat else 0)
  else eye i j.

(** covariance of two independent vectors stacked on top of each other *)
Definition stack (n1 : nat) (C1 C2 : mat) : mat := fun i j =>
  if (i <? n1) && (j <? n1) then C1 i j
  else if (n1 <=? i) && (n1 <=? j) then C2 (i - n1)%nat (j - n1)%nat else 0.
(** [J1 J2] side by side *)
Definition beside (n1 : nat) (J1 J2 : mat) : mat := fun i j =>
  if j <? n1 then J1 i j else J2 i (j - n1)%nat.

(** Model of utMath/Optimization/DownhillSimplex.h over the reals.  (Line 62 names an undeclared
    type [VType]; it is read as [T].)  [f] is the whole chain problem.evaluate, subtraction of
    the measurement, norm_2; [normalize] is arbitrary.  [n] is ndim; [seen] is a ghost field
    collecting the points at which [f] was evaluated. *)
From Coq Require Import Reals List Bool Arith.
Import ListNotations.
From Verif Require Import Mat.
Open Scope R_scope.

Definition Rleb (a b : R) : bool := if Rle_dec a b then true else false.
Definition Rltb (a b : R) : bool := if Rlt_dec a b then true else false.

Section Simplex.
Variable n : nat.
Variable f : vect -> R.
Variable normalize : vect -> vect.
Variable term : nat -> R -> R -> bool.

(** p, y, psum and nfunk *)
Record state := St {
  vertex : nat -> vect; val : nat -> R; psum : vect; nfunk : nat; seen : list vect }.

Definition set {A} (g : nat -> A) (k : nat) (v : A) : nat -> A := fun i => if (i =? k)%nat then v else g i.

(** the sum of the rows, DownhillSimplex.h:85-87 and 147-149 *)
Definition rowsum (p : nat -> vect) : vect := fun j => sum (S n) (fun i => p i j).

(** starting simplex, DownhillSimplex.h:61-87 *)
Definition start_vertex (x : vect) (i : nat) : vect :=
  match i with
  | O => x
  | S k => normalize (set x k (x k * (148529 / 100000)))
  end.
Definition initial (x : vect) : state :=
  let p := start_vertex x in
  St p (fun i => f (p i)) (rowsum p) 0 (map p (seq 0 (S n))).

(** ilo, ihi, inhi, DownhillSimplex.h:92-109 *)
Definition pick (y : nat -> R) : nat * nat * nat :=
  let start := if Rltb (y 1%nat) (y 0%nat) then (0, 0, 1)%nat else (0, 1, 0)%nat in
  fold_left (fun acc i =>
    let '(lo, hi, nhi) := acc in
    let lo := if Rleb (y i) (y lo) then i else lo in
    if Rltb (y hi) (y i) then (lo, i, hi)
    else if Rltb (y nhi) (y i) && negb (i =? hi)%nat then (lo, hi, i)
    else (lo, hi, nhi)) (seq 0 (S n)) start.

(** downhillSimplexTry, DownhillSimplex.h:162-189 *)
Definition trial (s : state) (ihi : nat) (fac : R) : vect :=
  let fac1 := (1 - fac) / INR n in
  let fac2 := fac1 - fac in
  normalize (fun j => psum s j * fac1 - vertex s ihi j * fac2).
Definition attempt (s : state) (ihi : nat) (fac : R) : state * R :=
  let p := trial s ihi fac in
  let y := f p in
  if Rltb y (val s ihi)
  then (St (set (vertex s) ihi p) (set (val s) ihi y)
           (fun j => psum s j + (p j - vertex s ihi j)) (nfunk s) (p :: seen s), y)
  else (St (vertex s) (val s) (psum s) (nfunk s) (p :: seen s), y).

(** contraction around the lowest point, DownhillSimplex.h:133-149 *)
Definition contract_vertex (s : state) (ilo i : nat) : vect :=
  if (i =? ilo)%nat then vertex s i
  else normalize (fun j => (vertex s i j + vertex s ilo j) * (1 / 2)).
Definition contract (s : state) (ilo : nat) : state :=
  let p := contract_vertex s ilo in
  St p (fun i => if (i =? ilo)%nat then val s i else f (p i)) (rowsum p) (nfunk s + n)
     (map p (filter (fun i => negb (i =? ilo)%nat) (seq 0 (S n))) ++ seen s).

Definition count (s : state) (k : nat) : state := St (vertex s) (val s) (psum s) k (seen s).

(** one pass through the loop after the termination test, DownhillSimplex.h:118-153 *)
Definition step (s : state) : state :=
  let '(ilo, ihi, inhi) := pick (val s) in
  let s := count s (nfunk s + 2) in
  let '(s, ytry) := attempt s ihi (-1) in
  if Rleb ytry (val s ilo) then fst (attempt s ihi 2)
  else if Rleb (val s inhi) ytry then
    let ysave := val s ihi in
    let '(s, ytry) := attempt s ihi (1 / 2) in
    if Rleb ysave ytry then contract s ilo else s
  else count s (nfunk s - 1).

(** the call: the returned parameters and value, or the state after [fuel] passes *)
Inductive result := Done (p : vect) (y : R) (s : state) | Running (s : state).
Fixpoint loop (fuel : nat) (s : state) : result :=
  match fuel with
  | O => Running s
  | S fuel =>
    let '(ilo, ihi, _) := pick (val s) in
    if term (nfunk s) (val s ilo) (val s ihi) then Done (vertex s ilo) (val s ilo) s
    else loop fuel (step s)
  end.
Definition downhill_simplex (fuel : nat) (x : vect) : result := loop fuel (initial x).

(** ** Specification *)
(** every stored value belongs to its vertex, the maintained sum is the sum of the vertices,
    and no point evaluated so far is better than all vertices *)
Record coherent (s : state) : Prop := {
  coh_val : forall i, (i <= n)%nat -> val s i = f (vertex s i);
  coh_sum : forall j, psum s j = sum (S n) (fun i => vertex s i j);
  coh_best : forall q, In q (seen s) -> exists i, (i <= n)%nat /\ f (vertex s i) <= f q }.

(** the centroid of the face opposite to vertex [k] *)
Definition face_centroid (p : nat -> vect) (k : nat) : vect := fun j =>
  sum (S n) (fun i => if (i =? k)%nat then 0 else p i j) / INR n.
End Simplex.

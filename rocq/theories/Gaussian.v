(** Model of utMath/Stochastic/Gaussian.h, MahalanobisDistance.h and
    expectation_maximization.h.  Sequences of length [n] are functions of the position;
    [sum n f] is the left-to-right accumulation of the loops.  Determinant and inverse
    (LAPACK) are arguments. *)
From Coq Require Import Reals List Arith Bool.
From Verif Require Import Mat.
Open Scope R_scope.

(** struct Gaussian, Gaussian.h:39-61 *)
Record gaussian := G { gmean : vect; gcov : mat; gvar : R; gsd : R }.

(** reset, Gaussian.h:64-71 *)
Definition reset : gaussian := G (fun _ => 0) (fun _ _ => 0) 0 0.

(** the covariance loops (Gaussian.h:95-99, 134-137, 205-209): entry (i1,i2) with i1 <= i2
    is accumulated and mirrored *)
Definition cov_loop (n : nat) (w : nat -> R) (x : nat -> vect) (m : vect) : mat := fun i j =>
  sum n (fun p => w p * (x p (Nat.min i j) - m (Nat.min i j)) * (x p (Nat.max i j) - m (Nat.max i j))).

Definition finish (N : nat) (m : vect) (c : mat) : gaussian :=
  let v := sum N (fun i => c i i) in G m c v (sqrt v).

(** weighted estimate_gaussian, Gaussian.h:74-108 *)
Definition estimate_weighted (N n : nat) (w : nat -> R) (x : nat -> vect) : bool * gaussian :=
  match n with
  | O => (false, reset)
  | S _ => let m := fun i => sum n (fun p => w p * x p i) in
           (true, finish N m (cov_loop n w x m))
  end.

(** unweighted estimate_gaussian, Gaussian.h:110-152 *)
Definition estimate_plain (N n : nat) (x : nat -> vect) : bool * gaussian :=
  match n with
  | O => (false, reset)
  | S _ => let m := fun i => sum n (fun p => x p i) / INR n in
           (true, finish N m (fun i j => cov_loop n (fun _ => 1) x m i j / INR n))
  end.

(** estimate_gaussian_index, Gaussian.h:181-221; the contents are NaN ([None]) if no label
    matches, the returned flag is true all the same *)
Definition sel (labels : nat -> nat) (comp : nat) (p : nat) : R := if Nat.eqb (labels p) comp then 1 else 0.
Definition count (n : nat) (labels : nat -> nat) (comp : nat) : nat :=
  length (List.filter (fun p => Nat.eqb (labels p) comp) (List.seq 0 n)).
Definition estimate_index (N n : nat) (x : nat -> vect) (labels : nat -> nat) (comp : nat) : bool * option gaussian :=
  match count n labels comp with
  | O => (true, None)
  | S _ => let c := INR (count n labels comp) in
           let m := fun i => sum n (fun p => sel labels comp p * x p i) / c in
           (true, Some (finish N m (fun i j => cov_loop n (sel labels comp) x m i j / c)))
  end.

Section linalg.
Variable N : nat.
Variable det : mat -> R.
Variable inv : mat -> mat.

(** MahalanobisDistance, MahalanobisDistance.h:42-99; [None] is the exception or the square
    root of a negative number *)
Definition mahalanobis (g : gaussian) (v : vect) : option R :=
  if Req_EM_T (det (gcov g)) 0 then None
  else
    let d := vsub v (gmean g) in
    let s := vdot N (mvec N (inv (gcov g)) d) d in
    if Rlt_dec s 0 then None else Some (sqrt s).

(** Probability, expectation_maximization.h:47-117 *)
Definition two_pi : R := 2 * (314159 / 100000).
Definition constant (g : gaussian) : R :=
  if Rlt_dec (1 / 10000000000) (Rabs (det (gcov g)))
  then 1 / sqrt (Rpower two_pi (INR N * (1 / 2)) * Rabs (det (gcov g)))
  else 0.
Definition probability (g : gaussian) (v : vect) : R :=
  if Req_EM_T (constant g) 0 then 0
  else
    let d := vsub v (gmean g) in
    constant g * exp (- (1 / 2) * vdot N (mvec N (inv (gcov g)) d) d).

(** Weighted< Gaussian >, Weighted.h:53-79 *)
Record comp := C { cw : R; cg : gaussian }.

(** log_likelihood, expectation_maximization.h:119-145; [None] is minus infinity *)
Definition mixture (K : nat) (c : nat -> comp) (v : vect) : R :=
  sum K (fun k => cw (c k) * probability (cg (c k)) v).
Definition all_below (n : nat) (f : nat -> bool) : bool := List.forallb f (List.seq 0 n).
Definition positive (x : R) : bool := if Rlt_dec 0 x then true else false.
Definition log_likelihood (K n : nat) (c : nat -> comp) (x : nat -> vect) : option R :=
  if all_below n (fun i => positive (mixture K c (x i)))
  then Some (sum n (fun i => ln (mixture K c (x i))) / INR n)
  else None.

(** one round of expectation_maximization, lines 205-255.  If the mixture vanishes at a
    data point the quotient is NaN for every component, and so is every sum: all weights
    become zero and the Gaussians stay (lines 246-248). *)
Definition responsibility (K : nat) (c : nat -> comp) (v : vect) (k : nat) : R :=
  cw (c k) * probability (cg (c k)) v / mixture K c v.
Definition nonzero (x : R) : bool := if Req_EM_T x 0 then false else true.
Definition em_step (K n : nat) (x : nat -> vect) (c : nat -> comp) : nat -> comp :=
  if all_below n (fun i => nonzero (mixture K c (x i)))
  then fun k =>
    let g i := responsibility K c (x i) k in
    let s := sum n g in
    if Req_EM_T s 0 then C 0 (cg (c k))
    else C (s / INR n) (snd (estimate_weighted N n (fun i => g i * (1 / s)) x))
  else fun k => C 0 (cg (c k)).

(** the loop, lines 202-270 *)
Definition converged (a b : option R) : bool :=
  match a, b with
  | Some a, Some b => if Rlt_dec (Rabs (a - b)) (1 / 100000 * Rabs a) then true else false
  | _, _ => false
  end.
Fixpoint em_loop (fuel K n : nat) (x : nat -> vect) (c : nat -> comp) (l : option R) : (nat -> comp) * option R :=
  match fuel with
  | O => (c, l)
  | S f =>
      let c' := em_step K n x c in
      let l' := log_likelihood K n c' x in
      if converged l l' then (c', l') else em_loop f K n x c' l'
  end.
Definition expectation_maximization (K n : nat) (x : nat -> vect) (c : nat -> comp) :=
  em_loop 100 K n x c (log_likelihood K n c x).
End linalg.

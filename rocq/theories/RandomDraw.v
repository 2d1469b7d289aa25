(** Model of src/utMath/Random: drawing scalars, vectors, matrices and rotations.
    The generator is an argument: a stream of numbers, each meant to lie in [0, 1).
    Random/Pose.h is not modelled: its call operator does not compile ("this.", line 130). *)
From Coq Require Import Reals.
From Verif Require Import Mat Quat.
Open Scope R_scope.

(** boost::uniform_real, called by distribute_uniform< float > and < double >, Random/Scalar.h:106-137 *)
Definition draw (u lo hi : R) : R := u * (hi - lo) + lo.

(** Random::Vector::Uniform, Random/Vector.h:144-171: the limits of each component and the call operator, which draws the components in order *)
Record limits : Type := Limits { lo_of : nat -> R; hi_of : nat -> R }.
(** one range for all components, 152-156 *)
Definition same_limits (a b : R) : limits := Limits (fun _ => Rmin a b) (fun _ => Rmax a b).
(** a range for each component, 158-162 *)
Definition own_limits (a b : nat -> R) : limits := Limits a b.
(** the call operator, 164-170 *)
Definition uniform_vector (l : limits) (gen : nat -> R) : nat -> R := fun n => draw (gen n) (lo_of l n) (hi_of l n).
(** Random::Matrix::Uniform, Random/Matrix.h:70-91: an m x n matrix, row by row *)
Definition uniform_matrix (n : nat) (a b : R) (gen : nat -> R) : nat -> nat -> R := fun i j => draw (gen (i * n + j)%nat) (Rmin a b) (Rmax a b).

(** Random::Vector::Normal, Random/Vector.h:67-131. [normal g mu sigma] is boost::normal_distribution.
    The constructor from a mean vector and a covariance matrix (110-118) initialises only m_mu: the standard deviations are
    what the memory [garbage] holds. *)
Definition normal_vector (normal : R -> R -> R -> R) (mu sigma : nat -> R) (gen : nat -> R) : nat -> R := fun n => normal (gen n) (mu n) (sigma n).
Definition normal_from_covariance (normal : R -> R -> R -> R) (mu : nat -> R) (covariance : nat -> nat -> R) (garbage : nat -> R) (gen : nat -> R) : nat -> R :=
  normal_vector normal mu garbage gen.

(** Random::Quaternion::Uniform, Random/Rotation.h:75-87; M_PI is pi *)
Definition random_rotation (x y z : R) : quat :=
  let rootx := sqrt x in let rootxinv := sqrt (1 - x) in let piz2 := 2 * z * PI in let piy2 := 2 * y * PI in
  Q (rootxinv * sin piy2) (rootxinv * cos piy2) (rootx * sin piz2) (rootx * cos piz2).

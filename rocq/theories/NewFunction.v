(** Model of the composable functions of utMath/Optimization/NewFunction: functions bound to
    parameters with operator<<, their evaluation and the Jacobian by multiplication from the left.
    Template arguments become data: a [func] is a class derived from MultiVariateFunction, an [fexp] a
    chain of Binders, a [pexp] what a Binder binds to.  Vectors and matrices are functions of their
    indices, [double] is a real number.  Evaluation order and the values cached in Binder::m_result are
    modelled; sizes are not checked (ublas assertions), divisions by zero are left to the contracts of
    the functions in NewFunctionProps.v. *)
From Coq Require Import Reals List Arith Bool.
Import ListNotations.
From Verif Require Import Mat Quat Jacobians.
Open Scope R_scope.

(** MultiVariateFunction, MultiVariateFunction.h:44-145: size(), evaluate, and multiplyJacobian1..3 as
    one function of the number of the parameter (from 0), the rows of the left-hand matrix, the
    left-hand matrix, the former content of the destination and the parameters *)
Record func := { f_size : nat; f_eval : list vect -> vect; f_mulj : nat -> nat -> mat -> mat -> list vect -> mat }.

(** Binder< CFunc, CParam >: [Base] is a function, [Bind] a Binder (Binder.h:46-54); Parameter and
    FixedParameterRef/Copy, a Binder as a parameter with its m_result (Binder.h:218) *)
Inductive fexp :=
| Base (f : func)
| Bind (g : fexp) (q : pexp)
with pexp :=
| Param (start size : nat)
| Fixed (size : nat) (v : vect)
| Nested (g : fexp) (result : vect).

(** size, Binder.h:56-57, Parameter.h:59-60, FixedParameterRef.h:48-49 *)
Fixpoint fsize (g : fexp) : nat := match g with Base f => f_size f | Bind g _ => fsize g end.
Definition psize (q : pexp) : nat :=
  match q with Param _ n => n | Fixed n _ => n | Nested g _ => fsize g end.
(** wantsJacobian, Binder.h:62, Parameter.h:66, FixedParameterRef.h:55, MultiVariateFunction.h:55 *)
Fixpoint fwants (g : fexp) : bool := match g with Base _ => false | Bind g q => fwants g || pwants q end
with pwants (q : pexp) : bool :=
  match q with Param _ _ => true | Fixed _ _ => false | Nested g _ => fwants g end.
(** value, Binder.h:64-66, Parameter.h:68-70, FixedParameterRef.h:57-59 *)
Definition value (q : pexp) (p : vect) : vect :=
  match q with Param start _ => fun i => p (start + i)%nat | Fixed _ v => v | Nested _ m => m end.

(** i_evaluate, Binder.h:72-93, MultiVariateFunction.h:60-81: the result and the function with its
    caches; i_evaluateInternal, Binder.h:107-111, Parameter.h:80-82 *)
Fixpoint i_evaluate (g : fexp) (p : vect) (args : list vect) : vect * fexp :=
  match g with
  | Base f => (f_eval f args, Base f)
  | Bind g q =>
    let q' := evaluate_internal q p in
    let (d, g') := i_evaluate g p (value q' p :: args) in (d, Bind g' q')
  end
with evaluate_internal (q : pexp) (p : vect) : pexp :=
  match q with
  | Param _ _ => q
  | Fixed _ _ => q
  | Nested g _ => let (d, g') := i_evaluate g p [] in Nested g' d
  end.
(** i_evaluateParameters, Binder.h:96-101 *)
Fixpoint evaluate_parameters (g : fexp) (p : vect) : fexp :=
  match g with
  | Base f => Base f
  | Bind g q => let q' := evaluate_internal q p in Bind (evaluate_parameters g p) q'
  end.

(** i_multiplyJacobian1..3 of a Binder passes its parameter on, Binder.h:164-183; of a function it is
    multiplyJacobianK, MultiVariateFunction.h:92-130 *)
Fixpoint multiply_k (k : nat) (g : fexp) (p : vect) (rows : nat) (l junk : mat) (args : list vect) : mat :=
  match g with
  | Base f => f_mulj f k rows l junk args
  | Bind g q => multiply_k (S k) g p rows l junk (value q p :: args)
  end.
(** Parameter::i_multiplyJacobian, Parameter.h:72-78: [dest = l] *)
Definition store (start size rows : nat) (l j : mat) : mat := fun r c =>
  if (start <=? c)%nat && (c <? start + size)%nat && (r <? rows)%nat then l r (c - start)%nat else j r c.
(** i_multiplyJacobian, Binder.h:117-162; with two parameters to the right the call to the left is
    commented out (154).  jResult is not initialised: [junk] *)
Fixpoint multiply (g : fexp) (p : vect) (rows : nat) (junk l j : mat) (args : list vect) : mat :=
  match g with
  | Base _ => j
  | Bind g q =>
    let j := if (length args <? 2)%nat then multiply g p rows junk l j (value q p :: args) else j in
    if pwants q then multiply_param q p rows junk (multiply_k 0 g p rows l junk (value q p :: args)) j else j
  end
with multiply_param (q : pexp) (p : vect) (rows : nat) (junk l j : mat) : mat :=
  match q with
  | Param start size => store start size rows l j
  | Fixed _ _ => j
  | Nested g _ => multiply g p rows junk l j []
  end.

(** Binder::evaluate, jacobian, evaluateWithJacobian, Binder.h:190-212 *)
Definition evaluate (g : fexp) (p : vect) : vect * fexp := i_evaluate g p [].
Definition jacobian (junk : mat) (g : fexp) (p : vect) (j : mat) : mat * fexp :=
  let g := evaluate_parameters g p in (multiply g p (fsize g) junk eye j [], g).
Definition evaluate_with_jacobian (junk : mat) (g : fexp) (p : vect) (j : mat) : vect * mat * fexp :=
  let (r, g) := i_evaluate g p [] in (r, multiply g p (fsize g) junk eye j [], g).

(** ** Functions *)
Definition arg (args : list vect) (k : nat) : vect := nth k args (fun _ => 0).
(** Addition< N >, Addition.h:42-65 *)
Definition addition (n : nat) : func :=
  {| f_size := n; f_eval a := vadd (arg a 0) (arg a 1); f_mulj k rows l junk a := l |}.
(** Subtraction< N >, Subtraction.h:43-66 *)
Definition subtraction (n : nat) : func :=
  {| f_size := n; f_eval a := vsub (arg a 0) (arg a 1);
     f_mulj k rows l junk a := match k with O => l | _ => mscale (-1) l end |}.
(** LinearTransformation< M, N >, LinearTransformation.h:44-70 *)
Definition linear_transformation (m n : nat) (A : mat) : func :=
  {| f_size := m; f_eval a := mvec n A (arg a 0); f_mulj k rows l junk a := mmul m l A |}.
(** Dehomogenization< N >, Dehomogenization.h:43-80, for N = n + 1 *)
Definition dehomogenization (n : nat) : func :=
  {| f_size := n;
     f_eval a := let f := 1 / arg a 0 n in fun i => arg a 0 i * f;
     f_mulj k rows l junk a :=
       let tz := 1 / arg a 0 n in let tz2 := tz * tz in
       fun r c => if (c =? n)%nat then - vdot n (l r) (arg a 0) * tz2 else tz * l r c |}.
(** VectorNorm< M >, VectorNorm.h:40-57: writes row 0 of the destination *)
Definition vector_norm (m : nat) : func :=
  {| f_size := 1;
     f_eval a := fun _ => sqrt (vdot m (arg a 0) (arg a 0));
     f_mulj k rows l junk a :=
       let f := l 0%nat 0%nat / sqrt (vdot m (arg a 0) (arg a 0)) in
       fun r c => if (r =? 0)%nat then f * arg a 0 c else junk r c |}.
(** StoreIntermediate< M >, StoreIntermediate.h:42-69, without the copy to the other vector *)
Definition store_intermediate (m : nat) : func :=
  {| f_size := m; f_eval a := arg a 0; f_mulj k rows l junk a := l |}.
(** LieRotation, NewFunction/LieRotation.h:44-191: the Jacobian of the rotation is the text of
    utAlgorithm/Function/LieRotation.h (Jacobians.v, [lie_jac]) *)
Definition lie_rotation : func :=
  {| f_size := 3; f_eval a := lie_rotate (arg a 1) (arg a 0);
     f_mulj k rows l junk a :=
       match k with
       | O => mmul 3 l (lie_jac (arg a 1) (arg a 0))
       | _ => mmul 3 l (qmat (from_log (vec_of (arg a 0) 0)))
       end |}.
(** CameraIntrinsicsMultiplication, utAlgorithm/NewFunction/CameraIntrinsicsMultiplication.h:43-95 *)
Definition camera_intrinsics : func :=
  {| f_size := 2;
     f_eval a := let intr := arg a 0 in let point := arg a 1 in
       vlist [ - (intr 0%nat * point 0%nat + intr 1%nat * point 1%nat + intr 2%nat);
               - (intr 3%nat * point 1%nat + intr 4%nat) ];
     f_mulj k rows l junk a := let intr := arg a 0 in let point := arg a 1 in fun r c =>
       match k with
       | O => vlist [ - point 0%nat * l r 0%nat; - point 1%nat * l r 0%nat; - l r 0%nat;
                      - point 1%nat * l r 1%nat; - l r 1%nat ] c
       | _ => vlist [ - intr 0%nat * l r 0%nat; - (intr 1%nat * l r 0%nat + intr 3%nat * l r 1%nat) ] c
       end |}.

(** ** A user: ObjectiveFunction, utAlgorithm/MultipleCameraPoseOptimization.h:40-105 *)
(** the expression of lines 78-91 for camera rotation, translation and intrinsics and a point *)
Definition camera_expression (R : mat) (t : vect) (K : mat) (x : vect) : fexp :=
  Bind (Base (dehomogenization 2))
    (Nested (Bind (Base (linear_transformation 3 3 K))
      (Nested (Bind (Bind (Base (addition 3)) (Fixed 3 t))
        (Nested (Bind (Base (linear_transformation 3 3 R))
          (Nested (Bind (Bind (Base (addition 3)) (Param 0 3))
            (Nested (Bind (Bind (Base lie_rotation) (Param 3 3)) (Fixed 3 x)) (fun _ => 0))) (fun _ => 0)))
          (fun _ => 0))) (fun _ => 0))) (fun _ => 0)).
(** one measurement: point, camera; the loop 73-92 writes rows 2i, 2i+1 of the result and of J *)
Definition write_rows (i : nat) (v : vect) (result : vect) : vect := fun k =>
  if (k / 2 =? i)%nat then v (k mod 2)%nat else result k.
Definition write_block (i : nat) (S : mat) (J : mat) : mat := fun k c =>
  if (k / 2 =? i)%nat && (c <? 6)%nat then S (k mod 2)%nat c else J k c.
Definition rows_of (i : nat) (J : mat) : mat := fun r c => J (i * 2 + r)%nat c.
Fixpoint objective_from (junk : mat) (points : nat -> vect) (Rs : nat -> mat) (ts : nat -> vect) (Ks : nat -> mat)
  (vis : list (nat * nat)) (i : nat) (input : vect) (result : vect) (J : mat) : vect * mat :=
  match vis with
  | [] => (result, J)
  | (pt, cam) :: vis =>
    let (rS, _) := evaluate_with_jacobian junk (camera_expression (Rs cam) (ts cam) (Ks cam) (points pt)) input (rows_of i J) in
    objective_from junk points Rs ts Ks vis (S i) input (write_rows i (fst rS) result) (write_block i (snd rS) J)
  end.
Definition objective junk points Rs ts Ks vis input result J : vect * mat :=
  objective_from junk points Rs ts Ks vis 0 input result J.

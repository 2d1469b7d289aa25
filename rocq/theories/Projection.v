(** Model of utAlgorithm/Projection.cpp (decomposition, OpenGL matrices, image origin).  The
    DLT of the same file is in Dlt.v.  Real arithmetic; 3x4 and 4x4 matrices are
    function matrices. *)
From Coq Require Import Reals Bool Arith List.
Import ListNotations.
From Verif Require Import Mat Quat LinAlg.
Open Scope R_scope.

(** ** [decomposeProjectionImpl], 146-206 *)
(** LAPACK's gerqf followed by orgrq on the left 3x3 block: the first component is the block
    after gerqf (153-159), of which only the upper triangle is used (162-163), the second the
    orthogonal factor (166-167). *)
Definition rq_oracle := mat -> mat * mat.
(** 163 *)
Definition upper3 (a : mat) : mat := fun i j => if (j <? i)%nat then 0 else a i j.
(** 172-190 *)
Definition sign_scale (k r : mat) : vect :=
  let s := if Rlt_dec (det3 r) 0 then (-1, -1, -1) else (1, 1, 1) in
  let '(s0, s1, s2) := s in
  let '(s0, s1) := if Rlt_dec (k 0%nat 0%nat * s0) 0 then (- s0, - s1) else (s0, s1) in
  let '(s2, s1) := if Rlt_dec 0 (k 2%nat 2%nat * s2) then (- s2, - s1) else (s2, s1) in
  vlist [s0; s1; s2].
(** 194 and 195 *)
Definition scale_cols (s : vect) (k : mat) : mat := fun i j => k i j * s j.
Definition scale_rows (s : vect) (r : mat) : mat := fun i j => s i * r i j.
(** trsm( 'L', 'U', 'N', 'N', 1, k, t ), 204; [None]: division by zero *)
Definition solve_upper (k : mat) (p : vect) : option vect :=
  if Req_EM_T (k 2%nat 2%nat) 0 then None else
  if Req_EM_T (k 1%nat 1%nat) 0 then None else
  if Req_EM_T (k 0%nat 0%nat) 0 then None else
  let t2 := p 2%nat / k 2%nat 2%nat in
  let t1 := (p 1%nat - k 1%nat 2%nat * t2) / k 1%nat 1%nat in
  let t0 := (p 0%nat - k 0%nat 1%nat * t1 - k 0%nat 2%nat * t2) / k 0%nat 0%nat in
  Some (vlist [t0; t1; t2]).

Definition decompose (rq : rq_oracle) (p_ : mat) : option (mat * mat * vect) :=
  let p := if Rlt_dec (p_ 2%nat 3%nat) 0 then mscale (-1) p_ else p_ in
  let '(a, q) := rq p in
  let k := upper3 a in
  let s := sign_scale k q in
  let k' := scale_cols s k in
  let r := scale_rows s q in
  if Req_EM_T (k' 2%nat 2%nat) 0 then None else
  let k'' := mscale (-1 / k' 2%nat 2%nat) k' in
  match solve_upper k'' (fun i => p i 3%nat) with
  | Some t => Some (k'', r, t)
  | None => None
  end.

(** ** [projectionMatrixToOpenGLimp], 225-262; [None]: an empty rectangle or depth range divides by zero *)
Definition gl_rows (n f : R) (m : mat) : mat := fun i j =>
  let norm := sqrt (m 2%nat 0%nat * m 2%nat 0%nat + m 2%nat 1%nat * m 2%nat 1%nat + m 2%nat 2%nat * m 2%nat 2%nat) in
  match i with
  | 0%nat => m 0%nat j
  | 1%nat => m 1%nat j
  | 2%nat => m 2%nat j * (- f - n) + (if (j =? 3)%nat then f * n * norm else 0)
  | _ => m 2%nat j
  end.
Definition ortho (l r b t n f : R) : mat := mlist [
  [2 / (r - l); 0; 0; (r + l) / (l - r)];
  [0; 2 / (t - b); 0; (t + b) / (b - t)];
  [0; 0; 2 / (n - f); (f + n) / (n - f)];
  [0; 0; 0; 1]].
Definition gl_projection (l r b t n f : R) (m : mat) : option mat :=
  if Req_EM_T l r then None else if Req_EM_T b t then None else if Req_EM_T n f then None
  else Some (mmul 4 (ortho l r b t n f) (gl_rows n f m)).
(** the 3x3 overload, 274-284 *)
Definition gl_projection33 (l r b t n f : R) (m : mat) : option mat :=
  gl_projection l r b t n f (fun i j => if (j =? 3)%nat then 0 else m i j).

(** ** [offAxisProjectionMatrix], 298-349; [None]: division by zero *)
Definition screen_x (ll lr : vect) (sw : R) : vect := fun i => (lr i - ll i) / sw.
Definition off_axis (e ll ul lr : vect) (n f sw sh : R) : option mat :=
  if Req_EM_T sw 0 then None else if Req_EM_T sh 0 then None else
  let xs := screen_x ll lr sw in
  let ys := screen_x ll ul sh in
  let zs := cross_product xs ys in
  let es := vsub e ll in
  let dist := vdot 3 es zs in
  if Req_EM_T dist 0 then None else
  let L := vdot 3 es xs in
  let Rr := sw - L in
  let Bu := vdot 3 es ys in
  let T := sh - Bu in
  let left := - L * n / dist in
  let right := Rr * n / dist in
  let bottom := - Bu * n / dist in
  let top := T * n / dist in
  if Req_EM_T right left then None else if Req_EM_T top bottom then None else if Req_EM_T f n then None else
  let proj := mlist [
    [2 * n / (right - left); 0; (right + left) / (right - left); 0];
    [0; 2 * n / (top - bottom); (top + bottom) / (top - bottom); 0];
    [0; 0; - ((f + n) / (f - n)); - (2 * f * n / (f - n))];
    [0; 0; -1; 0]] in
  let translation := mlist [
    [1; 0; 0; - e 0%nat]; [0; 1; 0; - e 1%nat]; [0; 0; 1; - e 2%nat]; [0; 0; 0; 1]] in
  let m := mlist [
    [xs 0%nat; ys 0%nat; zs 0%nat; 0]; [xs 1%nat; ys 1%nat; zs 1%nat; 0];
    [xs 2%nat; ys 2%nat; zs 2%nat; 0]; [0; 0; 0; 1]] in
  Some (mmul 4 proj (mmul 4 (tr m) translation)).

(** ** [correctOriginImpl], 352-360; the height is a small integer, represented exactly *)
Definition correct_origin (k : mat) (origin : bool) (height : R) : mat :=
  if origin then k
  else fun i j =>
    if (i =? 1)%nat && (j =? 1)%nat then k 1%nat 1%nat * -1
    else if (i =? 1)%nat && (j =? 2)%nat then - k 1%nat 2%nat + k 2%nat 2%nat * (height - 1)
    else k i j.

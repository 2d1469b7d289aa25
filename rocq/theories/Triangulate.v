(** Model of utAlgorithm/3DPointReconstruction.cpp and Function/SinglePointMultiProjection.h: the
    distance to the epipolar line, triangulation from two and from several views, and the
    reconstruction of unordered points.  Real arithmetic.  lapack::gesvd and the assignment solver
    Math::Graph::Munkres (modelled in Munkres.v) are function arguments.  [None] stands for a
    division by zero, whose result (inf or nan) the code does not check. *)
From Coq Require Import Reals Bool Arith List.
Import ListNotations.
From Verif Require Import Mat Quat LinAlg Dlt.
Open Scope R_scope.

(** [pointToPointDistImp], 49-57 *)
Definition epi_dist (from to : vect) (F : mat) : option R :=
  let l := mvec 3 F from in
  let term := l 0%nat * to 0%nat + l 1%nat * to 1%nat + l 2%nat in
  let den := l 0%nat * l 0%nat + l 1%nat * l 1%nat in
  if Req_EM_T den 0 then None else Some (term * term / den).
(** the overloads for 2-vectors, 59-73; those for 3-vectors, 75-83, are [epi_dist] itself *)
Definition point_to_point_dist (from to : vect) (F : mat) : option R := 
  epi_dist (vlist [from 0%nat; from 1%nat; 1]) (vlist [to 0%nat; to 1%nat; 1]) F.

(** the row x(c) * row( P, 2 ) - row( P, c ), 91-94 *)
Definition view_row (P : mat) (x : vect) (c : nat) : vect := fun j => x c * P 2%nat j - P c j.
(** division of a homogeneous vector by its last entry *)
Definition dehom (v : vect) : option vec3 :=
  if Req_EM_T (v 3%nat) 0 then None else Some (V3 (v 0%nat / v 3%nat) (v 1%nat / v 3%nat) (v 2%nat / v 3%nat)).
(** [get3DPositionImpl] for two views, 87-103; the return value of gesvd is ignored *)
Definition two_view_system (P1 P2 : mat) (x x' : vect) : list vect :=
  [view_row P1 x 0; view_row P1 x 1; view_row P2 x' 0; view_row P2 x' 1]%nat.
Definition get3d_two (svd : gesvd_vt) (P1 P2 : mat) (x x' : vect) : option vec3 :=
  let vt := svd 4%nat (rows_mat (two_view_system P1 P2 x x')) in dehom (fun j => vt 3%nat j).

Inductive outcome := Thrown | Undefined | Found (p : vec3).
Definition of_option (o : option vec3) : outcome := match o with Some p => Found p | None => Undefined end.
(** the rows of prod( skew, P ), 132-141 *)
Definition skew_point (x : vect) : mat :=
  mlist [[0; 1; - x 1%nat]; [-1; 0; x 0%nat]; [x 1%nat; - x 0%nat; 0]].
Definition view_block (P : mat) (x : vect) : list vect :=
  let b := mmul 3 (skew_point x) P in [b 0%nat; b 1%nat; b 2%nat].
Definition multi_view_system (Ps : list mat) (xs : list vect) : list vect :=
  flat_map (fun px => view_block (fst px) (snd px)) (combine Ps xs).
(** the direction check, 151-160 *)
Definition behind (P : mat) (v : vect) : bool :=
  if Rlt_dec (P 2%nat 0%nat * v 0%nat + P 2%nat 1%nat * v 1%nat + P 2%nat 2%nat * v 2%nat + P 2%nat 3%nat * v 3%nat) 0 then true else false.
Definition oriented (Ps : list mat) (v : vect) : vect := if existsb (fun P => behind P v) Ps then fun j => - v j else v.
(** [get3DPositionImpl] for several views, 115-163.  [svd]: [None] when gesvd reports a failure.
    [combine] is faithful because the caller has compared the sizes. *)
Definition get3d_views (svd : nat -> mat -> option mat) (Ps : list mat) (xs : list vect) : outcome :=
  if (length Ps <? 2)%nat then Thrown
  else let rows := multi_view_system Ps xs in
    match svd (length rows) (rows_mat rows) with
    | None => Thrown
    | Some vt => of_option (dehom (oriented Ps (fun j => vt 3%nat j)))
    end.
(** [get3DPosition], 194-213; [refine] stands for optimize3DPositionImpl, 165-192 *)
Definition get3d (svd : nat -> mat -> option mat) (refine : list mat -> list vect -> vec3 -> outcome) (Ps : list mat) (xs : list vect) (flag : nat) : outcome :=
  if negb (length Ps =? length xs)%nat then Thrown
  else match get3d_views svd Ps xs with
       | Found p => if (0 <? flag)%nat then refine Ps xs p else Found p
       | o => o
       end.

(** [reconstruct3DPointsImpl], 229-264.  [solver]: m.solve() and m.getRowMatchList() for a matrix of
    the given size; [None]: it does not return.  The outer [None]: undefined costs, no return of the
    solver, or matchList.at( i ) out of range *)
Definition costs (p1 p2 : list vect) (F : mat) (i j : nat) : option R :=
  point_to_point_dist (nth i p1 (fun _ => 0)) (nth j p2 (fun _ => 0)) F.
Definition costs_defined (p1 p2 : list vect) (F : mat) : bool :=
  forallb (fun i => forallb (fun j => match costs p1 p2 F i j with Some _ => true | None => false end)
    (seq 0 (length p2))) (seq 0 (length p1)).
Definition cost_of (p1 p2 : list vect) (F : mat) (i j : nat) : R := match costs p1 p2 F i j with Some d => d | None => 0 end.
Definition reconstruct (svd : gesvd_vt) (solver : nat -> nat -> (nat -> nat -> R) -> option (list nat))
    (p1 p2 : list vect) (P1 P2 F : mat) : option (list (option vec3)) :=
  if costs_defined p1 p2 F then
    match solver (length p1) (length p2) (cost_of p1 p2 F) with
    | None => None
    | Some matches =>
      if (length matches <? length p1)%nat then None
      else Some (flat_map (fun i => let j := nth i matches O in
        if (j <? length p2)%nat then [get3d_two svd P1 P2 (nth i p1 (fun _ => 0)) (nth j p2 (fun _ => 0))] else [])
        (seq 0 (length p1)))
    end
  else None.

(** ** SinglePointMultiProjection.h *)
(** [evaluate], 85-93: entries 2i and 2i+1; [None]: the point is in the focal plane of a view *)
Definition multi_eval (Ps : list mat) (v : vect) : option vect :=
  if forallb (fun P => match pp34_3 P v with Some _ => true | None => false end) Ps then
    Some (fun k => match pp34_3 (nth (k / 2) Ps (fun _ _ => 0)) v with Some p => p (k mod 2)%nat | None => 0 end)
  else None.
(** [jacobian], 112-136 *)
Definition multi_jacobian (Ps : list mat) (v : vect) : mat := fun k j =>
  let P := nth (k / 2) Ps (fun _ _ => 0) in
  let point := tp34_3 P v in
  let d := point 2%nat in
  let q := 1 / (d * d) in
  P (k mod 2)%nat j / d - P 2%nat j * (q * point (k mod 2)%nat).

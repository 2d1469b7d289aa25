(** Model of squareHomographyImpl, utAlgorithm/Homography.cpp:122-199.  Real arithmetic; lapack::gesvd is a
    function argument. *)
From Coq Require Import Reals List Arith.
Import ListNotations.
From Verif Require Import Mat LinAlg Dlt.
Open Scope R_scope.

(** 129-135 *)
Definition corner (cs : list vect) (i : nat) : vect := nth i cs (fun _ => 0).
Definition corner_mean (cs : list vect) : vect := fun k => (0 + corner cs 0 k + corner cs 1 k + corner cs 2 k + corner cs 3 k) / 4.
Definition centred (cs : list vect) (i : nat) : vect := fun k => corner cs i k - corner_mean cs k.
(** 138-151 *)
Definition square_system (c : nat -> vect) : mat :=
  let half k := let c0 := c 0%nat k in let c1 := c 1%nat k in let c2 := c 2%nat k in let c3 := c 3%nat k in
    let a := c0 - c1 - c2 + c3 in let b := - c0 - c1 + c2 + c3 in
    [[a; b; -2 * (c0 + c2)]; [- a; - b; -2 * (c1 + c3)]] in
  mlist (half 0%nat ++ half 1%nat).
(** 160-187 *)
Definition square_rows (c : nat -> vect) (v : vect) : mat :=
  let row k := let c0 := c 0%nat k in let c1 := c 1%nat k in let c2 := c 2%nat k in let c3 := c 3%nat k in
    [((c0 + c1 + c2 + c3) * v 0%nat + (- c0 + c1 - c2 + c3) * v 1%nat + (- c0 - c1 + c2 + c3) * v 2%nat) / 2;
     ((- c0 + c1 - c2 + c3) * v 0%nat + (c0 + c1 + c2 + c3) * v 1%nat + (c0 - c1 - c2 + c3) * v 2%nat) / 2;
     ((c0 + c1 - c2 - c3) * v 0%nat + (- c0 + c1 + c2 - c3) * v 1%nat) / -4] in
  mlist [row 0%nat; row 1%nat; [v 0%nat * 2; v 1%nat * 2; v 2%nat]].
(** 190-196 *)
Definition shift_rows (m : vect) (H : mat) : mat := fun i j => if (i <? 2)%nat then H i j + H 2%nat j * m i else H i j.
(** [None]: fewer than four corners, read beyond the end; corners after the fourth are not used.  The
    assertion, 126, demands exactly four. *)
Definition square_homography (svd : gesvd_vt) (cs : list vect) : option mat :=
  if (length cs <? 4)%nat then None
  else let vt := svd 4%nat (square_system (centred cs)) in
    Some (shift_rows (corner_mean cs) (square_rows (centred cs) (fun j => vt 2%nat j))).

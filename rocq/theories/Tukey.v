(** Model of utMath/Optimization/TukeyWeightFunction.h over the reals. *)
From Coq Require Import Reals Arith Bool.
From Verif Require Import Mat.
Open Scope R_scope.

(** weight of one measurement with squared error [e], TukeyWeightFunction.h:65-74; None is 0/0 *)
Definition tukey (c e : R) : option R :=
  if Req_EM_T e 0 then Some 0
  else
    let ro := if Rlt_dec (c * c) e then c * c / 6
              else c ^ 2 / 6 * (1 - (1 - e / (c * c)) ^ 3) in
    if Req_EM_T ro 0 then None else Some (sqrt ro / ro).

(** squared error of the measurement starting at row [i], 62-63 *)
Definition block_error (rows : nat) (err : vect) (i : nat) : R :=
  sum rows (fun j => err (i + j)%nat * err (i + j)%nat).

Inductive outcome := Weights (w : nat -> option R) | OutOfRange | Running.

(** computeWeights, TukeyWeightFunction.h:55-80; [fuel] bounds the passes of the outer loop,
    [w] is the content of weightVector *)
Fixpoint compute_weights (fuel rows size : nat) (c : R) (err : vect) (i : nat) (w : nat -> option R) : outcome :=
  if (i <? size)%nat then
    match fuel with
    | O => Running
    | S fuel =>
      if (i + rows <=? size)%nat then
        compute_weights fuel rows size c err (i + rows)
          (fun k => if (i <=? k)%nat && (k <? i + rows)%nat then tukey c (block_error rows err i) else w k)
      else OutOfRange
    end
  else Weights w.

(** Model of utMath/Stochastic/k_means.h.  Vectors have [N] entries; a mean that was
    divided by zero (NaN in every entry) is [None], and so is every distance to it;
    comparisons with NaN are false. *)
From Coq Require Import Reals List Arith.
Import ListNotations.
From Verif Require Import Mat.
Open Scope R_scope.

(** [SquaredDistance] and [Distance], VectorFunctions.h:89-164 *)
Definition sqdist (N : nat) (x y : vect) : R := vdot N (vsub x y) (vsub x y).
Definition distance (N : nat) (x y : vect) : R := sqrt (sqdist N x y).

Definition mean := option vect.
Definition lt_nan (a b : option R) : bool :=
  match a, b with Some a, Some b => if Rlt_dec a b then true else false | _, _ => false end.
Definition add_nan (a b : option R) : option R :=
  match a, b with Some a, Some b => Some (a + b) | _, _ => None end.

Section kmeans.
Variable dist : vect -> vect -> R.

Definition dist_to (v : vect) (m : mean) : option R :=
  match m with Some c => Some (dist v c) | None => None end.
Definition dist_means (a b : mean) : option R :=
  match a, b with Some x, Some y => Some (dist x y) | _, _ => None end.

(** [assign_indices], k_means.h:62-110: the loop over the remaining means, and the call;
    dereferencing begin() of an empty range is excluded in [k_means] below *)
Fixpoint assign_loop (v : vect) (rest : list mean) (k_now k : nat) (d : option R) : nat :=
  match rest with
  | [] => k
  | m :: r =>
      let d_new := dist_to v m in
      if lt_nan d_new d then assign_loop v r (S k_now) k_now d_new
      else assign_loop v r (S k_now) k d
  end.
Definition assign (means : list mean) (v : vect) : nat :=
  match means with
  | [] => 0%nat
  | m :: r => assign_loop v r 1 0 (dist_to v m)
  end.

(** [k_means_accumulate] with [assign_to_mean], k_means.h:113-138 *)
Definition accumulate (pts : list vect) (labels : list nat) : nat -> vect :=
  fold_left (fun acc p => fun k => if Nat.eqb k (snd p) then vadd (acc k) (fst p) else acc k)
    (combine pts labels) (fun _ _ => 0).

(** k_means.h:312-321 *)
Definition new_means (n_cluster : nat) (pts : list vect) (labels : list nat) : list mean :=
  map (fun k => match count_occ Nat.eq_dec labels k with
                | O => None
                | S _ => Some (fun i => accumulate pts labels k i / INR (count_occ Nat.eq_dec labels k))
                end) (seq 0 n_cluster).

(** k_means.h:324-327 *)
Definition diff_error (n_cluster : nat) (old new : list mean) : option R :=
  match fold_left add_nan (map (fun p => dist_means (fst p) (snd p)) (combine old new)) (Some 0) with
  | Some s => Some (s / INR n_cluster)
  | None => None
  end.

(** k_means.h:291 *)
Definition epsilon : R := (1 / 100) * (1 / 100).

(** the refinement loop, k_means.h:307-337 *)
Fixpoint rounds (fuel : nat) (pts : list vect) (means : list mean) (labels : list nat) (e : option R)
  : list mean * list nat * option R :=
  match fuel with
  | O => (means, labels, e)
  | S f =>
      let means' := new_means (length means) pts labels in
      let e' := diff_error (length means) means means' in
      let labels' := map (assign means') pts in
      if lt_nan e' (Some epsilon) then (means', labels', e')
      else rounds f pts means' labels' e'
  end.

(** [k_means], k_means.h:271-344: means, labels and the returned error; no means at all
    is undefined behaviour.  The assertion of line 298 is not modelled (NDEBUG). *)
Definition k_means (pts : list vect) (means : list vect) : option (list mean * list nat * option R) :=
  match means with
  | [] => None
  | _ => let ms := map Some means in
         Some (rounds 100 pts ms (map (assign ms) pts) None)
  end.

(** [copy_greedy], k_means.h:167-174; advancing past the end is undefined *)
Definition copy_greedy (pts : list vect) (n_cluster : nat) : option (list vect) :=
  if Nat.leb n_cluster (length pts) then Some (firstn n_cluster pts) else None.

(** the choice of the next index, k_means.h:232-236: the last element is not tested *)
Fixpoint pick (d : list R) (r : R) (index : nat) : nat :=
  match d with
  | [] => index
  | [_] => index
  | x :: d' => if Rle_dec r x then index else pick d' (r - x) (S index)
  end.

Definition lsumR (l : list R) : R := fold_left Rplus l 0.
Definition dists (pts : list vect) (c : vect) : list R := map (fun p => dist p c) pts.

(** [copy_probability], k_means.h:204-259; [i0] is the first random index (in [0, n-1]),
    [draw k s] the random number of round k in [0, s] *)
Fixpoint seed_loop (draw : nat -> R -> R) (pts : list vect) (todo k : nat) (ds : list R) (sel : list vect)
  : nat * list vect :=
  match todo with
  | O => (k, sel)
  | S t =>
      if Rle_dec (lsumR ds) 0 then (k, sel)
      else
        let index := pick ds (draw k (lsumR ds)) 0 in
        let c := nth index pts (fun _ => 0) in
        let ds' := map (fun p => Rmin (fst p) (snd p)) (combine ds (dists pts c)) in
        seed_loop draw pts t (S k) ds' (sel ++ [c])
  end.
Definition copy_probability (i0 : nat) (draw : nat -> R -> R) (pts : list vect) (n_cluster : nat)
  : option (nat * list vect) :=
  match pts with
  | [] => None
  | _ => let c := nth i0 pts (fun _ => 0) in
         let r := seed_loop draw pts (n_cluster - 1) 1 (dists pts c) [c] in
         (* the loop left normally: the function returns n_cluster *)
         Some (if Nat.eqb n_cluster 0 then (0%nat, snd r) else r)
  end.
End kmeans.

(** the overload that chooses the start values, k_means.h:381-403 *)
Definition k_means_seeded (N : nat) (i0 : nat) (draw : nat -> R -> R) (pts : list vect) (n_cluster : nat) :=
  match copy_probability (distance N) i0 draw pts n_cluster with
  | None => None
  | Some (_, means) => k_means (sqdist N) pts means
  end.

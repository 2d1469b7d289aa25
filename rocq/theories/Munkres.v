(** Model of utMath/Graph/Munkres.h with exact (integer) costs.
    Matrices are functions of row and column; [n] is m_max. *)
From Coq Require Import ZArith List Bool Arith.
Import ListNotations.
Open Scope Z_scope.

(** Z_NORMAL, Z_STAR, Z_PRIME *)
Inductive mark := Normal | Star | Prime.
Definition is_star (m : mark) : bool := match m with Star => true | _ => false end.
Definition is_prime (m : mark) : bool := match m with Prime => true | _ => false end.

Definition cost := nat -> nat -> Z.
Definition marks := nat -> nat -> mark.

(** members of the class, Munkres.h:114-119; [phase] is the local variable [step] of [solve] *)
Record state := St {
  matrix : cost; mask : marks; row_mask : nat -> bool; col_mask : nat -> bool;
  saverow : nat; savecol : nat; phase : nat }.

Definition upd2 {A} (m : nat -> nat -> A) (r c : nat) (v : A) : nat -> nat -> A :=
  fun i j => if (i =? r)%nat && (j =? c)%nat then v else m i j.
Definition upd1 {A} (m : nat -> A) (r : nat) (v : A) : nat -> A :=
  fun i => if (i =? r)%nat then v else m i.

(** all (row, col) in the order of the nested loops *)
Definition cells (n : nat) : list (nat * nat) := list_prod (seq 0 n) (seq 0 n).

(** find_uncovered_in_matrix, Munkres.h:140-149.  The loop variables shadow the reference
    parameters, so saverow and savecol are never written. *)
Definition find_uncovered (n : nat) (s : state) (item : Z) : bool :=
  existsb (fun row => negb (row_mask s row) &&
    existsb (fun col => negb (col_mask s col) && (matrix s row col =? item)) (seq 0 n)) (seq 0 n).

(** step1, Munkres.h:162-187 *)
Definition step1_cell (n : nat) (m : cost) (k : marks) (rc : nat * nat) : marks :=
  let (row, col) := rc in
  if m row col =? 0 then
    let isstarred := existsb (fun nrow => is_star (k nrow col)) (seq 0 n) ||
                     existsb (fun ncol => is_star (k row ncol)) (seq 0 n) in
    if isstarred then k else upd2 k row col Star
  else k.
Definition step1_mask (n : nat) (m : cost) (k : marks) : marks :=
  fold_left (step1_cell n m) (cells n) k.
Definition step1 (n : nat) (s : state) : state :=
  St (matrix s) (step1_mask n (matrix s) (mask s)) (row_mask s) (col_mask s) (saverow s) (savecol s) 2.

(** step2, Munkres.h:190-204 *)
Definition star_cells (n : nat) (k : marks) : list (nat * nat) :=
  filter (fun rc => is_star (k (fst rc) (snd rc))) (cells n).
Definition step2 (n : nat) (s : state) : state :=
  let stars := star_cells n (mask s) in
  let cm := fold_left (fun c rc => upd1 c (snd rc) true) stars (col_mask s) in
  St (matrix s) (mask s) (row_mask s) cm (saverow s) (savecol s)
     (if (n <=? length stars)%nat then 0 else 3).

(** step3, Munkres.h:207-229 *)
Definition step3 (n : nat) (s : state) : state :=
  if find_uncovered n s 0 then
    let k := upd2 (mask s) (saverow s) (savecol s) Prime in
    match find (fun ncol => is_star (k (saverow s) ncol)) (seq 0 n) with
    | Some ncol => St (matrix s) k (upd1 (row_mask s) (saverow s) true)
                      (upd1 (col_mask s) ncol false) (saverow s) (savecol s) 3
    | None => St (matrix s) k (row_mask s) (col_mask s) (saverow s) (savecol s) 4
    end
  else St (matrix s) (mask s) (row_mask s) (col_mask s) (saverow s) (savecol s) 5.

(** step4, Munkres.h:232-314.  [pair_in_list] is a membership test; the do-while loop adds a
    new pair in every round, so it is run with fuel and reports [None] if that is not enough. *)
Definition pair_in_list (p : nat * nat) (l : list (nat * nat)) : bool :=
  existsb (fun q => (fst p =? fst q)%nat && (snd p =? snd q)%nat) l.
Fixpoint step4_path (fuel : nat) (n : nat) (k : marks) (col : nat) (sq : list (nat * nat))
  : option (list (nat * nat)) :=
  match fuel with
  | O => None
  | S fuel =>
    match find (fun row => is_star (k row col) && negb (pair_in_list (row, col) sq)) (seq 0 n) with
    | None => Some sq
    | Some row =>
      let sq := sq ++ [(row, col)] in
      match find (fun c => is_prime (k row c) && negb (pair_in_list (row, c) sq)) (seq 0 n) with
      | None => Some sq
      | Some c => step4_path fuel n k c (sq ++ [(row, c)])
      end
    end
  end.
Definition step4_flip (k : marks) (rc : nat * nat) : marks :=
  let (r, c) := rc in
  let k := if is_star (k r c) then upd2 k r c Normal else k in
  if is_prime (k r c) then upd2 k r c Star else k.
Definition erase_primes (k : marks) : marks := fun r c => if is_prime (k r c) then Normal else k r c.
Definition step4 (n : nat) (s : state) : option state :=
  match step4_path (S (n * n)) n (mask s) (savecol s) [(saverow s, savecol s)] with
  | None => None
  | Some sq =>
    Some (St (matrix s) (erase_primes (fold_left step4_flip sq (mask s)))
             (fun _ => false) (fun _ => false) (saverow s) (savecol s) 2)
  end.

(** step5, Munkres.h:317-354 *)
Definition step5_min (n : nat) (s : state) : Z :=
  fold_left (fun (h : Z) (rc : nat * nat) =>
    let (r, c) := rc in
    if negb (row_mask s r) && negb (col_mask s c) then
      if ((matrix s r c <? h) && negb (matrix s r c =? 0)) || (h =? 0) then matrix s r c else h
    else h) (cells n) 0.
Definition step5 (n : nat) (s : state) : state :=
  let h := step5_min n s in
  St (fun r c => matrix s r c + (if row_mask s r then h else 0) - (if col_mask s c then 0 else h))
     (mask s) (row_mask s) (col_mask s) (saverow s) (savecol s) 3.

(** body of the loop of [solve], Munkres.h:427-450; phase 0 leaves the loop *)
Definition step (n : nat) (s : state) : option state :=
  match phase s with
  | 1%nat => Some (step1 n s)
  | 2%nat => Some (step2 n s)
  | 3%nat => Some (step3 n s)
  | 4%nat => step4 n s
  | 5%nat => Some (step5 n s)
  | _ => Some s
  end.
Fixpoint run (k : nat) (n : nat) (s : state) : option state :=
  match k with
  | O => Some s
  | S k => match step n s with Some s => run k n s | None => None end
  end.

(** setMatrix for a square matrix, Munkres.h:357-410 *)
Definition vmax (n : nat) (c : cost) : Z :=
  fold_left (fun v rc => if v <? c (fst rc) (snd rc) then c (fst rc) (snd rc) else v) (cells n) 0.
Definition row_min (n : nat) (c : cost) (row : nat) : Z :=
  fold_left (fun m col => if c row col <? m then c row col else m) (seq 0 n) (vmax n c).
Definition set_matrix (n : nat) (c : cost) : cost := fun i j => c i j - row_min n c i.

(** constructor and start of [solve], Munkres.h:132-137, 413-425 *)
Definition start (n : nat) (c : cost) : state :=
  St (set_matrix n c) (fun _ _ => Normal) (fun _ => false) (fun _ => false) 0 0 1.

(** [solve] ends with state [s] *)
Definition solved (n : nat) (c : cost) (s : state) : Prop :=
  exists k, run k n (start n c) = Some s /\ phase s = 0%nat.

(** getRowMatchList / getColMatchList, Munkres.h:460-507 *)
Definition row_match_list (n : nat) (k : marks) : list nat :=
  flat_map (fun row => match find (fun col => is_star (k row col)) (seq 0 n) with Some c => [c] | None => [] end)
           (seq 0 n).
Definition col_match_list (n : nat) (k : marks) : list nat :=
  flat_map (fun col => match find (fun row => is_star (k row col)) (seq 0 n) with Some r => [r] | None => [] end)
           (seq 0 n).

(** the padding of a non-square matrix, Munkres.h:375-388.  ublas ranges are given by start
    and stop; an assignment needs equal sizes.  [None] is a violated precondition. *)
Definition range_size (start stop : nat) : option nat :=
  if (start <=? stop)%nat then Some (stop - start)%nat else None.
Definition pad_assignment (size1 size2 : nat) : option unit :=
  if (size1 =? size2)%nat then Some tt
  else if (size2 <? size1)%nat then
    match range_size size2 (size1 - size2) with
    | Some w => if (w =? size1 - size2)%nat then Some tt else None
    | None => None
    end
  else
    match range_size size1 (size2 - size1) with
    | Some h => if (h =? size2 - size1)%nat then Some tt else None
    | None => None
    end.

(** ** Specification *)
(** an assignment is the list of columns matched to rows 0, 1, ... *)
Definition assignment (n : nat) (p : list nat) : Prop :=
  length p = n /\ NoDup p /\ forall j, In j p -> (j < n)%nat.
Fixpoint total (c : cost) (i : nat) (p : list nat) : Z :=
  match p with [] => 0 | j :: p => c i j + total c (S i) p end.
Definition minimal (n : nat) (c : cost) (p : list nat) : Prop :=
  assignment n p /\ forall q, assignment n q -> total c 0 p <= total c 0 q.
(** the greedy selection of zeros of the row-reduced matrix is complete *)
Definition greedy_complete (n : nat) (c : cost) : Prop :=
  length (star_cells n (step1_mask n (set_matrix n c) (fun _ _ => Normal))) = n.

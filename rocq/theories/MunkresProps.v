(** C32: the assignment solver. *)
From Coq Require Import ZArith List Bool Arith Lia.
Import ListNotations.
From Verif Require Import Munkres MunkresProofs.
Open Scope Z_scope.

Definition of_rows (l : list (list Z)) : cost := fun i j => nth j (nth i l []) 0.

(** whenever [solve] returns, the match list is a cost-minimal assignment *)
Theorem munkres_result_optimal_partial : forall n c s, solved n c s ->
  minimal n c (row_match_list n (mask s)).
Proof.
  intros n c s H. destruct (solved_greedy n c s H) as [HG ->].
  apply good_optimal; [apply greedy_good|exact HG].
Qed.
Print Assumptions munkres_result_optimal_partial.

(** a 3x3 problem on which it does return *)
Example munkres_solved_case : exists s, solved 3 (of_rows [[4;1;3];[0;2;5];[3;2;1]]) s.
Proof. eexists. exists 2%nat. split; reflexivity. Qed.
Example munkres_solved_case_result :
  option_map (fun s => row_match_list 3 (mask s)) (run 2 3 (start 3 (of_rows [[4;1;3];[0;2;5];[3;2;1]]))) = Some [1;0;2]%nat.
Proof. reflexivity. Qed.

(** the two match lists are inverse to each other *)
Theorem munkres_match_lists_inverse : forall n c s, solved n c s ->
  length (col_match_list n (mask s)) = n /\
  forall r k, (r < n)%nat -> (k < n)%nat ->
    nth r (row_match_list n (mask s)) n = k <-> nth k (col_match_list n (mask s)) n = r.
Proof. exact match_lists_inverse. Qed.
Print Assumptions munkres_match_lists_inverse.

(** it returns exactly when the greedy selection of zeros after row reduction is complete *)
Theorem munkres_terminates_iff : forall n c, (exists s, solved n c s) <-> greedy_complete n c.
Proof.
  intros n c. split.
  - intros (s & H). apply (solved_greedy n c s H).
  - intros H. destruct (complete_stops n c H) as (s & Hs & Hp & _). exists s, 2%nat. auto.
Qed.
Print Assumptions munkres_terminates_iff.

(** C32 is false: the loop never ends for this 2x2 matrix *)
Theorem munkres_termination_refuted : forall s, ~ solved 2 (of_rows [[1;2];[3;4]]) s.
Proof.
  intros s H. destruct (solved_greedy _ _ _ H) as [HG _]. vm_compute in HG. discriminate.
Qed.
Print Assumptions munkres_termination_refuted.

(** the modified matrix remains non-negative and equivalent to the costs *)
Theorem munkres_reduction_invariant : forall n c k, exists s, run k n (start n c) = Some s /\
  (exists u v, forall i j, matrix s i j = c i j - u i - v j) /\
  (forall i j, (i < n)%nat -> (j < n)%nat -> 0 <= matrix s i j).
Proof.
  intros n c k. destruct (run_defined n c k) as (s & Hs). exists s. split; [exact Hs|].
  destruct (dual_run n c k s Hs) as (H1 & H2 & _). auto.
Qed.
Print Assumptions munkres_reduction_invariant.

(** so an assignment on zeros of any matrix the solver ever holds is minimal *)
Theorem munkres_zero_assignment_minimal : forall n c k s p, run k n (start n c) = Some s ->
  assignment n p -> total (matrix s) 0 p = 0 -> minimal n c p.
Proof.
  intros n c k s p Hs HA HT. destruct (dual_run n c k s Hs) as ((u & v & HD) & HN & _).
  eapply certificate; eassumption.
Qed.
Print Assumptions munkres_zero_assignment_minimal.

(** in the non-terminating example such an assignment exists after four steps *)
Example munkres_zero_case :
  option_map (fun s => total (matrix s) 0 [0;1]%nat) (run 4 2 (start 2 (of_rows [[1;2];[3;4]]))) = Some 0.
Proof. reflexivity. Qed.

(** every padding of a non-square matrix violates the size precondition of the assignment *)
Theorem munkres_nonsquare_refuted : forall a b, (0 < a)%nat -> (0 < b)%nat -> a <> b ->
  pad_assignment a b = None.
Proof.
  intros a b Ha Hb Hab. unfold pad_assignment, range_size.
  destruct (a =? b)%nat eqn:E1; [apply Nat.eqb_eq in E1; contradiction|].
  destruct (b <? a)%nat eqn:E2; [apply Nat.ltb_lt in E2|apply Nat.ltb_ge in E2].
  - destruct (b <=? a - b)%nat eqn:E3; [apply Nat.leb_le in E3|reflexivity].
    destruct (a - b - b =? a - b)%nat eqn:E4; [apply Nat.eqb_eq in E4; lia|reflexivity].
  - destruct (a <=? b - a)%nat eqn:E3; [apply Nat.leb_le in E3|reflexivity].
    destruct (b - a - a =? b - a)%nat eqn:E4; [apply Nat.eqb_eq in E4; lia|reflexivity].
Qed.
Print Assumptions munkres_nonsquare_refuted.

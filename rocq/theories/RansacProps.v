(** Properties of the RANSAC drivers (C17, C18, C19). *)
From Coq Require Import List Arith ZArith Bool Lia.
From Verif Require Import Ransac RansacProofs.
Import ListNotations.

(** C17, one- and two-range variants: a non-zero return value is the exact size of
    the consensus set of a hypothesis proposed in some iteration, it reaches the
    required minimum, and the final estimate is computed from exactly that set. *)
Theorem ransac_reports_existing_consensus :
  forall (A H D : Type) (ltb : D -> D -> bool) (threshold : D)
    (est : H -> list A -> bool * H) (eval : H -> A -> D) (h_init : H)
    (data : list A) (setSize nMin nMax : nat) (sched : nat -> list nat)
    (r0 : H) (n : nat) (r : H) (fl : list bool) (it : nat),
  (Z.of_nat (length data) < 2 ^ 31)%Z ->
  ransac A H D ltb threshold est eval h_init data setSize nMin nMax sched r0 = Done n r fl it ->
  n <> 0 ->
  exists k h, k < nMax /\ proposes A H est h_init data setSize sched k h /\
    n = length (consensus A H D ltb threshold eval data h) /\ nMin <= n /\
    r = snd (est r0 (consensus A H D ltb threshold eval data h)).
Proof. exact ransac_sound. Qed.
Print Assumptions ransac_reports_existing_consensus.

(** A run meeting the hypotheses: the hypothesis is the smallest sampled number, an
    item agrees when it is within 2 of it. *)
Definition ex_est (_ : nat) (l : list nat) : bool * nat :=
  match l with [] => (false, 0) | x :: l => (true, fold_left Nat.min l x) end.
Definition ex_eval (h x : nat) : nat := (x - h) + (h - x).
Example ransac_reports_existing_consensus_example :
  ransac nat nat nat Nat.ltb 3 ex_est ex_eval 0 [10; 50; 11; 12; 90] 2 3 4
    (fun k => match k with 0 => [1; 4; 0; 2; 3] | _ => [3; 2; 0; 1; 4] end) 0
  = Done 3 10 [] 2.
Proof. vm_compute. reflexivity. Qed.

(** C17, three-argument variant: additionally the inlier flags are exact, and the
    count is the largest qualifying one among the executed iterations. *)
Theorem ransac3_reports_existing_consensus :
  forall (A H D : Type) (ltb : D -> D -> bool) (threshold : D)
    (est : H -> list A -> option H) (eval : H -> A -> option D) (h_init : H)
    (data : list A) (nMin nMinRuns nMax : nat) (sched : nat -> list nat)
    (r0 : H) (fl0 : list bool) (n : nat) (r : H) (fl : list bool) (it : nat),
  (Z.of_nat (length data) < 2 ^ 31)%Z ->
  ransac3 A H D ltb threshold est eval h_init data nMin nMinRuns nMax sched r0 fl0
    = Done n r fl it ->
  n <> 0 ->
  it <= nMax /\
  (exists k h, k < it /\ proposes3 A H D est eval h_init data sched k h /\
     n = length (consensus3 A H D ltb threshold eval data h) /\ nMin <= n /\
     fl = map (agrees A H D ltb threshold eval h) data /\
     est r0 (consensus3 A H D ltb threshold eval data h) = Some r) /\
  (forall k h, k < it -> proposes3 A H D est eval h_init data sched k h ->
     nMin <= length (consensus3 A H D ltb threshold eval data h) ->
     length (consensus3 A H D ltb threshold eval data h) <= n).
Proof. exact ransac3_sound. Qed.
Print Assumptions ransac3_reports_existing_consensus.

(** The second run aborts its scan early (leaving stale flags behind), the third
    wins; the flags are those of the third. *)
Definition ex_est3 (_ : nat) (l : list nat) : option nat :=
  match l with [] => None | x :: l => Some (fold_left Nat.min l x) end.
Definition ex_eval3 (h x : nat) : option nat := Some ((x - h) + (h - x)).
Example ransac3_reports_existing_consensus_example :
  ransac3 nat nat nat Nat.ltb 3 ex_est3 ex_eval3 0 [10; 50; 11; 51; 52; 49] 3 3 5
    (fun k => match k with 0 => [0; 2] | 1 => [4; 5] | _ => [1; 3] end) 0 []
  = Done 4 49 [false; true; false; true; true; true] 3.
Proof. vm_compute. reflexivity. Qed.

(** C18: if some iteration within the limit proposes a hypothesis with enough
    agreeing items, the call succeeds, no later than in that iteration. *)
Theorem ransac_early_abort_complete :
  forall (A H D : Type) (ltb : D -> D -> bool) (threshold : D)
    (est : H -> list A -> bool * H) (eval : H -> A -> D) (h_init : H)
    (data : list A) (setSize nMin nMax : nat) (sched : nat -> list nat)
    (r0 : H) (k : nat) (h : H),
  (Z.of_nat (length data) < 2 ^ 31)%Z ->
  (forall j, j < nMax -> sample A data setSize (sched j) <> None) ->
  k < nMax -> proposes A H est h_init data setSize sched k h ->
  qualifies A H D ltb threshold eval data nMin h ->
  exists n r it,
    ransac A H D ltb threshold est eval h_init data setSize nMin nMax sched r0 = Done n r [] it /\
    n <> 0 /\ nMin <= n /\ it <= S k.
Proof. exact ransac_complete. Qed.
Print Assumptions ransac_early_abort_complete.

Example ransac_early_abort_complete_example :
  let data := [10; 50; 11; 12; 90] in
  let sched := fun k => match k with 0 => [1; 4; 0; 2; 3] | _ => [3; 2; 0; 1; 4] end in
  proposes nat nat ex_est 0 data 2 sched 1 11 /\
  qualifies nat nat nat Nat.ltb 3 ex_eval data 3 11.
Proof. cbv zeta. split; [exists [12; 11]; split; reflexivity|]. vm_compute. lia. Qed.

(** C18, three-argument variant: the minimum number of runs is honoured, and a
    return value of 0 means that no iteration within the limit qualified (and
    neither result nor flags were touched). *)
Theorem ransac3_early_abort_complete :
  forall (A H D : Type) (ltb : D -> D -> bool) (threshold : D)
    (est : H -> list A -> option H) (eval : H -> A -> option D) (h_init : H)
    (data : list A) (nMin nMinRuns nMax : nat) (sched : nat -> list nat)
    (r0 : H) (fl0 : list bool),
  (Z.of_nat (length data) < 2 ^ 31)%Z -> 1 <= nMin ->
  (forall j, j < nMax -> deref A data (sched j) <> None) ->
  match ransac3 A H D ltb threshold est eval h_init data nMin nMinRuns nMax sched r0 fl0 with
  | UB => False
  | Thrown => exists k h, k < nMax /\ proposes3 A H D est eval h_init data sched k h /\
                nMin <= length (consensus3 A H D ltb threshold eval data h) /\
                est r0 (consensus3 A H D ltb threshold eval data h) = None
  | Done n r fl it =>
      Nat.min nMinRuns nMax <= it /\
      (n = 0 -> r = r0 /\ fl = fl0 /\
         forall k h, k < nMax -> proposes3 A H D est eval h_init data sched k h ->
           ~ nMin <= length (consensus3 A H D ltb threshold eval data h))
  end.
Proof. exact ransac3_complete. Qed.
Print Assumptions ransac3_early_abort_complete.

Example ransac3_early_abort_complete_example :
  ransac3 nat nat nat Nat.ltb 3 ex_est3 ex_eval3 0 [10; 50; 11; 51; 52; 49] 5 3 5
    (fun k => match k with 0 => [0; 2] | 1 => [4; 5] | _ => [1; 3] end) 8 [true]
  = Done 0 8 [true] 5.
Proof. vm_compute. reflexivity. Qed.

(** C18 does not extend to 2^31 items: all items agree with the proposed
    hypothesis, yet the call reports failure, because [int( nValues )] is negative
    and the scan examines no item. *)
Theorem ransac_large_input_refuted :
  exists (data : list unit) (sched : nat -> list nat) (k h : nat),
    proposes unit nat (fun _ _ => (true, 7)) 0 data 0 sched k h /\
    qualifies unit nat nat Nat.ltb 1 (fun _ _ => 0) data 1 h /\
    length (consensus unit nat nat Nat.ltb 1 (fun _ _ => 0) data h) = length data /\
    forall r0 nMax, ransac unit nat nat Nat.ltb 1 (fun _ _ => (true, 7)) (fun _ _ => 0) 0
        data 0 1 nMax sched r0 = Done 0 r0 [] nMax.
Proof. exact ransac_large_input_fails. Qed.
Print Assumptions ransac_large_input_refuted.

(** C19, positive part: with a required minimum of at least one, a return value of 0
    leaves the caller's result unchanged. *)
Theorem ransac_failure_leaves_result :
  forall (A H D : Type) (ltb : D -> D -> bool) (threshold : D)
    (est : H -> list A -> bool * H) (eval : H -> A -> D) (h_init : H)
    (data : list A) (setSize nMin nMax : nat) (sched : nat -> list nat)
    (r0 r : H) (fl : list bool) (it : nat),
  1 <= nMin ->
  ransac A H D ltb threshold est eval h_init data setSize nMin nMax sched r0 = Done 0 r fl it ->
  r = r0.
Proof. exact ransac_fail_untouched. Qed.
Print Assumptions ransac_failure_leaves_result.

Example ransac_failure_leaves_result_example :
  ransac nat nat nat Nat.ltb 3 ex_est ex_eval 0 [10; 50; 11; 12; 90] 2 4 4
    (fun k => match k with 0 => [1; 4; 0; 2; 3] | _ => [3; 2; 0; 1; 4] end) 77
  = Done 0 77 [] 4.
Proof. vm_compute. reflexivity. Qed.

(** C19 fails for a required minimum of 0: the failure value 0 is returned although
    the result has been overwritten by an estimate from no data at all (here by an
    estimator that stores 5 and reports failure on the empty list). *)
Theorem ransac_zero_minimum_refuted :
  exists (est : nat -> list nat -> bool * nat) (sched : nat -> list nat),
    ransac nat nat nat Nat.ltb 3 est ex_eval 0 [10; 20] 1 0 1 sched 77 = Done 0 5 [] 1.
Proof.
  exists (fun _ l => match l with [] => (false, 5) | x :: _ => (true, 1000) end).
  exists (fun _ => [0; 1]). vm_compute. reflexivity.
Qed.
Print Assumptions ransac_zero_minimum_refuted.

(** C19 fails when the estimator cannot handle the consensus set: success is
    reported although the final estimation failed and the result is untouched. *)
Theorem ransac_final_failure_refuted :
  exists (est : nat -> list nat -> bool * nat) (sched : nat -> list nat),
    est 77 (consensus nat nat nat Nat.ltb 3 ex_eval [10; 11; 12] 11) = (false, 77) /\
    ransac nat nat nat Nat.ltb 3 est ex_eval 0 [10; 11; 12] 1 2 4 sched 77 = Done 3 77 [] 1.
Proof.
  exists (fun h l => match l with [x] => (true, x) | _ => (false, h) end).
  exists (fun _ => [1; 0; 2]). split; vm_compute; reflexivity.
Qed.
Print Assumptions ransac_final_failure_refuted.

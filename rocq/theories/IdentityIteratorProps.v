(** The repeating container (C175). *)
From Coq Require Import ZArith List Lia Bool.
From Verif Require Import IdentityIterator.
Import ListNotations.
Open Scope Z_scope.

Definition in_range (n : Z) : Prop := 0 <= n < 2 ^ 64.
Lemma word_small n : in_range n -> word n = n. Proof. intros H. apply Z.mod_small. exact H. Qed.

(** as second range: every element is combined with the value, whatever the length of the range and the state of the counter *)
Theorem identity_second {A B C} (op : B -> A -> C) l (it : iter A) :
  fst (transform_second op l it) = map (fun x => op x (deref it)) l /\ deref (snd (transform_second op l it)) = deref it.
Proof.
  revert it. induction l as [|x l IH]; intros it; [split; reflexivity|]. cbn [transform_second map]. destruct (IH (incr it)) as (H1 & H2). destruct (transform_second op l (incr it)) as [out it']. cbn [fst snd] in *. rewrite H1, H2. split; reflexivity.
Qed.
(** as first range with n: exactly the first n elements of the other range are read, each combined with the value *)
Theorem identity_first {A B C} (op : A -> B -> C) v n l fuel : in_range n -> (Z.to_nat n <= length l)%nat -> (Z.to_nat n < fuel)%nat ->
  transform_first fuel op (begin_ (ident2 v n)) (end_ (ident2 v n)) l = Some (map (op v) (firstn (Z.to_nat n) l), skipn (Z.to_nat n) l).
Proof.
  intros Hn. unfold begin_, end_, ident2. cbn [held size].
  assert (G : forall m k l fuel, (0 <= k)%Z -> (k + Z.of_nat m = n)%Z -> (m <= length l)%nat -> (m < fuel)%nat ->
    transform_first fuel op (Iter v k) (Iter v n) l = Some (map (op v) (firstn m l), skipn m l)).
  { clear l fuel. induction m as [|m IH]; intros k l fuel K E L F; (destruct fuel as [|fuel]; [lia|]); cbn [transform_first]; unfold differ; cbn [counter].
    - replace k with n by lia. rewrite Z.eqb_refl. reflexivity.
    - assert (N : (k =? n) = false) by (apply Z.eqb_neq; lia). rewrite N. cbn [negb]. destruct l as [|x l]; [cbn in L; lia|]. unfold incr. cbn [at_ counter]. rewrite word_small by (unfold in_range in *; lia).
      rewrite (IH (k + 1) l fuel); [reflexivity|lia|lia|cbn in L; lia|lia]. }
  intros L F. apply G; [lia|rewrite Z2Nat.id by (destruct Hn; lia); lia|lia|lia].
Qed.
(** a container with a size of its own is needed then: one without reads nothing *)
Theorem identity_unsized {A B C} (op : A -> B -> C) v l fuel : (0 < fuel)%nat -> transform_first fuel op (begin_ (ident1 v)) (end_ (ident1 v)) l = Some ([], l).
Proof. intros F. destruct fuel; [lia|]. reflexivity. Qed.
(** too short a second range is read beyond its end *)
Theorem identity_first_short {A B C} (op : A -> B -> C) v n l fuel : in_range n -> (length l < Z.to_nat n)%nat -> transform_first fuel op (begin_ (ident2 v n)) (end_ (ident2 v n)) l = None.
Proof.
  intros Hn. unfold begin_, end_, ident2. cbn [held size].
  assert (G : forall fuel l k, 0 <= k -> k + Z.of_nat (length l) < n -> transform_first fuel op (Iter v k) (Iter v n) l = None).
  { clear l fuel. induction fuel as [|fuel IH]; intros l k K L; [reflexivity|]. cbn [transform_first]. unfold differ. cbn [counter]. assert (N : (k =? n) = false) by (apply Z.eqb_neq; lia). rewrite N. cbn [negb].
    destruct l as [|x l]; [reflexivity|]. unfold incr. cbn [at_ counter]. cbn [length] in L. rewrite word_small by (unfold in_range in *; lia). rewrite IH; [reflexivity|lia|lia]. }
  intros L. apply G; lia.
Qed.
(** moving: forward and back again is nothing, k steps are advance by k, and the order is that of the counters *)
Lemma word_plus a b : word (word a + b) = word (a + b). Proof. unfold word. apply Zplus_mod_idemp_l. Qed.
Lemma word_minus a b : word (word a - b) = word (a - b). Proof. unfold word. apply Zminus_mod_idemp_l. Qed.
Theorem identity_moves {A} (i : iter A) k : in_range (counter i) -> decr (incr i) = i /\ incr (decr i) = i /\ retreat (advance i k) k = i /\ (0 <= k -> advance i k = Nat.iter (Z.to_nat k) incr i).
Proof.
  intros H. destruct i as [v n]. cbn [counter] in H. unfold retreat, advance. split; [unfold decr, incr; cbn [at_ counter]; rewrite word_minus; f_equal; rewrite <- (word_small n H) at 2; f_equal; lia|]. split; [unfold decr, incr; cbn [at_ counter]; rewrite word_plus; f_equal; rewrite <- (word_small n H) at 2; f_equal; lia|]. cbn [at_ counter]. rewrite word_minus. split; [f_equal; rewrite <- (word_small n H) at 2; f_equal; lia|].
  intros K. rewrite <- (Z2Nat.id k K) at 1. generalize (Z.to_nat k). intros m. induction m as [|m IH].
  - change (Nat.iter 0 (@incr A) (Iter v n)) with (Iter v n). change (Z.of_nat 0) with 0. rewrite Z.add_0_r, word_small by exact H. reflexivity.
  - change (Nat.iter (S m) (@incr A) (Iter v n)) with (incr (Nat.iter m (@incr A) (Iter v n))). rewrite <- IH. unfold incr. cbn [at_ counter]. rewrite word_plus. f_equal. f_equal. lia.
Qed.
Theorem identity_subscript {A} (i : iter A) k : subscript i k = at_ (advance i k).
Proof. reflexivity. Qed.
Theorem identity_order {A} (i j : iter A) : in_range (counter i) -> in_range (counter j) ->
  (differ i j = negb (same i j)) /\ (less i j = greater j i) /\ (less i j = true -> exists k, 0 < k /\ same (advance i k) j = true) /\ (same i j = true \/ less i j = true \/ greater i j = true).
Proof.
  intros Hi Hj. unfold differ, same, less, greater, advance. cbn [counter]. split; [reflexivity|]. split; [reflexivity|]. split.
  - intros L. apply Z.ltb_lt in L. exists (counter j - counter i). split; [lia|]. replace (counter i + (counter j - counter i)) with (counter j) by lia. rewrite word_small by exact Hj. apply Z.eqb_refl.
  - destruct (Z.lt_trichotomy (counter i) (counter j)) as [L|[L|L]]; [right; left; apply Z.ltb_lt; exact L|left; apply Z.eqb_eq; exact L|right; right; apply Z.ltb_lt; exact L].
Qed.
(** an iterator must not change when a number is added to it in an expression; this one does, unless the number is a multiple of 2^64 *)
Theorem identity_plus_refuted {A} (i : iter A) k : in_range (counter i) -> k mod 2 ^ 64 <> 0 -> fst (plus_expr i k) <> i /\ fst (minus_expr i k) <> i.
Proof.
  intros H N. destruct i as [v n]. cbn [counter] in H. unfold plus_expr, minus_expr, advance, retreat. cbn [at_ counter fst]. split; intros E; injection E as E; apply N; unfold word in E.
  - replace k with ((n + k) - n) by lia. rewrite Zminus_mod, E, (Z.mod_small n) by exact H. rewrite Z.sub_diag. reflexivity.
  - replace k with (n - (n - k)) by lia. rewrite Zminus_mod, E, (Z.mod_small n) by exact H. rewrite Z.sub_diag. reflexivity.
Qed.

Example identity_case : transform_first 5 Z.mul (begin_ (ident2 7 3)) (end_ (ident2 7 3)) [1; 2; 3; 4] = Some ([7; 14; 21], [4]) /\
  fst (transform_second Z.sub [10; 20] (begin_ (ident1 3))) = [7; 17] /\ counter (snd (plus_expr (begin_ (ident1 3)) 2)) = 2.
Proof. repeat split. Qed.

Print Assumptions identity_second.
Print Assumptions identity_first.
Print Assumptions identity_first_short.
Print Assumptions identity_moves.
Print Assumptions identity_order.
Print Assumptions identity_plus_refuted.

(** The determinant of square matrices of any size (C111). *)
From Coq Require Import Reals Lra Lia List Arith.
Import ListNotations.
From Verif Require Import Mat LinAlg LuDet.
Open Scope R_scope.

(** * Specification *)
(** A with row i replaced *)
Definition row_set (A : mat) (i : nat) (r : vect) : mat := fun k => if (k =? i)%nat then r else A k.
(** a determinant is linear in every row, vanishes if two rows are equal and is 1 for the unit matrix *)
Record is_det (n : nat) (D : mat -> R) : Prop := {
  det_ext : forall A B, meq n n A B -> D A = D B;
  det_linear : forall A i c r s, (i < n)%nat -> D (row_set A i (fun j => c * r j + s j)) = c * D (row_set A i r) + D (row_set A i s);
  det_alternating : forall A i k, (i < n)%nat -> (k < n)%nat -> i <> k -> (forall j, (j < n)%nat -> A i j = A k j) -> D A = 0;
  det_one : D eye = 1 }.
(** what getrf returns: interchanging rows i and ipiv(i) for i = 0, 1, ... turns A into L U *)
Definition swap_rows (A : mat) (i p : nat) : mat := fun k => if (k =? i)%nat then A p else if (k =? p)%nat then A i else A k.
Definition interchanged (ipiv : list nat) (A : mat) (k : nat) : mat := fold_left (fun B i => swap_rows B i (nth i ipiv O - 1)) (seq 0 k) A.
Definition lower (a : mat) : mat := fun i j => if (j <? i)%nat then a i j else if (j =? i)%nat then 1 else 0.
Definition upper (a : mat) : mat := fun i j => if (j <? i)%nat then 0 else a i j.
Definition getrf_ok (n : nat) (A : mat) (f : getrf_result) : Prop :=
  length (snd f) = n /\ (forall i, (i < n)%nat -> (i + 1 <= nth i (snd f) O <= n)%nat) /\
  meq n n (interchanged (snd f) A n) (mmul n (lower (fst f)) (upper (fst f))).

(** * Rules *)
Section rules.
Variables (n : nat) (D : mat -> R).
Hypothesis HD : is_det n D.
Lemma rs_same A i : meq n n (row_set A i (A i)) A.
Proof. intros k j Hk Hj. unfold row_set. destruct (Nat.eqb_spec k i) as [->|]; reflexivity. Qed.
Lemma det_zero_row A i : (i < n)%nat -> D (row_set A i (fun _ => 0)) = 0.
Proof.
  intros Hi. assert (E := det_linear n D HD A i (-1) (fun _ => 0) (fun _ => 0) Hi).
  assert (G : D (row_set A i (fun _ => -1 * 0 + 0)) = D (row_set A i (fun _ => 0))).
  { apply (det_ext n D HD). intros k j _ _. unfold row_set. destruct (k =? i)%nat; [ring|reflexivity]. }
  cbv beta in E. rewrite G in E. lra.
Qed.
Lemma det_scale_row A i c r : (i < n)%nat -> D (row_set A i (fun j => c * r j)) = c * D (row_set A i r).
Proof.
  intros Hi. assert (E := det_linear n D HD A i c r (fun _ => 0) Hi). rewrite (det_zero_row A i Hi), Rplus_0_r in E. rewrite <- E.
  apply (det_ext n D HD). intros k j _ _. unfold row_set. destruct (k =? i)%nat; [ring|reflexivity].
Qed.
Lemma det_add_rows A t r c m : (t < n)%nat -> (m <= n)%nat -> c t = 0 ->
  D (row_set A t (fun j => r j + sum m (fun k => c k * A k j))) = D (row_set A t r).
Proof.
  intros Ht Hm Hc. induction m as [|m IH].
  - apply (det_ext n D HD). intros k j _ _. unfold row_set. destruct (k =? t)%nat; [cbn; ring|reflexivity].
  - transitivity (D (row_set A t (fun j => c m * A m j + (r j + sum m (fun k => c k * A k j))))).
    { apply (det_ext n D HD). intros k j _ _. unfold row_set. destruct (k =? t)%nat; [cbn [sum]; ring|reflexivity]. }
    rewrite (det_linear n D HD) by exact Ht. rewrite IH by lia. destruct (Nat.eq_dec m t) as [->|N]; [rewrite Hc; ring|].
    rewrite (det_alternating n D HD _ t m Ht ltac:(lia) ltac:(congruence)); [ring|].
    intros j _. unfold row_set. rewrite Nat.eqb_refl, (proj2 (Nat.eqb_neq m t) N). reflexivity.
Qed.
Lemma det_swap A i k : (i < n)%nat -> (k < n)%nat -> i <> k -> D (swap_rows A i k) = - D A.
Proof.
  intros Hi Hk N. set (s := fun j => A i j + A k j). set (B r r' := row_set (row_set A i r) k r').
  assert (BL : forall c r r' q, D (B (fun j => c * r j + r' j) q) = c * D (B r q) + D (B r' q)).
  { intros c r r' q. assert (C : forall x, D (B x q) = D (row_set (row_set A k q) i x)).
    { intros x. apply (det_ext n D HD). intros a b _ _. unfold B, row_set. destruct (Nat.eqb_spec a k) as [->|Nk]; [rewrite (proj2 (Nat.eqb_neq k i)) by congruence|]; reflexivity. }
    rewrite !C. apply (det_linear n D HD), Hi. }
  assert (BR : forall c r r' q, D (B q (fun j => c * r j + r' j)) = c * D (B q r) + D (B q r')) by (intros; apply (det_linear n D HD), Hk).
  assert (BZ : forall r, D (B r r) = 0).
  { intros r. apply (det_alternating n D HD _ i k Hi Hk N). intros j _. unfold B, row_set. rewrite Nat.eqb_refl, (proj2 (Nat.eqb_neq i k) N), Nat.eqb_refl. reflexivity. }
  assert (Z := BZ (fun j => 1 * A i j + A k j)). rewrite BL, !BR, !BZ in Z.
  assert (E1 : D (B (A i) (A k)) = D A).
  { apply (det_ext n D HD). intros a b _ _. unfold B, row_set. destruct (Nat.eqb_spec a k) as [->|]; [reflexivity|]. destruct (Nat.eqb_spec a i) as [->|]; reflexivity. }
  assert (E2 : D (B (A k) (A i)) = D (swap_rows A i k)).
  { apply (det_ext n D HD). intros a b _ _. unfold B, row_set, swap_rows. destruct (Nat.eqb_spec a k) as [->|]; [rewrite (proj2 (Nat.eqb_neq k i)) by congruence; reflexivity|]. reflexivity. }
  rewrite E1, E2 in Z. lra.
Qed.
(** a unit lower triangular factor does not change the determinant *)
Lemma det_lower a U : D (mmul n (lower a) U) = D U.
Proof.
  set (W := mmul n (lower a) U). set (M t := (fun i => if (i <? t)%nat then U i else W i) : mat).
  assert (E : forall t, (t <= n)%nat -> D (M t) = D W).
  { induction t as [|t IH]; intros Ht; [reflexivity|]. rewrite <- IH by lia.
    transitivity (D (row_set (M t) t (U t))).
    - apply (det_ext n D HD). intros i j _ _. unfold M, row_set. destruct (Nat.eqb_spec i t) as [->|N]; [rewrite (proj2 (Nat.ltb_lt t (S t))) by lia; reflexivity|].
      destruct (Nat.ltb_spec i (S t)), (Nat.ltb_spec i t); try reflexivity; lia.
    - rewrite <- (det_add_rows (M t) t (U t) (fun k => if (k <? t)%nat then a t k else 0) n) by (try lia; rewrite Nat.ltb_irrefl; reflexivity).
      apply (det_ext n D HD). intros i j Hi Hj. unfold row_set. destruct (Nat.eqb_spec i t) as [->|N]; [|reflexivity]. unfold M at 2. rewrite Nat.ltb_irrefl. unfold W, mmul.
      replace (U t j) with (sum n (fun k => eye t k * U k j)).
      + rewrite <- sum_plus. apply sum_ext. intros k Hk. unfold lower, M, eye. destruct (Nat.ltb_spec k t); [rewrite (proj2 (Nat.eqb_neq t k)) by lia; ring|].
        rewrite (Nat.eqb_sym t k). destruct (Nat.eqb_spec k t); ring.
      + rewrite (sum_single _ _ t) by (try lia; intros k _ Nk; unfold eye; rewrite (proj2 (Nat.eqb_neq t k)) by congruence; ring). unfold eye. rewrite Nat.eqb_refl. ring. }
  rewrite <- (E n (le_n n)). apply (det_ext n D HD). intros i j Hi _. unfold M. rewrite (proj2 (Nat.ltb_lt i n) Hi). reflexivity.
Qed.
(** the determinant of a triangular matrix *)
Fixpoint diag_product (a : mat) (t : nat) : R := match t with O => 1 | S t => diag_product a t * a t t end.
Lemma det_upper a : D (upper a) = diag_product a n.
Proof.
  set (N t := (fun i => if (i <? t)%nat then upper a i else eye i) : mat).
  assert (E : forall t, (t <= n)%nat -> D (N t) = diag_product a t).
  { induction t as [|t IH]; intros Ht; [exact (det_one n D HD)|]. cbn [diag_product]. rewrite <- IH by lia.
    transitivity (D (row_set (N t) t (fun j => a t t * eye t j))).
    - rewrite <- (det_add_rows (N t) t (fun j => a t t * eye t j) (fun k => if (t <? k)%nat then a t k else 0) n) by (try lia; rewrite Nat.ltb_irrefl; reflexivity).
      apply (det_ext n D HD). intros i j Hi Hj. unfold row_set. destruct (Nat.eqb_spec i t) as [->|Ne].
      + unfold N at 1. rewrite (proj2 (Nat.ltb_lt t (S t))) by lia. unfold upper at 1.
        rewrite (sum_single _ _ j Hj).
        * unfold N. destruct (Nat.ltb_spec j t).
          -- rewrite (proj2 (Nat.ltb_ge t j)) by lia. unfold eye. rewrite (proj2 (Nat.eqb_neq t j)) by lia. ring.
          -- unfold eye. rewrite Nat.eqb_refl. destruct (Nat.ltb_spec t j); [rewrite (proj2 (Nat.eqb_neq t j)) by lia; ring|]. assert (j = t) as -> by lia. rewrite Nat.eqb_refl. ring.
        * intros k Hk Nk. destruct (Nat.ltb_spec t k); [|ring]. unfold N. rewrite (proj2 (Nat.ltb_ge k t)) by lia. unfold eye. rewrite (proj2 (Nat.eqb_neq k j) Nk). ring.
      + unfold N. destruct (Nat.ltb_spec i (S t)), (Nat.ltb_spec i t); try reflexivity; lia.
    - rewrite det_scale_row by lia. rewrite Rmult_comm. f_equal. apply (det_ext n D HD). intros i j Hi Hj. unfold row_set, N. destruct (Nat.eqb_spec i t) as [->|]; [rewrite Nat.ltb_irrefl|]; reflexivity. }
  rewrite <- (E n (le_n n)). apply (det_ext n D HD). intros i j Hi _. unfold N. rewrite (proj2 (Nat.ltb_lt i n) Hi). reflexivity.
Qed.
End rules.

(** * the code computes the determinant, whatever the size *)
Theorem lu_determinant n D getrf A : is_det n D -> getrf_ok n A (getrf n A) -> determinant getrf n A = D A.
Proof.
  intros HD (HL & HB & HF). unfold determinant. cbv zeta. set (f := getrf n A) in *. rewrite HL.
  assert (G : forall t, (t <= n)%nat -> exists s, s * s = 1 /\ fold_left (det_step f) (seq 0 t) 1 = s * diag_product (fst f) t /\ D (interchanged (snd f) A t) = s * D A).
  { induction t as [|t IH]; intros Ht; [exists 1; cbn; repeat split; ring|]. destruct IH as (s & S1 & S2 & S3); [lia|]. unfold interchanged. rewrite seq_S, !fold_left_app. cbn [fold_left Nat.add diag_product]. fold (interchanged (snd f) A t).
    unfold det_step at 1. assert (B := HB t ltac:(lia)). destruct (Nat.eqb_spec (nth t (snd f) O) (t + 1)) as [P|P].
    - exists s. split; [exact S1|]. split; [rewrite S2; ring|]. rewrite <- S3. apply (det_ext n D HD). intros i j _ _. unfold swap_rows. rewrite P, Nat.add_sub. destruct (Nat.eqb_spec i t) as [->|]; reflexivity.
    - exists (- s). split; [rewrite <- S1; ring|]. split; [rewrite S2; ring|]. rewrite (det_swap n D HD) by lia. rewrite S3. ring. }
  destruct (G n (le_n n)) as (s & S1 & S2 & S3). rewrite (det_ext n D HD _ _ HF), (det_lower n D HD), (det_upper n D HD) in S3.
  rewrite S2, S3. transitivity (s * s * D A); [ring|]. rewrite S1. ring.
Qed.

(** * there is a determinant for every size: expansion along the first column *)
Definition minor (A : mat) (i : nat) : mat := fun r c => A (if (r <? i)%nat then r else S r) (S c).
Fixpoint laplace (n : nat) (A : mat) : R :=
  match n with O => 1 | S m => sum (S m) (fun i => (-1) ^ i * A i 0%nat * laplace m (minor A i)) end.
Lemma laplace_ext n : forall A B, meq n n A B -> laplace n A = laplace n B.
Proof.
  induction n as [|n IH]; intros A B H; [reflexivity|]. cbn [laplace]. apply sum_ext. intros i Hi. rewrite (H i 0%nat) by lia. f_equal. apply IH.
  intros r c Hr Hc. unfold minor. apply H; [|lia]. destruct (r <? i)%nat; lia.
Qed.
Lemma minor_row_same A i r : minor (row_set A i r) i = minor A i \/ forall a b, minor (row_set A i r) i a b = minor A i a b.
Proof.
  right. intros a b. unfold minor, row_set. destruct (Nat.ltb_spec a i); [rewrite (proj2 (Nat.eqb_neq a i)) by lia|rewrite (proj2 (Nat.eqb_neq (S a) i)) by lia]; reflexivity.
Qed.
Lemma minor_row_other A k r i a b : i <> k -> minor (row_set A k r) i a b = row_set (minor A i) (if (k <? i)%nat then k else (k - 1)%nat) (fun c => r (S c)) a b.
Proof.
  intros N. unfold minor, row_set. destruct (Nat.ltb_spec k i), (Nat.ltb_spec a i).
  - destruct (a =? k)%nat; reflexivity.
  - rewrite (proj2 (Nat.eqb_neq (S a) k)), (proj2 (Nat.eqb_neq a k)) by lia. reflexivity.
  - rewrite (proj2 (Nat.eqb_neq a k)), (proj2 (Nat.eqb_neq a (k - 1))) by lia. reflexivity.
  - destruct (Nat.eqb_spec (S a) k), (Nat.eqb_spec a (k - 1)); try lia; [reflexivity|]. reflexivity.
Qed.
Lemma laplace_linear n : forall A i c r s, (i < n)%nat ->
  laplace n (row_set A i (fun j => c * r j + s j)) = c * laplace n (row_set A i r) + laplace n (row_set A i s).
Proof.
  induction n as [|n IH]; intros A k c r s Hk; [lia|]. cbn [laplace]. rewrite <- sum_scal_l, <- sum_plus. apply sum_ext. intros i Hi.
  destruct (Nat.eq_dec i k) as [->|N].
  - assert (E : forall x, laplace n (minor (row_set A k x) k) = laplace n (minor A k)).
    { intros x. apply laplace_ext. intros a b _ _. destruct (minor_row_same A k x) as [->|H]; [reflexivity|apply H]. }
    rewrite !E. unfold row_set. rewrite Nat.eqb_refl. ring.
  - assert (E : forall x, laplace n (minor (row_set A k x) i) = laplace n (row_set (minor A i) (if (k <? i)%nat then k else (k - 1)%nat) (fun c => x (S c)))).
    { intros x. apply laplace_ext. intros a b _ _. apply minor_row_other, N. }
    rewrite !E. rewrite (IH _ _ c (fun j => r (S j)) (fun j => s (S j))) by (destruct (Nat.ltb_spec k i); lia).
    unfold row_set. rewrite (proj2 (Nat.eqb_neq i k) N). ring.
Qed.
Lemma laplace_adjacent n : forall A p, (S p < n)%nat -> (forall j, (j < n)%nat -> A p j = A (S p) j) -> laplace n A = 0.
Proof.
  induction n as [|n IH]; intros A p Hp H; [lia|]. cbn [laplace].
  set (g := fun i => (-1) ^ i * A i 0%nat * laplace n (minor A i)).
  assert (Z : forall i, (i < S n)%nat -> i <> p -> i <> S p -> g i = 0).
  { intros i Hi N1 N2. unfold g. rewrite (IH (minor A i) (if (i <? p)%nat then (p - 1)%nat else p)); [ring| |].
    - destruct (Nat.ltb_spec i p); lia.
    - intros j Hj. unfold minor. destruct (Nat.ltb_spec i p).
      + rewrite (proj2 (Nat.ltb_ge (p - 1) i)), (proj2 (Nat.ltb_ge (S (p - 1)) i)) by lia. replace (S (p - 1)) with p by lia. apply H. lia.
      + rewrite (proj2 (Nat.ltb_lt p i)), (proj2 (Nat.ltb_lt (S p) i)) by lia. apply H. lia. }
  assert (S2 : g p + g (S p) = 0).
  { unfold g. assert (M : laplace n (minor A p) = laplace n (minor A (S p))).
    { apply laplace_ext. intros a b Ha Hb. unfold minor. destruct (Nat.ltb_spec a p); [rewrite (proj2 (Nat.ltb_lt a (S p))) by lia; reflexivity|].
      destruct (Nat.ltb_spec a (S p)); [|reflexivity]. assert (a = p) as -> by lia. symmetry. apply H. lia. }
    rewrite M, (H 0%nat) by lia. cbn [pow]. ring. }
  replace (S n) with (p + (2 + (S n - p - 2)))%nat by lia. rewrite !sum_split.
  rewrite (sum_zero p) by (intros i Hi; apply Z; lia). rewrite (sum_zero (S n - p - 2)) by (intros i Hi; apply Z; lia).
  cbn [sum]. rewrite Nat.add_0_r. replace (p + 1)%nat with (S p) by lia. lra.
Qed.
(** vanishing for adjacent equal rows is enough *)
Lemma adjacent_swap n A p : (S p < n)%nat -> laplace n (swap_rows A p (S p)) = - laplace n A.
Proof.
  intros Hp. set (B r r' := row_set (row_set A p r) (S p) r').
  assert (BL : forall c r r' q, laplace n (B (fun j => c * r j + r' j) q) = c * laplace n (B r q) + laplace n (B r' q)).
  { intros c r r' q. assert (C : forall x, laplace n (B x q) = laplace n (row_set (row_set A (S p) q) p x)).
    { intros x. apply laplace_ext. intros a b _ _. unfold B, row_set. destruct (Nat.eqb_spec a (S p)) as [->|]; [rewrite (proj2 (Nat.eqb_neq (S p) p)) by lia|]; reflexivity. }
    rewrite !C. apply laplace_linear. lia. }
  assert (BR : forall c r r' q, laplace n (B q (fun j => c * r j + r' j)) = c * laplace n (B q r) + laplace n (B q r')) by (intros; apply laplace_linear, Hp).
  assert (BZ : forall r, laplace n (B r r) = 0).
  { intros r. apply (laplace_adjacent n _ p Hp). intros j _. unfold B, row_set. rewrite Nat.eqb_refl, (proj2 (Nat.eqb_neq p (S p))), Nat.eqb_refl by lia. reflexivity. }
  assert (Z := BZ (fun j => 1 * A p j + A (S p) j)). rewrite BL, !BR, !BZ in Z.
  assert (E1 : laplace n (B (A p) (A (S p))) = laplace n A).
  { apply laplace_ext. intros a b _ _. unfold B, row_set. destruct (Nat.eqb_spec a (S p)) as [->|]; [reflexivity|]. destruct (Nat.eqb_spec a p) as [->|]; reflexivity. }
  assert (E2 : laplace n (B (A (S p)) (A p)) = laplace n (swap_rows A p (S p))).
  { apply laplace_ext. intros a b _ _. unfold B, row_set, swap_rows. destruct (Nat.eqb_spec a (S p)) as [->|]; [rewrite (proj2 (Nat.eqb_neq (S p) p)) by lia; reflexivity|]. reflexivity. }
  rewrite E1, E2 in Z. lra.
Qed.
Lemma laplace_equal_rows n d : forall A i, (i + S d < n)%nat -> (forall j, (j < n)%nat -> A i j = A (i + S d)%nat j) -> laplace n A = 0.
Proof.
  induction d as [|d IH]; intros A i Hi H.
  - apply (laplace_adjacent n A i); [lia|]. intros j Hj. rewrite (H j Hj). f_equal. lia.
  - assert (E := adjacent_swap n A (i + S d) ltac:(lia)). rewrite (IH (swap_rows A (i + S d) (S (i + S d))) i) in E; [lra|lia|].
    intros j Hj. unfold swap_rows. rewrite Nat.eqb_refl, (proj2 (Nat.eqb_neq i (i + S d))), (proj2 (Nat.eqb_neq i (S (i + S d)))) by lia. rewrite (H j Hj). f_equal. lia.
Qed.
Theorem laplace_is_det n : is_det n (laplace n).
Proof.
  constructor.
  - apply laplace_ext.
  - apply laplace_linear.
  - intros A i k Hi Hk N H. destruct (Nat.lt_total i k) as [L|[E|L]]; [|contradiction|].
    + apply (laplace_equal_rows n (k - i - 1) A i); [lia|]. intros j Hj. replace (i + S (k - i - 1))%nat with k by lia. apply H, Hj.
    + apply (laplace_equal_rows n (i - k - 1) A k); [lia|]. intros j Hj. replace (k + S (i - k - 1))%nat with i by lia. symmetry. apply H, Hj.
  - induction n as [|n IH]; [reflexivity|]. cbn [laplace]. rewrite (sum_single _ _ 0%nat) by (try lia; intros i _ N; unfold eye; rewrite (proj2 (Nat.eqb_neq i 0)) by exact N; ring).
    rewrite (laplace_ext n _ eye); [rewrite IH; unfold eye; cbn; ring|]. intros a b _ _. unfold minor, eye. cbn. reflexivity.
Qed.
(** the special functions for two and three rows agree with the general one *)
Theorem small_determinants : is_det 2 det2 /\ is_det 3 det3.
Proof.
  split; constructor; try (unfold det2, det3, eye; cbn; ring).
  - intros A B H. unfold det2. rewrite !H by lia. reflexivity.
  - intros A i c r s Hi. unfold det2, row_set. destruct i as [|[|]]; [| |lia]; cbn [Nat.eqb]; ring.
  - intros A i k Hi Hk N H. assert (H0 := H 0%nat ltac:(lia)). assert (H1 := H 1%nat ltac:(lia)). unfold det2. destruct i as [|[|]], k as [|[|]]; try lia; rewrite H0, H1; ring.
  - intros A B H. unfold det3. cbv zeta. rewrite !H by lia. reflexivity.
  - intros A i c r s Hi. unfold det3, row_set. cbv zeta. destruct i as [|[|[|]]]; [| | |lia]; cbn [Nat.eqb]; ring.
  - intros A i k Hi Hk N H. assert (H0 := H 0%nat ltac:(lia)). assert (H1 := H 1%nat ltac:(lia)). assert (H2 := H 2%nat ltac:(lia)). unfold det3. cbv zeta. destruct i as [|[|[|]]], k as [|[|[|]]]; try lia; rewrite H0, H1, H2; ring.
Qed.
(** a matrix whose first pivot is zero *)
Example lu_case : let A := mlist [[0; 2; 1]; [3; 1; 4]; [6; 2; 5]] in let f := (mlist [[6; 2; 5]; [0; 2; 1]; [1 / 2; 0; 3 / 2]], [3; 3; 3]%nat) in
  getrf_ok 3 A f /\ determinant (fun _ _ => f) 3 A = 18.
Proof.
  intros A f. assert (G : getrf_ok 3 A f).
  { split; [reflexivity|]. split; [intros i Hi; destruct i as [|[|[|]]]; cbn; lia|].
    intros i j Hi Hj. destruct i as [|[|[|]]]; [| | |lia]; (destruct j as [|[|[|]]]; [| | |lia]); unfold interchanged, f, A, mmul, lower, upper, mlist; cbn; field. }
  split; [exact G|]. rewrite (lu_determinant 3 det3 (fun _ _ => f) A (proj2 small_determinants) G). unfold det3, A, mlist. cbn. ring.
Qed.
Print Assumptions lu_determinant.
Print Assumptions laplace_is_det.
Print Assumptions small_determinants.

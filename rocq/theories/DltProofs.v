(** Lemmas about Dlt.v: the last right singular vector, solutions of the systems, normalisation. *)
From Coq Require Import Reals Lra Lia List Arith Bool.
Import ListNotations.
From Verif Require Import Mat Quat QuatProofs LinAlg LinAlgProps Dlt.
Open Scope R_scope.

(** ** Specification of the decompositions *)
(** |A x|^2 *)
Definition energy (m n : nat) (A : mat) (x : vect) : R := sum m (fun i => mvec n A x i * mvec n A x i).
(** gesvd with jobvt = 'A': A = U diag(s) Vt, Vt an orthogonal n x n matrix, the singular values are
    sorted; the columns of U that belong to positive singular values are orthonormal *)
Definition full_svd (m n : nat) (A U : mat) (s : vect) (Vt : mat) : Prop :=
  (forall i j, (i < m)%nat -> (j < n)%nat -> A i j = sum n (fun k => U i k * s k * Vt k j)) /\
  (forall k l, (k < n)%nat -> (l < n)%nat -> s k <> 0 -> s l <> 0 -> mmul m (tr U) U k l = eye k l) /\
  meq n n (mmul n Vt (tr Vt)) eye /\ meq n n (mmul n (tr Vt) Vt) eye /\
  (forall k, (k < n)%nat -> 0 <= s k) /\ (forall k l, (k <= l < n)%nat -> s l <= s k).
(** all the solvers need of it: v is a unit vector of least energy *)
Definition least_direction (m n : nat) (A : mat) (v : vect) : Prop :=
  vdot n v v = 1 /\ forall x, vdot n x x = 1 -> energy m n A v <= energy m n A x.

Lemma sum_eye n k (z : nat -> R) : (k < n)%nat -> sum n (fun l => z l * eye k l) = z k.
Proof.
  intros Hk. rewrite (sum_single _ _ k Hk).
  - unfold eye. rewrite Nat.eqb_refl. ring.
  - intros l _ N. unfold eye. rewrite (proj2 (Nat.eqb_neq k l)) by congruence. ring.
Qed.
Lemma sum_product n m f g : sum n f * sum m g = sum n (fun k => sum m (fun l => f k * g l)).
Proof. rewrite <- sum_scal_r. apply sum_ext. intros k _. rewrite sum_scal_l. reflexivity. Qed.
Lemma full_svd_energy m n A U s Vt x : full_svd m n A U s Vt ->
  energy m n A x = sum n (fun k => s k * s k * (mvec n Vt x k * mvec n Vt x k)).
Proof.
  intros (HA & HU & _). set (y := mvec n Vt x). unfold energy.
  assert (E : forall i, (i < m)%nat -> mvec n A x i = sum n (fun k => U i k * (s k * y k))).
  { intros i Hi. unfold mvec. rewrite (sum_ext n _ (fun j => sum n (fun k => U i k * s k * Vt k j * x j))).
    - rewrite sum_swap. apply sum_ext. intros k _. unfold y, mvec. rewrite <- !sum_scal_l. apply sum_ext. intros; ring.
    - intros j Hj. rewrite HA by assumption. rewrite sum_scal_r. reflexivity. }
  rewrite (sum_ext m _ (fun i => sum n (fun k => sum n (fun l => (s k * y k) * (s l * y l) * (U i k * U i l))))).
  - rewrite sum_swap. apply sum_ext. intros k Hk. rewrite sum_swap.
    rewrite (sum_ext n _ (fun l => (s k * y k) * (s l * y l) * eye k l)).
    + rewrite (sum_eye n k (fun l => (s k * y k) * (s l * y l)) Hk). ring.
    + intros l Hl. rewrite sum_scal_l.
      destruct (Req_dec (s k) 0) as [Z|Nk]; [rewrite Z; ring|]. destruct (Req_dec (s l) 0) as [Z|Nl]; [rewrite Z; ring|].
      rewrite <- (HU k l Hk Hl Nk Nl). reflexivity.
  - intros i Hi. rewrite E by exact Hi. rewrite sum_product. apply sum_ext. intros k _. apply sum_ext. intros l _. ring.
Qed.
Lemma orthogonal_norm n Vt x : meq n n (mmul n (tr Vt) Vt) eye -> vdot n (mvec n Vt x) (mvec n Vt x) = vdot n x x.
Proof.
  intros H. rewrite vdot_tr. apply vdot_ext; [|intros i _; reflexivity]. intros i Hi.
  rewrite <- mvec_mmul. rewrite (mvec_ext n n _ eye x x H (fun _ _ => eq_refl) i Hi). apply mvec_eye, Hi.
Qed.
(** the last row of Vt has least energy *)
Lemma full_svd_last m n A U s Vt : full_svd m (S n) A U s Vt -> least_direction m (S n) A (fun j => Vt n j).
Proof.
  intros F. assert (F' := F). destruct F' as (_ & _ & HV & HV' & S0 & SD). split.
  - assert (E := HV n n ltac:(lia) ltac:(lia)). unfold eye in E. rewrite Nat.eqb_refl in E. exact E.
  - intros x Ux. rewrite !(full_svd_energy _ _ _ _ _ _ _ F).
    assert (L : sum (S n) (fun k => s k * s k * (mvec (S n) Vt (fun j => Vt n j) k * mvec (S n) Vt (fun j => Vt n j) k)) = s n * s n).
    { assert (Y : forall k, (k < S n)%nat -> mvec (S n) Vt (fun j => Vt n j) k = eye k n) by (intros k Hk; exact (HV k n Hk ltac:(lia))).
      rewrite (sum_single _ _ n); [|lia|].
      - rewrite Y by lia. unfold eye. rewrite Nat.eqb_refl. ring.
      - intros k Hk N. rewrite Y by exact Hk. unfold eye. rewrite (proj2 (Nat.eqb_neq k n) N). ring. }
    rewrite L. rewrite <- (orthogonal_norm (S n) Vt x HV') in Ux. unfold vdot in Ux.
    replace (s n * s n) with (sum (S n) (fun k => s n * s n * (mvec (S n) Vt x k * mvec (S n) Vt x k))) by (rewrite sum_scal_l, Ux; ring).
    apply sum_le. intros k Hk. apply Rmult_le_compat_r; [apply Rle_0_sqr|].
    assert (s n <= s k) by (apply SD; lia). assert (0 <= s n) by (apply S0; lia). apply Rmult_le_compat; assumption.
Qed.
Lemma vdot_self_nonneg n x : 0 <= vdot n x x.
Proof. apply sum_nonneg. intros. apply Rle_0_sqr. Qed.
Lemma vdot_self_pos n x i : (i < n)%nat -> x i <> 0 -> 0 < vdot n x x.
Proof.
  intros Hi N. destruct (Req_dec (vdot n x x) 0) as [Z|NZ].
  - exfalso. apply N. assert (E := sum_nonneg_zero n (fun i => x i * x i) (fun i _ => Rle_0_sqr (x i)) Z i Hi). cbv beta in E. apply Rmult_integral in E. tauto.
  - assert (H := vdot_self_nonneg n x). lra.
Qed.
(** if the system has a solution that does not vanish, a direction of least energy is one *)
Lemma least_direction_kernel m n A v x : least_direction m n A v -> (exists i, (i < n)%nat /\ x i <> 0) ->
  (forall i, (i < m)%nat -> mvec n A x i = 0) -> forall i, (i < m)%nat -> mvec n A v i = 0.
Proof.
  intros [U L] (k & Hk & N) Z. assert (P := vdot_self_pos n x k Hk N). set (c := / sqrt (vdot n x x)).
  assert (Q := sqrt_lt_R0 _ P). assert (QQ := sqrt_sqrt (vdot n x x) ltac:(lra)).
  assert (U1 : vdot n (fun i => c * x i) (fun i => c * x i) = 1).
  { transitivity (c * c * vdot n x x). { unfold vdot. rewrite <- sum_scal_l. apply sum_ext. intros; ring. }
    unfold c. rewrite <- QQ. rewrite QQ at 1 2. field. lra. }
  assert (E := L _ U1). assert (EZ : energy m n A (fun i => c * x i) = 0).
  { apply sum_zero. intros i Hi. assert (M : mvec n A (fun i => c * x i) i = c * mvec n A x i) by (unfold mvec; rewrite <- sum_scal_l; apply sum_ext; intros; ring).
    rewrite M, Z by exact Hi. ring. }
  rewrite EZ in E. assert (P0 : 0 <= energy m n A v) by (apply sum_nonneg; intros; apply Rle_0_sqr).
  intros i Hi. assert (G := sum_nonneg_zero m (fun i => mvec n A v i * mvec n A v i) (fun i _ => Rle_0_sqr _) ltac:(unfold energy in *; lra) i Hi).
  cbv beta in G. apply Rmult_integral in G. tauto.
Qed.

(** ** systems given by rows *)
Definition solves (n : nat) (rows : list vect) (x : vect) : Prop := forall r, In r rows -> vdot n r x = 0.
Lemma rows_solves n rows x : solves n rows x <-> (forall i, (i < length rows)%nat -> mvec n (rows_mat rows) x i = 0).
Proof.
  split.
  - intros H i Hi. apply (H (nth i rows (fun _ => 0))). apply nth_In, Hi.
  - intros H r Hr. destruct (In_nth _ _ (fun _ => 0) Hr) as (i & Hi & E). rewrite <- E. exact (H i Hi).
Qed.
(** sum of squares over the rows *)
Lemma rows_energy n rows x : energy (length rows) n (rows_mat rows) x = fold_right (fun r a => vdot n r x * vdot n r x + a) 0 rows.
Proof.
  unfold energy, mvec, rows_mat. induction rows as [|r rows IH]; [reflexivity|].
  cbn [fold_right length]. rewrite <- IH. change (S (length rows)) with (1 + length rows)%nat. rewrite sum_split. cbn [sum nth]. unfold vdot. rewrite Rplus_0_l. f_equal.
Qed.
Lemma solves_app n a b x : solves n (a ++ b) x <-> solves n a x /\ solves n b x.
Proof.
  unfold solves. split.
  - intros H. split; intros r Hr; apply H, in_or_app; tauto.
  - intros [H1 H2] r Hr. apply in_app_or in Hr. destruct Hr; auto.
Qed.
Lemma solves_flat_map {A} n (f : A -> list vect) l x : solves n (flat_map f l) x <-> forall a, In a l -> solves n (f a) x.
Proof.
  split.
  - intros H a Ha r Hr. apply H. apply in_flat_map. exists a. tauto.
  - intros H r Hr. apply in_flat_map in Hr. destruct Hr as (a & Ha & Hr). exact (H a Ha r Hr).
Qed.
Lemma solves_map {A} n (f : A -> vect) l x : solves n (map f l) x <-> forall a, In a l -> vdot n (f a) x = 0.
Proof.
  split.
  - intros H a Ha. apply H, in_map, Ha.
  - intros H r Hr. apply in_map_iff in Hr. destruct Hr as (a & <- & Ha). apply H, Ha.
Qed.
Lemma solves_two n a b x : solves n [a; b] x <-> vdot n a x = 0 /\ vdot n b x = 0.
Proof.
  unfold solves. cbn [In]. split; [auto|]. intros [A B] r [<-|[<-|[]]]; assumption.
Qed.

(** ** scales *)
Lemma scale_ok_iff n sc : scale_ok n sc = true <-> forall i, (i < n)%nat -> sc i <> 0.
Proof.
  unfold scale_ok. rewrite forallb_forall. split.
  - intros H i Hi. specialize (H i (proj2 (in_seq n 0 i) ltac:(lia))). destruct (Req_EM_T (sc i) 0); [discriminate|assumption].
  - intros H i Hi. apply in_seq in Hi. destruct (Req_EM_T (sc i) 0) as [Z|]; [|reflexivity]. exfalso. apply (H i); [lia|exact Z].
Qed.

(** ** what a matrix does to a correspondence *)
(** the image of the point is a multiple of the other point: t ~ H f, also satisfied when H f = 0 *)
Definition incident_at (e t : vect) : Prop := e 0%nat = t 0%nat * e 2%nat /\ e 1%nat = t 1%nat * e 2%nat.
Definition hmaps (H : mat) (f t : vect) : Prop := incident_at (mvec 3 H (hom2 f)) t.
Definition pmaps (P : mat) (f t : vect) : Prop := incident_at (mvec 4 P (hom3 f)) t.
(** t^T F f = 0 *)
Definition epipolar (F : mat) (f t : vect) : Prop := vdot 3 (hom2 t) (mvec 3 F (hom2 f)) = 0.
(** row-major entries *)
Definition entries (n : nat) (H : mat) : vect := fun k => H (k / n)%nat (k mod n)%nat.
Definition of_entries (n : nat) (v : vect) : mat := fun i j => v (n * i + j)%nat.
Lemma entries_of n m v : meq m n (fun i j => entries n (of_entries n v) (n * i + j)%nat) (of_entries n v).
Proof. intros i j Hi Hj. unfold entries, of_entries. f_equal. rewrite <- Nat.div_mod; lia. Qed.

Ltac un_vec := unfold vdot, mvec, entries, hom2, hom3, vlist; cbn [sum nth Nat.div Nat.modulo Nat.divmod fst snd Nat.sub].
Lemma homography_rows_iff H f t : solves 9 (homography_rows f t) (entries 3 H) <-> hmaps H f t.
Proof.
  unfold homography_rows. rewrite solves_two. unfold hmaps, incident_at. un_vec. split; intros [A B]; split; lra.
Qed.
Lemma projection_rows_iff P f t : solves 12 (projection_rows f t) (entries 4 P) <-> pmaps P f t.
Proof.
  unfold projection_rows. rewrite solves_two. unfold pmaps, incident_at. un_vec. split; intros [A B]; split; lra.
Qed.
Lemma fm_row_iff F f t : vdot 9 (fm_row f t) (entries 3 F) = 0 <-> epipolar F f t.
Proof. unfold fm_row, epipolar. un_vec. split; intros A; lra. Qed.

(** ** undoing the normalisation *)
Definition denorm_h (fs fc ts tc : vect) (H : mat) : mat := mmul 3 (mmul 3 (norm_matrix 2 ts tc true) H) (norm_matrix 2 fs fc false).
Definition denorm_p (fs fc ts tc : vect) (P : mat) : mat := mmul 4 (mmul 3 (norm_matrix 2 ts tc true) P) (norm_matrix 3 fs fc false).
Definition denorm_f (fs : vect) (fc : R) (ts : vect) (tc : R) (F : mat) : mat := mmul 3 (mmul 3 (tr (mod_matrix ts tc)) F) (mod_matrix fs fc).
Lemma incident_denorm ts tc e t : tc 0%nat <> 0 -> tc 1%nat <> 0 ->
  (incident_at (mvec 3 (norm_matrix 2 ts tc true) e) t <-> incident_at e (normalize_point ts tc t)).
Proof.
  intros N0 N1. unfold incident_at. rewrite !norm_matrix_apply by lia. cbn [Nat.eqb]. unfold normalize_point. split; intros [A B]; split.
  - replace (e 0%nat) with ((tc 0%nat * e 0%nat + ts 0%nat * e 2%nat - ts 0%nat * e 2%nat) / tc 0%nat) by (field; exact N0). rewrite A. field. exact N0.
  - replace (e 1%nat) with ((tc 1%nat * e 1%nat + ts 1%nat * e 2%nat - ts 1%nat * e 2%nat) / tc 1%nat) by (field; exact N1). rewrite B. field. exact N1.
  - rewrite A. field. exact N0.
  - rewrite B. field. exact N1.
Qed.
Lemma denorm_h_iff fs fc ts tc H f t : (forall i, (i < 2)%nat -> fc i <> 0) -> (forall i, (i < 2)%nat -> tc i <> 0) ->
  (hmaps H (normalize_point fs fc f) (normalize_point ts tc t) <-> hmaps (denorm_h fs fc ts tc H) f t).
Proof.
  intros NF NT. unfold hmaps. assert (E : veq 3 (mvec 3 (denorm_h fs fc ts tc H) (hom2 f)) (mvec 3 (norm_matrix 2 ts tc true) (mvec 3 H (hom2 (normalize_point fs fc f))))).
  { intros i Hi. unfold denorm_h. rewrite mvec_mmul, mvec_mmul.
    assert (G : veq 3 (mvec 3 (norm_matrix 2 fs fc false) (hom2 f)) (hom2 (normalize_point fs fc f))).
    { intros k Hk. rewrite norm_matrix_apply by lia. assert (fc 0%nat <> 0) by (apply NF; lia). assert (fc 1%nat <> 0) by (apply NF; lia).
      destruct k as [|[|[|]]]; try lia; cbn [Nat.eqb]; unfold hom2, normalize_point, vlist; cbn [nth]; try reflexivity; field; assumption. }
    apply (mvec_ext 3 3); [apply meq_refl| |exact Hi]. apply (mvec_ext 3 3); [apply meq_refl|exact G]. }
  rewrite <- incident_denorm by (apply NT; lia). unfold incident_at. rewrite !E by lia. tauto.
Qed.
Lemma denorm_p_iff fs fc ts tc P f t : (forall i, (i < 3)%nat -> fc i <> 0) -> (forall i, (i < 2)%nat -> tc i <> 0) ->
  (pmaps P (normalize_point fs fc f) (normalize_point ts tc t) <-> pmaps (denorm_p fs fc ts tc P) f t).
Proof.
  intros NF NT. unfold pmaps. assert (E : veq 3 (mvec 4 (denorm_p fs fc ts tc P) (hom3 f)) (mvec 3 (norm_matrix 2 ts tc true) (mvec 4 P (hom3 (normalize_point fs fc f))))).
  { intros i Hi. unfold denorm_p. rewrite mvec_mmul, mvec_mmul.
    assert (G : veq 4 (mvec 4 (norm_matrix 3 fs fc false) (hom3 f)) (hom3 (normalize_point fs fc f))).
    { intros k Hk. rewrite norm_matrix_apply by lia. assert (fc 0%nat <> 0) by (apply NF; lia). assert (fc 1%nat <> 0) by (apply NF; lia). assert (fc 2%nat <> 0) by (apply NF; lia).
      destruct k as [|[|[|[|]]]]; try lia; cbn [Nat.eqb]; unfold hom3, normalize_point, vlist; cbn [nth]; try reflexivity; field; assumption. }
    apply (mvec_ext 3 3); [apply meq_refl| |exact Hi]. apply (mvec_ext 4 3); [apply meq_refl|exact G]. }
  rewrite <- incident_denorm by (apply NT; lia). unfold incident_at. rewrite !E by lia. tauto.
Qed.
Lemma denorm_f_eq fs fc ts tc F f t :
  vdot 3 (hom2 t) (mvec 3 (denorm_f fs fc ts tc F) (hom2 f)) = vdot 3 (hom2 (fm_point ts tc t)) (mvec 3 F (hom2 (fm_point fs fc f))).
Proof.
  unfold denorm_f, mod_matrix, fm_point, mmul, tr, mlist. un_vec. ring.
Qed.
Lemma denorm_f_iff fs fc ts tc F f t : epipolar F (fm_point fs fc f) (fm_point ts tc t) <-> epipolar (denorm_f fs fc ts tc F) f t.
Proof. unfold epipolar. rewrite denorm_f_eq. tauto. Qed.
(** ... and doing it: inverse maps, so every solution of the original problem comes from one of the normalised problem *)
Definition renorm_h (fs fc ts tc : vect) (H : mat) : mat := mmul 3 (mmul 3 (norm_matrix 2 ts tc false) H) (norm_matrix 2 fs fc true).
Definition renorm_p (fs fc ts tc : vect) (P : mat) : mat := mmul 4 (mmul 3 (norm_matrix 2 ts tc false) P) (norm_matrix 3 fs fc true).
Definition renorm_f (fs : vect) (fc : R) (ts : vect) (tc : R) (F : mat) : mat :=
  mmul 3 (mmul 3 (mlist [[/ tc; 0; 0]; [0; / tc; 0]; [ts 0%nat; ts 1%nat; 1]]) F) (mlist [[/ fc; 0; fs 0%nat]; [0; / fc; fs 1%nat]; [0; 0; 1]]).
Lemma sandwich_cancel a b A B A' B' M : meq a a (mmul a A A') eye -> meq b b (mmul b B B') eye ->
  meq a b (mmul b (mmul a A (mmul b (mmul a A' M) B)) B') M.
Proof.
  intros HA HB i j Hi Hj.
  transitivity (mmul b (mmul b (mmul a A (mmul a A' M)) B) B' i j).
  { unfold mmul at 1 5. apply sum_ext. intros l _. f_equal. symmetry. apply mmul_assoc. }
  rewrite mmul_assoc.
  transitivity (mmul b (mmul a A (mmul a A' M)) eye i j); [apply mmul_ext_r; intros l Hl; apply HB; assumption|].
  rewrite mmul_eye_r by exact Hj. rewrite <- mmul_assoc.
  transitivity (mmul a eye M i j); [apply mmul_ext_l; intros l Hl; apply HA; assumption|].
  apply mmul_eye_l, Hi.
Qed.
Lemma denorm_renorm_h fs fc ts tc H : (forall i, (i < 2)%nat -> fc i <> 0) -> (forall i, (i < 2)%nat -> tc i <> 0) -> meq 3 3 (denorm_h fs fc ts tc (renorm_h fs fc ts tc H)) H.
Proof.
  intros NF NT. apply (sandwich_cancel 3 3); [exact (proj1 (normalization_matrix_inverse 2 ts tc NT))|exact (proj1 (normalization_matrix_inverse 2 fs fc NF))].
Qed.
Lemma renorm_denorm_h fs fc ts tc H : (forall i, (i < 2)%nat -> fc i <> 0) -> (forall i, (i < 2)%nat -> tc i <> 0) -> meq 3 3 (renorm_h fs fc ts tc (denorm_h fs fc ts tc H)) H.
Proof.
  intros NF NT. apply (sandwich_cancel 3 3); [exact (proj2 (normalization_matrix_inverse 2 ts tc NT))|exact (proj2 (normalization_matrix_inverse 2 fs fc NF))].
Qed.
Lemma denorm_renorm_p fs fc ts tc P : (forall i, (i < 3)%nat -> fc i <> 0) -> (forall i, (i < 2)%nat -> tc i <> 0) -> meq 3 4 (denorm_p fs fc ts tc (renorm_p fs fc ts tc P)) P.
Proof.
  intros NF NT. apply (sandwich_cancel 3 4); [exact (proj1 (normalization_matrix_inverse 2 ts tc NT))|exact (proj1 (normalization_matrix_inverse 3 fs fc NF))].
Qed.
Lemma renorm_denorm_p fs fc ts tc P : (forall i, (i < 3)%nat -> fc i <> 0) -> (forall i, (i < 2)%nat -> tc i <> 0) -> meq 3 4 (renorm_p fs fc ts tc (denorm_p fs fc ts tc P)) P.
Proof.
  intros NF NT. apply (sandwich_cancel 3 4); [exact (proj2 (normalization_matrix_inverse 2 ts tc NT))|exact (proj2 (normalization_matrix_inverse 3 fs fc NF))].
Qed.
Lemma denorm_renorm_f fs fc ts tc F : fc <> 0 -> tc <> 0 -> meq 3 3 (denorm_f fs fc ts tc (renorm_f fs fc ts tc F)) F.
Proof.
  intros NF NT. apply (sandwich_cancel 3 3); intros i j Hi Hj; unfold mmul, tr, mod_matrix, eye, mlist;
    (destruct i as [|[|[|]]]; try lia); (destruct j as [|[|[|]]]; try lia); cbn [sum nth Nat.eqb]; field; assumption.
Qed.
Lemma renorm_denorm_f fs fc ts tc F : fc <> 0 -> tc <> 0 -> meq 3 3 (renorm_f fs fc ts tc (denorm_f fs fc ts tc F)) F.
Proof.
  intros NF NT. apply (sandwich_cancel 3 3); intros i j Hi Hj; unfold mmul, tr, mod_matrix, eye, mlist;
    (destruct i as [|[|[|]]]; try lia); (destruct j as [|[|[|]]]; try lia); cbn [sum nth Nat.eqb]; field; assumption.
Qed.
(** the constraints only look at the entries *)
Lemma hmaps_ext H H' f t : meq 3 3 H H' -> (hmaps H f t <-> hmaps H' f t).
Proof. intros E. unfold hmaps, incident_at. rewrite !(mvec_ext 3 3 H H' (hom2 f) (hom2 f) E (fun _ _ => eq_refl)) by lia. tauto. Qed.
Lemma pmaps_ext H H' f t : meq 3 4 H H' -> (pmaps H f t <-> pmaps H' f t).
Proof. intros E. unfold pmaps, incident_at. rewrite !(mvec_ext 4 3 H H' (hom3 f) (hom3 f) E (fun _ _ => eq_refl)) by lia. tauto. Qed.
Lemma epipolar_ext H H' f t : meq 3 3 H H' -> (epipolar H f t <-> epipolar H' f t).
Proof.
  intros E. unfold epipolar. rewrite (vdot_ext 3 (hom2 t) (hom2 t) (mvec 3 H (hom2 f)) (mvec 3 H' (hom2 f)) (fun _ _ => eq_refl) (mvec_ext 3 3 H H' (hom2 f) (hom2 f) E (fun _ _ => eq_refl))). tauto.
Qed.
(** a matrix that vanishes is un-normalised to one that vanishes *)
Lemma sandwich_zero a b A B M : meq a b M mzero -> meq a b (mmul b (mmul a A M) B) mzero.
Proof.
  intros Z i j Hi Hj. unfold mzero. apply sum_zero. intros l Hl. replace (mmul a A M i l) with 0; [ring|]. symmetry. apply sum_zero. intros k Hk. rewrite Z by assumption. unfold mzero. ring.
Qed.
Lemma sandwich_scale a b A B M c i j : mmul b (mmul a A (mscale c M)) B i j = c * mmul b (mmul a A M) B i j.
Proof.
  unfold mmul. rewrite <- sum_scal_l. apply sum_ext. intros l _. rewrite <- Rmult_assoc. f_equal. rewrite <- sum_scal_l. apply sum_ext. intros k _. unfold mscale. ring.
Qed.

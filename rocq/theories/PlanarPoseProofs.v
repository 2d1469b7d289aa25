(** Lemmas about pose estimation from planar and general 2D-3D correspondences. *)
From Coq Require Import Reals List Arith Bool Lra Lia Psatz.
Import ListNotations.
From Verif Require Import Mat Quat QuatProofs QuatProps LinAlg AbsOrient AbsOrientProofs Dlt Jacobians LevMarq BackProp ProjectionProofs OrthoIter OrthoIterProofs OrthoIterProps PlanarPose.
Open Scope R_scope.

(** ** Contracts *)
Definition orthonormal (n : nat) (m : mat) : Prop := meq n n (mmul n (tr m) m) eye /\ meq n n (mmul n m (tr m)) eye.
Definition svd32_ok (A : mat) (r : vect * mat * mat) : Prop :=
  let '(s, u, vt) := r in
  orthonormal 3 u /\ orthonormal 2 vt /\ 0 <= s 0%nat /\ 0 <= s 1%nat /\
  meq 3 2 A (fun i j => u i 0%nat * s 0%nat * vt 0%nat j + u i 1%nat * s 1%nat * vt 1%nat j).
Definition svd33_ok (A : mat) (r : vect * mat * mat) : Prop :=
  let '(s, u, vt) := r in
  orthonormal 3 u /\ orthonormal 3 vt /\ (forall i, (i < 3)%nat -> 0 <= s i) /\
  meq 3 3 A (fun i j => sum 3 (fun k => u i k * s k * vt k j)).

Lemma orthonormal_mul n A B : orthonormal n A -> orthonormal n B -> orthonormal n (mmul n A B).
Proof.
  intros [A1 A2] [B1 B2]. split; intros i j Hi Hj.
  - transitivity (mmul n (tr B) (mmul n (mmul n (tr A) A) B) i j).
    + transitivity (mmul n (mmul n (tr B) (tr A)) (mmul n A B) i j).
      * apply (mmul_ext n n n); [intros a b _ _; apply mmul_tr|apply meq_refl|exact Hi|exact Hj].
      * rewrite mmul_assoc. apply (mmul_ext n n n); [apply meq_refl| |exact Hi|exact Hj]. intros a b _ _. symmetry. apply mmul_assoc.
    + transitivity (mmul n (tr B) B i j); [|apply B1; assumption]. apply (mmul_ext n n n); [apply meq_refl| |exact Hi|exact Hj].
      intros a b Ha Hb. transitivity (mmul n eye B a b); [apply (mmul_ext n n n); [exact A1|apply meq_refl|exact Ha|exact Hb]|apply mmul_eye_l; exact Ha].
  - transitivity (mmul n A (mmul n (mmul n B (tr B)) (tr A)) i j).
    + transitivity (mmul n (mmul n A B) (mmul n (tr B) (tr A)) i j).
      * apply (mmul_ext n n n); [apply meq_refl|intros a b _ _; apply mmul_tr|exact Hi|exact Hj].
      * rewrite mmul_assoc. apply (mmul_ext n n n); [apply meq_refl| |exact Hi|exact Hj]. intros a b _ _. symmetry. apply mmul_assoc.
    + transitivity (mmul n A (tr A) i j); [|apply A2; assumption]. apply (mmul_ext n n n); [apply meq_refl| |exact Hi|exact Hj].
      intros a b Ha Hb. transitivity (mmul n eye (tr A) a b); [apply (mmul_ext n n n); [exact B2|apply meq_refl|exact Ha|exact Hb]|apply mmul_eye_l; exact Ha].
Qed.
Lemma det33_det3 m : det33 m = det3 m.
Proof. unfold det33, det3. ring. Qed.
Lemma orthonormal_rotation m : orthonormal 3 m -> det3 m = 1 -> rotation m.
Proof. intros [A B] D. split; [exact B|]. split; [exact A|]. rewrite det33_det3. exact D. Qed.
Lemma rotation_orthonormal m : rotation m -> orthonormal 3 m /\ det3 m = 1.
Proof. intros (A & B & D). split; [split; assumption|]. rewrite <- det33_det3. exact D. Qed.
Lemma rotation_meq m m' : meq 3 3 m m' -> rotation m -> rotation m'.
Proof.
  intros E (A & B & D). assert (ET : meq 3 3 (tr m) (tr m')) by (intros i j Hi Hj; unfold tr; apply E; assumption). split; [|split].
  - intros i j Hi Hj. rewrite <- (A i j Hi Hj). symmetry. apply (mmul_ext 3 3 3); assumption.
  - intros i j Hi Hj. rewrite <- (B i j Hi Hj). symmetry. apply (mmul_ext 3 3 3); assumption.
  - rewrite <- D. unfold det33. rewrite !E by lia. reflexivity.
Qed.

(** inner products of columns *)
Lemma orthonormal_col m i j : orthonormal 3 m -> (i < 3)%nat -> (j < 3)%nat -> dot3 (col3 m i) (col3 m j) = eye i j.
Proof. intros [A _] Hi Hj. rewrite <- (A i j Hi Hj). unfold mmul, tr, dot3, col3. cbn [sum vx vy vz]. ring. Qed.
Lemma rotation_col m i j : rotation m -> (i < 3)%nat -> (j < 3)%nat -> dot3 (col3 m i) (col3 m j) = eye i j.
Proof. intros H. apply orthonormal_col. apply rotation_orthonormal. exact H. Qed.
(** the third column of a rotation is the cross product of the others *)
Lemma rotation_third m : rotation m -> col3 m 2 = cross3 (col3 m 0) (col3 m 1).
Proof.
  intros H. pose proof (rotation_col m 0 0 H ltac:(lia) ltac:(lia)) as C00. pose proof (rotation_col m 1 1 H ltac:(lia) ltac:(lia)) as C11.
  pose proof (rotation_col m 2 2 H ltac:(lia) ltac:(lia)) as C22. pose proof (rotation_col m 0 1 H ltac:(lia) ltac:(lia)) as C01.
  unfold eye in *. cbn in C00, C11, C22, C01. destruct H as (_ & _ & D).
  set (x := col3 m 0) in *. set (y := col3 m 1) in *. set (z := col3 m 2) in *.
  assert (DZ : dot3 z (cross3 x y) = 1) by (rewrite <- D; unfold det33, dot3, cross3, x, y, z, col3; cbn; ring).
  assert (CC : sq3 (cross3 x y) = dot3 x x * dot3 y y - dot3 x y * dot3 x y) by (destruct x, y; unfold sq3, dot3, cross3; cbn; ring).
  assert (ZZ : sq3 (v3sub z (cross3 x y)) = sq3 z + sq3 (cross3 x y) - 2 * dot3 z (cross3 x y)).
  { generalize (cross3 x y). intros w. destruct z, w. unfold sq3, dot3. cbn. ring. }
  rewrite DZ, CC, C00, C11, C01 in ZZ. change (sq3 z) with (dot3 z z) in ZZ. rewrite C22 in ZZ.
  assert (Z0 : sq3 (v3sub z (cross3 x y)) = 0) by lra. apply sq3_zero in Z0.
  pose proof (f_equal vx Z0) as E1. pose proof (f_equal vy Z0) as E2. pose proof (f_equal vz Z0) as E3. cbn [v3sub v3zero vx vy vz] in E1, E2, E3.
  apply v3_ext; lra.
Qed.
Lemma rotation_by_two m m' : rotation m -> rotation m' -> meq 3 2 m m' -> meq 3 3 m m'.
Proof.
  intros H H' E i j Hi Hj. destruct (Nat.lt_ge_cases j 2) as [L|L]; [apply E; assumption|].
  assert (j = 2)%nat by lia. subst j. pose proof (rotation_third m H) as T. pose proof (rotation_third m' H') as T'.
  assert (C : col3 m 2 = col3 m' 2).
  { rewrite T, T'. unfold col3. rewrite !E by lia. reflexivity. }
  pose proof (f_equal vx C) as E1. pose proof (f_equal vy C) as E2. pose proof (f_equal vz C) as E3. cbn [col3 vx vy vz] in E1, E2, E3.
  idx i Hi; assumption.
Qed.
Lemma qmat_rot q q' : unit q -> unit q' -> meq 3 3 (qmat q') (qmat q) -> forall x, qrot q' x = qrot q x.
Proof. intros U U' E x. rewrite <- !mv3_qmat by assumption. apply mv3_meq. exact E. Qed.

(** ** The orthogonal factor *)
Lemma block_orthonormal vt c : orthonormal 2 vt -> c * c = 1 ->
  orthonormal 3 (mk33 (vt 0%nat 0%nat) (vt 0%nat 1%nat) 0 (vt 1%nat 0%nat) (vt 1%nat 1%nat) 0 0 0 c).
Proof.
  intros [A B] C.
  pose proof (A 0%nat 0%nat ltac:(lia) ltac:(lia)) as A00. pose proof (A 0%nat 1%nat ltac:(lia) ltac:(lia)) as A01. pose proof (A 1%nat 1%nat ltac:(lia) ltac:(lia)) as A11.
  pose proof (B 0%nat 0%nat ltac:(lia) ltac:(lia)) as B00. pose proof (B 0%nat 1%nat ltac:(lia) ltac:(lia)) as B01. pose proof (B 1%nat 1%nat ltac:(lia) ltac:(lia)) as B11.
  unfold mmul, tr, eye in A00, A01, A11, B00, B01, B11. cbn in A00, A01, A11, B00, B01, B11.
  split; intros i j Hi Hj; idx i Hi; idx j Hj; unfold mmul, tr, mk33, eye; cbn; lra.
Qed.
Lemma det2_square vt : orthonormal 2 vt -> det2 vt * det2 vt = 1.
Proof.
  intros [A B].
  pose proof (A 0%nat 0%nat ltac:(lia) ltac:(lia)) as A00. pose proof (A 0%nat 1%nat ltac:(lia) ltac:(lia)) as A01. pose proof (A 1%nat 1%nat ltac:(lia) ltac:(lia)) as A11.
  unfold mmul, tr, eye in A00, A01, A11. cbn in A00, A01, A11. unfold det2.
  set (a := vt 0%nat 0%nat) in *. set (b := vt 0%nat 1%nat) in *. set (c := vt 1%nat 0%nat) in *. set (d := vt 1%nat 1%nat) in *.
  transitivity ((0 + a * a + c * c) * (0 + b * b + d * d) - (0 + a * b + c * d) * (0 + a * b + c * d)); [ring|]. rewrite A00, A01, A11. ring.
Qed.
Lemma det3_square u : orthonormal 3 u -> det3 u * det3 u = 1.
Proof. intros [_ B]. destruct (orthogonal_det u B) as [-> | ->]; ring. Qed.

Lemma orthogonal_svd_rotation svd r : svd32_ok r (svd r) -> rotation (orthogonal_svd svd r).
Proof.
  unfold svd32_ok, orthogonal_svd. destruct (svd r) as [[s u] vt]. intros (U & V & _ & _ & _).
  pose proof (det2_square vt V) as D2. pose proof (det3_square u U) as D3.
  apply orthonormal_rotation.
  - apply orthonormal_mul; [exact U|]. apply block_orthonormal; [exact V|].
    transitivity (det2 vt * det2 vt * (det3 u * det3 u)); [ring|]. rewrite D2, D3. ring.
  - rewrite det3_mmul. transitivity (det2 vt * det2 vt * (det3 u * det3 u)); [|rewrite D2, D3; ring].
    unfold det3 at 2, mk33, det2. cbn. ring.
Qed.

(** the first two columns are u2 v^T *)
Lemma orthogonal_svd_cols svd r s u vt : svd r = (s, u, vt) -> forall i j, (i < 3)%nat -> (j < 2)%nat ->
  orthogonal_svd svd r i j = u i 0%nat * vt 0%nat j + u i 1%nat * vt 1%nat j.
Proof.
  intros E i j Hi Hj. unfold orthogonal_svd. rewrite E. unfold mmul, mk33. cbn [sum]. idx j Hj; cbn; ring.
Qed.
Lemma factor_right r s u vt : svd32_ok r (s, u, vt) -> forall i k, (i < 3)%nat -> (k < 2)%nat ->
  r i 0%nat * vt k 0%nat + r i 1%nat * vt k 1%nat = u i k * s k.
Proof.
  intros (_ & [_ B] & _ & _ & E) i k Hi Hk. rewrite (E i 0%nat), (E i 1%nat) by lia.
  pose proof (B 0%nat 0%nat ltac:(lia) ltac:(lia)) as B00. pose proof (B 0%nat 1%nat ltac:(lia) ltac:(lia)) as B01. pose proof (B 1%nat 1%nat ltac:(lia) ltac:(lia)) as B11.
  unfold mmul, tr, eye in B00, B01, B11. cbn in B00, B01, B11. idx k Hk.
  - transitivity (u i 0%nat * s 0%nat * (0 + vt 0%nat 0%nat * vt 0%nat 0%nat + vt 0%nat 1%nat * vt 0%nat 1%nat) + u i 1%nat * s 1%nat * (0 + vt 0%nat 0%nat * vt 1%nat 0%nat + vt 0%nat 1%nat * vt 1%nat 1%nat)); [ring|].
    rewrite B00, B01. ring.
  - transitivity (u i 1%nat * s 1%nat * (0 + vt 1%nat 0%nat * vt 1%nat 0%nat + vt 1%nat 1%nat * vt 1%nat 1%nat) + u i 0%nat * s 0%nat * (0 + vt 0%nat 0%nat * vt 1%nat 0%nat + vt 0%nat 1%nat * vt 1%nat 1%nat)); [ring|].
    rewrite B11, B01. ring.
Qed.
Lemma rdotv (vt : mat) k : orthonormal 2 vt -> (k < 2)%nat -> vt k 0%nat * vt k 0%nat + vt k 1%nat * vt k 1%nat = 1.
Proof. intros [_ B] Hk. pose proof (B k k Hk Hk) as E. unfold mmul, tr, eye in E. rewrite Nat.eqb_refl in E. cbn [sum] in E. lra. Qed.

(** a multiple of a rotation is found *)
Lemma orthogonal_svd_exact svd r m c : svd32_ok r (svd r) -> rotation m -> 0 < c -> meq 3 2 r (mscale c m) ->
  meq 3 3 (orthogonal_svd svd r) m.
Proof.
  intros HS HM HC E. apply rotation_by_two; [apply orthogonal_svd_rotation; exact HS|exact HM|].
  destruct (svd r) as [[s u] vt] eqn:ES. pose proof HS as (HU & HV & S0 & S1 & A).
  pose proof (rotation_col m 0 0 HM ltac:(lia) ltac:(lia)) as C00. pose proof (rotation_col m 1 1 HM ltac:(lia) ltac:(lia)) as C11.
  pose proof (rotation_col m 0 1 HM ltac:(lia) ltac:(lia)) as C01. unfold eye, dot3, col3 in C00, C11, C01. cbn in C00, C11, C01.
  assert (SK : forall k, (k < 2)%nat -> s k = c).
  { intros k Hk. assert (SN : 0 <= s k) by (idx k Hk; assumption).
    pose proof (factor_right r s u vt HS 0%nat k ltac:(lia) Hk) as F0. pose proof (factor_right r s u vt HS 1%nat k ltac:(lia) Hk) as F1. pose proof (factor_right r s u vt HS 2%nat k ltac:(lia) Hk) as F2.
    rewrite !E in F0, F1, F2 by lia. unfold mscale in F0, F1, F2.
    pose proof (orthonormal_col u k k HU ltac:(lia) ltac:(lia)) as UK. unfold eye, dot3, col3 in UK. rewrite Nat.eqb_refl in UK. cbn [vx vy vz] in UK.
    pose proof (rdotv vt k HV Hk) as VK. set (a := vt k 0%nat) in *. set (b := vt k 1%nat) in *.
    assert (SQ : s k * s k = c * c).
    { transitivity ((u 0%nat k * s k) * (u 0%nat k * s k) + (u 1%nat k * s k) * (u 1%nat k * s k) + (u 2%nat k * s k) * (u 2%nat k * s k)).
      - transitivity (s k * s k * (u 0%nat k * u 0%nat k + u 1%nat k * u 1%nat k + u 2%nat k * u 2%nat k)); [rewrite UK; ring|ring].
      - rewrite <- F0, <- F1, <- F2.
        transitivity (c * c * (a * a * (m 0%nat 0%nat * m 0%nat 0%nat + m 1%nat 0%nat * m 1%nat 0%nat + m 2%nat 0%nat * m 2%nat 0%nat) +
          b * b * (m 0%nat 1%nat * m 0%nat 1%nat + m 1%nat 1%nat * m 1%nat 1%nat + m 2%nat 1%nat * m 2%nat 1%nat) +
          2 * a * b * (m 0%nat 0%nat * m 0%nat 1%nat + m 1%nat 0%nat * m 1%nat 1%nat + m 2%nat 0%nat * m 2%nat 1%nat))); [ring|].
        rewrite C00, C11, C01. transitivity (c * c * (a * a + b * b)); [ring|]. rewrite VK. ring. }
    nra. }
  intros i j Hi Hj. rewrite (orthogonal_svd_cols svd r s u vt ES) by assumption.
  apply Rmult_eq_reg_l with c; [|lra]. pose proof (E i j Hi Hj) as EI. unfold mscale in EI. rewrite <- EI, (A i j Hi Hj), !SK by lia. ring.
Qed.

(** no frame of two orthonormal columns is closer to r *)
Definition frame_distance (r m : mat) : R := sum 3 (fun i => sum 2 (fun j => (r i j - m i j) * (r i j - m i j))).
Lemma orthogonal_svd_closest svd r m : svd32_ok r (svd r) -> rotation m ->
  frame_distance r (orthogonal_svd svd r) <= frame_distance r m.
Proof.
  intros HS HM. pose proof (orthogonal_svd_rotation svd r HS) as HQ. destruct (svd r) as [[s u] vt] eqn:ES. pose proof HS as (HU & HV & S0 & S1 & A).
  assert (SPLIT : forall q, rotation q -> frame_distance r q = sum 3 (fun i => sum 2 (fun j => r i j * r i j)) + 2 - 2 * sum 3 (fun i => sum 2 (fun j => r i j * q i j))).
  { intros q Hq. pose proof (rotation_col q 0 0 Hq ltac:(lia) ltac:(lia)) as C0. pose proof (rotation_col q 1 1 Hq ltac:(lia) ltac:(lia)) as C1.
    unfold eye, dot3, col3 in C0, C1. cbn in C0, C1. unfold frame_distance. cbn [sum]. lra. }
  rewrite !SPLIT by assumption.
  assert (T : forall q, sum 3 (fun i => sum 2 (fun j => r i j * q i j)) =
    s 0%nat * sum 3 (fun i => u i 0%nat * (q i 0%nat * vt 0%nat 0%nat + q i 1%nat * vt 0%nat 1%nat)) +
    s 1%nat * sum 3 (fun i => u i 1%nat * (q i 0%nat * vt 1%nat 0%nat + q i 1%nat * vt 1%nat 1%nat))).
  { intros q. cbn [sum]. rewrite !A by lia. ring. }
  rewrite !T.
  assert (LE : forall k, (k < 2)%nat -> sum 3 (fun i => u i k * (m i 0%nat * vt k 0%nat + m i 1%nat * vt k 1%nat)) <= 1).
  { intros k Hk. pose proof (orthonormal_col u k k HU ltac:(lia) ltac:(lia)) as UK. unfold eye, dot3, col3 in UK. rewrite Nat.eqb_refl in UK. cbn [vx vy vz] in UK.
    pose proof (rotation_col m 0 0 HM ltac:(lia) ltac:(lia)) as C00. pose proof (rotation_col m 1 1 HM ltac:(lia) ltac:(lia)) as C11.
    pose proof (rotation_col m 0 1 HM ltac:(lia) ltac:(lia)) as C01. unfold eye, dot3, col3 in C00, C11, C01. cbn in C00, C11, C01.
    pose proof (rdotv vt k HV Hk) as VK. set (a := vt k 0%nat) in *. set (b := vt k 1%nat) in *.
    set (w := fun i => m i 0%nat * a + m i 1%nat * b).
    assert (W : w 0%nat * w 0%nat + w 1%nat * w 1%nat + w 2%nat * w 2%nat = 1).
    { unfold w. transitivity (a * a * (m 0%nat 0%nat * m 0%nat 0%nat + m 1%nat 0%nat * m 1%nat 0%nat + m 2%nat 0%nat * m 2%nat 0%nat) +
          b * b * (m 0%nat 1%nat * m 0%nat 1%nat + m 1%nat 1%nat * m 1%nat 1%nat + m 2%nat 1%nat * m 2%nat 1%nat) +
          2 * a * b * (m 0%nat 0%nat * m 0%nat 1%nat + m 1%nat 0%nat * m 1%nat 1%nat + m 2%nat 0%nat * m 2%nat 1%nat)); [ring|].
      rewrite C00, C11, C01. lra. }
    change (sum 3 (fun i => u i k * w i) <= 1). cbn [sum].
    pose proof (Rle_0_sqr (u 0%nat k - w 0%nat)). pose proof (Rle_0_sqr (u 1%nat k - w 1%nat)). pose proof (Rle_0_sqr (u 2%nat k - w 2%nat)). unfold Rsqr in *. lra. }
  assert (EQ : forall k, (k < 2)%nat -> sum 3 (fun i => u i k * (orthogonal_svd svd r i 0%nat * vt k 0%nat + orthogonal_svd svd r i 1%nat * vt k 1%nat)) = 1).
  { intros k Hk. pose proof (orthonormal_col u k k HU ltac:(lia) ltac:(lia)) as UK. unfold eye, dot3, col3 in UK. rewrite Nat.eqb_refl in UK. cbn [vx vy vz] in UK.
    rewrite (sum_ext 3 _ (fun i => u i k * u i k)); [cbn [sum]; lra|]. intros i Hi. rewrite !(orthogonal_svd_cols svd r s u vt ES) by lia.
    destruct HV as [_ B]. pose proof (B 0%nat 0%nat ltac:(lia) ltac:(lia)) as B00. pose proof (B 0%nat 1%nat ltac:(lia) ltac:(lia)) as B01. pose proof (B 1%nat 1%nat ltac:(lia) ltac:(lia)) as B11.
    unfold mmul, tr, eye in B00, B01, B11. cbn in B00, B01, B11. f_equal. idx k Hk.
    - transitivity (u i 0%nat * (0 + vt 0%nat 0%nat * vt 0%nat 0%nat + vt 0%nat 1%nat * vt 0%nat 1%nat) + u i 1%nat * (0 + vt 0%nat 0%nat * vt 1%nat 0%nat + vt 0%nat 1%nat * vt 1%nat 1%nat)); [ring|]. rewrite B00, B01. ring.
    - transitivity (u i 1%nat * (0 + vt 1%nat 0%nat * vt 1%nat 0%nat + vt 1%nat 1%nat * vt 1%nat 1%nat) + u i 0%nat * (0 + vt 0%nat 0%nat * vt 1%nat 0%nat + vt 0%nat 1%nat * vt 1%nat 1%nat)); [ring|]. rewrite B11, B01. ring. }
  rewrite !EQ by lia. pose proof (LE 0%nat ltac:(lia)). pose proof (LE 1%nat ltac:(lia)). nra.
Qed.

(** ** The pose of a homography *)
(** the first two columns of the rotation and the translation *)
Definition plane_frame (q : quat) (t : vec3) : mat := fun i j => if (j <? 2)%nat then qmat q i j else of3 t i.
Lemma of3_nth t i : (i < 3)%nat -> of3 t i = match i with 0%nat => vx t | 1%nat => vy t | _ => vz t end.
Proof. intros Hi. idx i Hi; reflexivity. Qed.
Lemma norm3_sq a c : 0 <= c -> dot3 a a = c * c -> norm3 a = c.
Proof. intros Hc H. unfold norm3. unfold dot3 in H. rewrite H. apply sqrt_square. exact Hc. Qed.
Lemma qmat_col q i j : unit q -> (i < 3)%nat -> (j < 3)%nat -> dot3 (col3 (qmat q) i) (col3 (qmat q) j) = eye i j.
Proof. intros U. apply rotation_col. apply qmat_rotation. exact U. Qed.

Lemma signed_nonpos H invK : signed H invK 2%nat 2%nat <= 0.
Proof. unfold signed. cbv zeta. destruct (Rlt_dec 0 _) as [C|C]; [unfold mscale; lra|lra]. Qed.

(** [s] is the sign of the depth of the plane's origin *)
Lemma signed_exact H invK lambda q t : lambda <> 0 -> vz t <> 0 -> meq 3 3 (mmul 3 invK H) (mscale lambda (plane_frame q t)) ->
  meq 3 3 (signed H invK) (mscale (if Rlt_dec (vz t) 0 then Rabs lambda else - Rabs lambda) (plane_frame q t)).
Proof.
  intros HL HT E. unfold signed. cbv zeta. assert (E22 := E 2%nat 2%nat ltac:(lia) ltac:(lia)). rewrite E22.
  unfold mscale at 1, plane_frame at 1. cbn [Nat.ltb Nat.leb]. change (of3 t 2%nat) with (vz t).
  assert (AB : (0 < lambda /\ Rabs lambda = lambda) \/ (lambda < 0 /\ Rabs lambda = - lambda)).
  { destruct (Rtotal_order lambda 0) as [L|[L|L]]; [right|congruence|left]; split; try lra; [apply Rabs_left|apply Rabs_right]; lra. }
  intros i j Hi Hj. destruct (Rlt_dec 0 (lambda * vz t)) as [C|C]; destruct (Rlt_dec (vz t) 0) as [D|D].
  - destruct AB as [[L ->]|[L ->]]; [exfalso; nra|]. unfold mscale at 1. rewrite E by assumption. unfold mscale. ring.
  - destruct AB as [[L ->]|[L ->]]; [|exfalso; assert (0 < vz t) by lra; nra]. unfold mscale at 1. rewrite E by assumption. unfold mscale. ring.
  - destruct AB as [[L ->]|[L ->]]; [|exfalso; nra]. apply E; assumption.
  - destruct AB as [[L ->]|[L ->]]; [exfalso; assert (0 < vz t) by lra; nra|]. rewrite E by assumption. unfold mscale. ring.
Qed.
Lemma translation_exact r c q t : c <> 0 -> unit q -> meq 3 3 r (mscale c (plane_frame q t)) ->
  homography_translation r = Some (v3scale (c / Rabs c) t).
Proof.
  intros HC U E. pose proof (Rabs_pos_lt c HC) as AP. assert (AA : c * c = Rabs c * Rabs c) by (rewrite <- Rabs_mult, Rabs_pos_eq; [reflexivity|apply Rle_0_sqr]).
  assert (N : forall j, (j < 2)%nat -> norm3 (col3 r j) = Rabs c).
  { intros j Hj. apply norm3_sq; [lra|]. pose proof (qmat_col q j j U ltac:(lia) ltac:(lia)) as Q. unfold eye in Q. rewrite Nat.eqb_refl in Q.
    rewrite <- AA. transitivity (c * c * dot3 (col3 (qmat q) j) (col3 (qmat q) j)); [|rewrite Q; ring].
    unfold dot3, col3. cbn [vx vy vz]. rewrite !E by lia. unfold mscale, plane_frame. rewrite (proj2 (Nat.ltb_lt j 2) Hj). ring. }
  unfold homography_translation. cbv zeta. rewrite !N by lia. destruct (Req_EM_T (Rabs c + Rabs c) 0); [lra|]. f_equal.
  unfold col3. rewrite !E by lia. unfold mscale, plane_frame. cbn [Nat.ltb Nat.leb].
  change (of3 t 0%nat) with (vx t). change (of3 t 1%nat) with (vy t). change (of3 t 2%nat) with (vz t).
  apply v3_ext; cbn [v3scale vx vy vz]; field; lra.
Qed.

(** the pose of the plane on the side of the camera with negative z *)
Definition facing (p : pose) : pose := if Rlt_dec (vz (tra p)) 0 then p else mirrored p.
Lemma mirrored_qmat q : unit q -> meq 3 2 (qmat (qmul q (Q 0 0 1 0))) (mscale (-1) (qmat q)).
Proof.
  destruct q as [a b c d]. unfold unit, qnorm. cbn [qx qy qz qw]. intros U. assert (E : d * d = 1 - a * a - b * b - c * c) by lra.
  intros i j Hi Hj. idx i Hi; idx j Hj; unfold mscale, qmat, qmul, mk33; cbn; ring [E].
Qed.
Lemma mirrored_rigid p : rigid p -> rigid (mirrored p).
Proof.
  intros U. destruct p as [[a b c d] t]. unfold rigid, unit, qnorm, mirrored, qmul in *. cbn [rot qx qy qz qw] in *. lra.
Qed.
Lemma facing_rigid p : rigid p -> rigid (facing p).
Proof. intros U. unfold facing. destruct (Rlt_dec _ _); [exact U|apply mirrored_rigid; exact U]. Qed.
Lemma signed_facing H invK lambda q t : lambda <> 0 -> vz t <> 0 -> unit q -> meq 3 3 (mmul 3 invK H) (mscale lambda (plane_frame q t)) ->
  meq 3 3 (signed H invK) (mscale (Rabs lambda) (plane_frame (rot (facing (P q t))) (tra (facing (P q t))))).
Proof.
  intros HL HT U E i j Hi Hj. rewrite (signed_exact H invK lambda q t HL HT E i j Hi Hj). unfold facing. cbn [tra].
  destruct (Rlt_dec (vz t) 0); [reflexivity|]. unfold mirrored. cbn [rot tra]. unfold mscale, plane_frame.
  destruct (j <? 2)%nat eqn:J.
  - apply Nat.ltb_lt in J. rewrite (mirrored_qmat q U i j Hi J). unfold mscale. ring.
  - rewrite !of3_nth by exact Hi. idx i Hi; cbn [v3opp vx vy vz]; ring.
Qed.
Lemma plane_frame_cols q t : meq 3 2 (plane_frame q t) (qmat q).
Proof. intros i j Hi Hj. unfold plane_frame. rewrite (proj2 (Nat.ltb_lt j 2) Hj). reflexivity. Qed.

Lemma cross_frame q c d : unit q -> c <> 0 -> d <> 0 ->
  cross3 (v3scale (/ c) (v3scale c (col3 (qmat q) 0))) (v3scale (/ d) (v3scale d (col3 (qmat q) 1))) = col3 (qmat q) 2.
Proof.
  intros U HC HD. rewrite (rotation_third _ (qmat_rotation q U)). f_equal; apply v3_ext; cbn [v3scale vx vy vz]; field; assumption.
Qed.
Lemma orthogonal_cross_exact r c q : 0 < c -> unit q -> meq 3 2 r (mscale c (qmat q)) ->
  exists m, orthogonal_cross r = Some m /\ meq 3 3 m (qmat q).
Proof.
  intros HC U E.
  assert (C : forall j, (j < 2)%nat -> col3 r j = v3scale c (col3 (qmat q) j)).
  { intros j Hj. unfold col3. rewrite !E by lia. reflexivity. }
  assert (N : forall j, (j < 2)%nat -> norm3 (col3 r j) = c).
  { intros j Hj. apply norm3_sq; [lra|]. pose proof (qmat_col q j j U ltac:(lia) ltac:(lia)) as Q. unfold eye in Q. rewrite Nat.eqb_refl in Q.
    rewrite (C j Hj). transitivity (c * c * dot3 (col3 (qmat q) j) (col3 (qmat q) j)); [unfold dot3; cbn [v3scale vx vy vz]; ring|rewrite Q; ring]. }
  unfold orthogonal_cross. cbv zeta. rewrite !N by lia. destruct (Req_EM_T c 0); [lra|].
  rewrite !C by lia. rewrite cross_frame by (assumption || lra).
  assert (N2 : norm3 (col3 (qmat q) 2) = 1).
  { apply norm3_sq; [lra|]. pose proof (qmat_col q 2 2 U ltac:(lia) ltac:(lia)) as Q. unfold eye in Q. cbn in Q. lra. }
  rewrite N2. destruct (Req_EM_T 1 0); [lra|]. eexists. split; [reflexivity|].
  assert (Y : cross3 (v3scale (/ 1) (col3 (qmat q) 2)) (v3scale (/ c) (v3scale c (col3 (qmat q) 0))) = col3 (qmat q) 1).
  { replace (v3scale (/ c) (v3scale c (col3 (qmat q) 0))) with (col3 (qmat q) 0) by (apply v3_ext; cbn [v3scale vx vy vz]; field; lra).
    replace (v3scale (/ 1) (col3 (qmat q) 2)) with (col3 (qmat q) 2) by (apply v3_ext; cbn [v3scale vx vy vz]; field).
    pose proof (rotation_third _ (qmat_rotation q U)) as T. rewrite T.
    pose proof (qmat_col q 0 0 U ltac:(lia) ltac:(lia)) as Q0. pose proof (qmat_col q 0 1 U ltac:(lia) ltac:(lia)) as Q1. unfold eye in Q0, Q1. cbn [Nat.eqb] in Q0, Q1.
    set (x := col3 (qmat q) 0) in *. set (y := col3 (qmat q) 1) in *.
    transitivity (v3sub (v3scale (dot3 x x) y) (v3scale (dot3 x y) x)); [destruct x, y; apply v3_ext; unfold dot3; cbn; ring|].
    rewrite Q0, Q1. apply v3_ext; cbn; ring. }
  rewrite Y. intros i j Hi Hj. idx i Hi; idx j Hj; unfold mk33; cbn [Nat.eqb v3scale vx vy vz col3]; field; lra.
Qed.
Lemma orthogonal_other m : meq 3 3 (mmul 3 (tr m) m) eye -> det3 m = 1 -> meq 3 3 (mmul 3 m (tr m)) eye.
Proof.
  intros O D i j Hi Hj.
  set (x := fun k => mmul 3 m (tr m) i k - eye i k).
  assert (Z : forall c, (c < 3)%nat -> x 0%nat * m 0%nat c + x 1%nat * m 1%nat c + x 2%nat * m 2%nat c = 0).
  { intros c Hc. assert (E : mmul 3 (mmul 3 m (tr m)) m i c = m i c).
    { rewrite mmul_assoc. transitivity (mmul 3 m eye i c); [apply (mmul_ext 3 3 3); [apply meq_refl|exact O|exact Hi|exact Hc]|apply mmul_eye_r; exact Hc]. }
    assert (E1 : mmul 3 eye m i c = m i c) by (apply mmul_eye_l; exact Hi).
    unfold x. unfold mmul at 1 in E. unfold mmul at 1 in E1. cbn [sum] in E, E1. lra. }
  pose proof (Z 0%nat ltac:(lia)) as Z0. pose proof (Z 1%nat ltac:(lia)) as Z1. pose proof (Z 2%nat ltac:(lia)) as Z2. clear Z.
  assert (X : x j = 0); [|unfold x in X; lra]. unfold det3 in D. cbv zeta in D. clearbody x. clear O Hi i.
  set (a := m 0%nat 0%nat) in *. set (b := m 0%nat 1%nat) in *. set (c := m 0%nat 2%nat) in *.
  set (d := m 1%nat 0%nat) in *. set (e := m 1%nat 1%nat) in *. set (f := m 1%nat 2%nat) in *.
  set (g := m 2%nat 0%nat) in *. set (h := m 2%nat 1%nat) in *. set (k := m 2%nat 2%nat) in *.
  clearbody a b c d e f g h k. set (p := x 0%nat) in *. set (q := x 1%nat) in *. set (r := x 2%nat) in *.
  idx j Hj.
  - fold p. transitivity (p * (a * e * k - a * f * h + b * f * g - b * d * k + c * d * h - c * e * g)); [rewrite D; ring|].
    transitivity ((e*k-f*h)*(p*a+q*d+r*g) + (f*g-d*k)*(p*b+q*e+r*h) + (d*h-e*g)*(p*c+q*f+r*k)); [ring|]. rewrite Z0, Z1, Z2. ring.
  - fold q. transitivity (q * (a * e * k - a * f * h + b * f * g - b * d * k + c * d * h - c * e * g)); [rewrite D; ring|].
    transitivity ((c*h-b*k)*(p*a+q*d+r*g) + (a*k-c*g)*(p*b+q*e+r*h) + (b*g-a*h)*(p*c+q*f+r*k)); [ring|]. rewrite Z0, Z1, Z2. ring.
  - fold r. transitivity (r * (a * e * k - a * f * h + b * f * g - b * d * k + c * d * h - c * e * g)); [rewrite D; ring|].
    transitivity ((b*f-c*e)*(p*a+q*d+r*g) + (c*d-a*f)*(p*b+q*e+r*h) + (a*e-b*d)*(p*c+q*f+r*k)); [ring|]. rewrite Z0, Z1, Z2. ring.
Qed.
Lemma frame_rotation x z : dot3 x x = 1 -> dot3 z z = 1 -> dot3 x z = 0 -> let y := cross3 z x in
  rotation (mk33 (vx x) (vx y) (vx z) (vy x) (vy y) (vy z) (vz x) (vz y) (vz z)) /\
  rotation (mk33 (vx x) (vy x) (vz x) (vx y) (vy y) (vz y) (vx z) (vy z) (vz z)).
Proof.
  intros XX ZZ XZ. destruct x as [a b c], z as [d e f]. unfold dot3 in *. cbv zeta. unfold cross3. cbn [vx vy vz] in *.
  assert (R1 : (b * f - c * e) * (b * f - c * e) + (c * d - a * f) * (c * d - a * f) + (a * e - b * d) * (a * e - b * d) = 1).
  { transitivity ((a*a+b*b+c*c)*(d*d+e*e+f*f) - (a*d+b*e+c*f)*(a*d+b*e+c*f)); [ring|]. rewrite XX, ZZ, XZ. ring. }
  set (m := mk33 a (e * c - f * b) d b (f * a - d * c) e c (d * b - e * a) f).
  assert (D : det3 m = 1).
  { unfold m, det3, mk33. cbn. transitivity ((a*a+b*b+c*c)*(d*d+e*e+f*f) - (a*d+b*e+c*f)*(a*d+b*e+c*f)); [ring|]. rewrite XX, ZZ, XZ. ring. }
  assert (O : meq 3 3 (mmul 3 (tr m) m) eye).
  { intros i j Hi Hj. idx i Hi; idx j Hj; unfold m, mmul, tr, mk33, eye; cbn; lra. }
  assert (O' := orthogonal_other m O D). split; [apply orthonormal_rotation; [split; assumption|exact D]|].
  apply (rotation_meq (tr m)).
  - intros i j Hi Hj. idx i Hi; idx j Hj; reflexivity.
  - apply orthonormal_rotation; [split; assumption|rewrite det3_tr; exact D].
Qed.
Lemma scaled_unit a : norm3 a <> 0 -> dot3 (v3scale (/ norm3 a) a) (v3scale (/ norm3 a) a) = 1.
Proof.
  intros NA. assert (E : norm3 a * norm3 a = dot3 a a).
  { unfold norm3, dot3. apply sqrt_sqrt. pose proof (Rle_0_sqr (vx a)). pose proof (Rle_0_sqr (vy a)). pose proof (Rle_0_sqr (vz a)). unfold Rsqr in *. lra. }
  transitivity (/ norm3 a * / norm3 a * dot3 a a); [unfold dot3; cbn; ring|]. rewrite <- E. field. exact NA.
Qed.
Lemma orthogonal_cross_rotation r m : orthogonal_cross r = Some m -> rotation m.
Proof.
  unfold orthogonal_cross. cbv zeta. destruct (Req_EM_T (norm3 (col3 r 0)) 0) as [|N0]; [discriminate|]. destruct (Req_EM_T (norm3 (col3 r 1)) 0) as [|N1]; [discriminate|].
  set (x := v3scale (/ norm3 (col3 r 0)) (col3 r 0)). set (y := v3scale (/ norm3 (col3 r 1)) (col3 r 1)).
  set (w := cross3 x y). destruct (Req_EM_T (norm3 w) 0) as [|N2]; [discriminate|]. set (z := v3scale (/ norm3 w) w).
  intros H. injection H. intros <-. apply (frame_rotation x z).
  - apply scaled_unit; exact N0.
  - apply scaled_unit; exact N2.
  - unfold z, w. generalize (/ norm3 (cross3 x y)). clearbody x y. intros k. destruct x, y. unfold dot3. cbn. ring.
Qed.

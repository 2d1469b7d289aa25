(** Epipolar distance, triangulation and reconstruction of unordered points (C107, C108, C109). *)
From Coq Require Import Reals Lra Lia List Arith Bool.
Import ListNotations.
From Coquelicot Require Import Coquelicot.
From Verif Require Import Mat Quat QuatProofs QuatTrigProofs QuatProps LinAlg LinAlgProps Dlt DltProofs AbsOrient AbsOrientProofs HomographyProps ProjectionDltProps FundamentalProps Triangulate TriangulateProofs.
From Verif Require Munkres.
Open Scope R_scope.

(** * distance to the epipolar line *)
(** the image point y is on the line l *)
Definition on_line (l y : vect) : Prop := l 0%nat * y 0%nat + l 1%nat * y 1%nat + l 2%nat = 0.
Definition sq_dist (a b : vect) : R := (a 0%nat - b 0%nat) * (a 0%nat - b 0%nat) + (a 1%nat - b 1%nat) * (a 1%nat - b 1%nat).
(** the value is the squared distance of the second point from the epipolar line of the first *)
Theorem epipolar_distance_spec from to F d : point_to_point_dist from to F = Some d ->
  let l := mvec 3 F (hom2 from) in
  (forall y, on_line l y -> d <= sq_dist to y) /\ (exists y, on_line l y /\ sq_dist to y = d).
Proof.
  unfold point_to_point_dist, epi_dist. change (vlist [from 0%nat; from 1%nat; 1]) with (hom2 from). cbv zeta. set (l := mvec 3 F (hom2 from)). change (vlist [to 0%nat; to 1%nat; 1] 0%nat) with (to 0%nat). change (vlist [to 0%nat; to 1%nat; 1] 1%nat) with (to 1%nat).
  set (a := l 0%nat). set (b := l 1%nat). set (c := l 2%nat). set (u := to 0%nat). set (v := to 1%nat). destruct (Req_EM_T (a * a + b * b) 0) as [|N]; [discriminate|]. intros E. injection E as <-.
  assert (Q : 0 < a * a + b * b) by (pose proof (Rle_0_sqr a); pose proof (Rle_0_sqr b); unfold Rsqr in *; lra).
  split.
  - intros y Hy. unfold on_line in Hy. fold a b c in Hy. unfold sq_dist. fold u v. set (p := u - y 0%nat). set (q := v - y 1%nat).
    replace (a * u + b * v + c) with (a * p + b * q) by (unfold p, q; lra). apply (Rmult_le_reg_r (a * a + b * b)); [exact Q|].
    unfold Rdiv. rewrite Rmult_assoc, Rinv_l, Rmult_1_r by exact N. pose proof (Rle_0_sqr (a * q - b * p)). unfold Rsqr in *. nra.
  - set (k := (a * u + b * v + c) / (a * a + b * b)). exists (vlist [u - k * a; v - k * b]). unfold on_line, sq_dist, vlist. cbn [nth]. fold a b c u v.
    assert (K : k * (a * a + b * b) = a * u + b * v + c) by (unfold k; field; exact N). split; [nra|].
    replace ((a * u + b * v + c) * (a * u + b * v + c) / (a * a + b * b)) with (k * (a * u + b * v + c)) by (unfold k; field; exact N). rewrite <- K. ring.
Qed.
(** so it vanishes exactly for points that meet the epipolar constraint *)
Theorem epipolar_distance_zero_iff from to F d : point_to_point_dist from to F = Some d ->
  0 <= d /\ (d = 0 <-> vdot 3 (hom2 to) (mvec 3 F (hom2 from)) = 0).
Proof.
  unfold point_to_point_dist, epi_dist. change (vlist [from 0%nat; from 1%nat; 1]) with (hom2 from). cbv zeta. set (l := mvec 3 F (hom2 from)).
  replace (vdot 3 (hom2 to) l) with (l 0%nat * to 0%nat + l 1%nat * to 1%nat + l 2%nat) by (unfold vdot, hom2, vlist; cbn [sum nth]; ring).
  unfold vlist. cbn [nth]. set (t := l 0%nat * to 0%nat + l 1%nat * to 1%nat + l 2%nat). set (q := l 0%nat * l 0%nat + l 1%nat * l 1%nat). destruct (Req_EM_T q 0) as [|N]; [discriminate|]. intros E. injection E as <-.
  assert (Q : 0 < q) by (pose proof (Rle_0_sqr (l 0%nat)); pose proof (Rle_0_sqr (l 1%nat)); unfold Rsqr, q in *; lra).
  assert (QI := Rinv_0_lt_compat q Q). split; [apply Rmult_le_pos; [apply Rle_0_sqr|lra]|]. split.
  - intros Z. apply Rmult_integral in Z. destruct Z as [Z|Z]; [|lra]. apply Rmult_integral in Z. tauto.
  - intros ->. unfold Rdiv. ring.
Qed.
(** no value exists exactly when the line is the line at infinity or the first point is the epipole *)
Theorem epipolar_distance_undefined_iff from to F : point_to_point_dist from to F = None <->
  mvec 3 F (hom2 from) 0%nat = 0 /\ mvec 3 F (hom2 from) 1%nat = 0.
Proof.
  unfold point_to_point_dist, epi_dist. change (vlist [from 0%nat; from 1%nat; 1]) with (hom2 from). cbv zeta. set (a := mvec 3 F (hom2 from) 0%nat). set (b := mvec 3 F (hom2 from) 1%nat).
  destruct (Req_EM_T (a * a + b * b) 0) as [Z|N].
  - split; [|reflexivity]. intros _. pose proof (Rle_0_sqr a). pose proof (Rle_0_sqr b). unfold Rsqr in *. split; apply Rsqr_0_uniq; unfold Rsqr; lra.
  - split; [discriminate|]. intros [Za Zb]. exfalso. apply N. rewrite Za, Zb. ring.
Qed.
(** homogeneous coordinates: the first point may have any scale, *)
Theorem homogeneous_from_scale from to F c : c <> 0 -> epi_dist (fun i => c * from i) to F = epi_dist from to F.
Proof.
  intros Nc. unfold epi_dist. cbv zeta. rewrite !(mvec_scal 3 F c from). set (a := mvec 3 F from 0%nat). set (b := mvec 3 F from 1%nat). set (e := mvec 3 F from 2%nat).
  assert (E : c * a * (c * a) + c * b * (c * b) = c * c * (a * a + b * b)) by ring. assert (CC : c * c <> 0) by (intros Z; apply Rmult_integral in Z; tauto).
  destruct (Req_EM_T (a * a + b * b) 0) as [Z|N], (Req_EM_T (c * a * (c * a) + c * b * (c * b)) 0) as [Z'|N']; try reflexivity.
  - exfalso. apply N'. rewrite E, Z. ring.
  - exfalso. rewrite E in Z'. apply Rmult_integral in Z'. tauto.
  - f_equal. rewrite E. field. auto.
Qed.
(** but the second one must have last entry 1: the documented use of homogeneous points gives another
    result for another multiple of the same point *)
Theorem homogeneous_to_scale_refuted : exists from to F d d', (exists c, c <> 0 /\ epi_dist from (fun i => c * to i) F = Some d') /\
  epi_dist from to F = Some d /\ vdot 3 to (mvec 3 F from) = 0 /\ d = 0 /\ d' <> 0.
Proof.
  exists (vlist [0; 0; 1]), (vlist [1; 0; 1]), (mlist [[0; 0; 1]; [0; 0; 0]; [0; 0; -1]]), 0, 1. split; [|split; [|split; [|split; [reflexivity|lra]]]].
  - exists 2. split; [lra|]. unfold epi_dist. replace (mvec 3 (mlist [[0; 0; 1]; [0; 0; 0]; [0; 0; -1]]) (vlist [0; 0; 1]) 0%nat) with 1 by (cbv [mvec mlist vlist sum nth]; ring). replace (mvec 3 (mlist [[0; 0; 1]; [0; 0; 0]; [0; 0; -1]]) (vlist [0; 0; 1]) 1%nat) with 0 by (cbv [mvec mlist vlist sum nth]; ring). replace (mvec 3 (mlist [[0; 0; 1]; [0; 0; 0]; [0; 0; -1]]) (vlist [0; 0; 1]) 2%nat) with (-1) by (cbv [mvec mlist vlist sum nth]; ring).
    cbv zeta. destruct (Req_EM_T (1 * 1 + 0 * 0) 0) as [Z|_]; [lra|]. f_equal. unfold vlist. cbn [nth]. field.
  - unfold epi_dist. replace (mvec 3 (mlist [[0; 0; 1]; [0; 0; 0]; [0; 0; -1]]) (vlist [0; 0; 1]) 0%nat) with 1 by (cbv [mvec mlist vlist sum nth]; ring). replace (mvec 3 (mlist [[0; 0; 1]; [0; 0; 0]; [0; 0; -1]]) (vlist [0; 0; 1]) 1%nat) with 0 by (cbv [mvec mlist vlist sum nth]; ring). replace (mvec 3 (mlist [[0; 0; 1]; [0; 0; 0]; [0; 0; -1]]) (vlist [0; 0; 1]) 2%nat) with (-1) by (cbv [mvec mlist vlist sum nth]; ring).
    cbv zeta. destruct (Req_EM_T (1 * 1 + 0 * 0) 0) as [Z|_]; [lra|]. f_equal. unfold vlist. cbn [nth]. field.
  - cbv [vdot mvec mlist vlist sum nth]. ring.
Qed.

(** * triangulation *)
(** the last row of Vt minimises the residual of the system among the unit vectors *)
Definition svd4 (svd : gesvd_vt) (rows : list vect) : Prop := least_direction (length rows) 4 (rows_mat rows) (fun j => svd (length rows) (rows_mat rows) 3%nat j).
(** the point is not on the line through the centres *)
Definition off_baseline (cam1 cam2 : pose) (X : vec3) : Prop := cross3 (v3sub X (centre cam1)) (v3sub X (centre cam2)) <> v3zero.
(** exact image points give the point back *)
Theorem two_view_exact svd K1 cam1 K2 cam2 X x1 x2 : rigid cam1 -> rigid cam2 -> det3 K1 <> 0 -> det3 K2 <> 0 -> off_baseline cam1 cam2 X ->
  projected (seen K1 cam1 X) x1 -> projected (seen K2 cam2 X) x2 ->
  svd4 svd (two_view_system (cam_matrix K1 cam1) (cam_matrix K2 cam2) x1 x2) ->
  get3d_two svd (cam_matrix K1 cam1) (cam_matrix K2 cam2) x1 x2 = Some X.
Proof.
  intros R1 R2 D1 D2 NB J1 J2 SV. unfold get3d_two. cbv zeta. set (rows := two_view_system (cam_matrix K1 cam1) (cam_matrix K2 cam2) x1 x2) in *.
  change 4%nat with (length rows) at 1. set (v := fun j => svd (length rows) (rows_mat rows) 3%nat j) in *. change (dehom v = Some X).
  assert (S : solves 4 rows v).
  { apply rows_solves. apply (least_direction_kernel _ 4 _ v (hom X) SV (hom_nonzero X)). apply rows_solves. apply two_view_solves. split; apply projected_agrees; assumption. }
  apply two_view_solves in S. destruct S as [A1 A2]. apply dehom_multiple; [exact (proj1 SV)|].
  apply (rays_meet K1 cam1 K2 cam2 X x1 x2); assumption.
Qed.
(** several views: the same if two of the cameras are not in line with the point *)
Definition views := list (mat * pose).
Definition matrices (vs : views) : list mat := map (fun v => cam_matrix (fst v) (snd v)) vs.
Definition sees_all (vs : views) (X : vec3) (xs : list vect) : Prop :=
  length vs = length xs /\ forall i, (i < length vs)%nat -> let v := nth i vs (eye, pone) in
    rigid (snd v) /\ det3 (fst v) <> 0 /\ projected (seen (fst v) (snd v) X) (nth i xs (fun _ => 0)).
Theorem multi_view_exact svd refine vs X xs vt : sees_all vs X xs ->
  (exists i j, (i < length vs)%nat /\ (j < length vs)%nat /\ off_baseline (snd (nth i vs (eye, pone))) (snd (nth j vs (eye, pone))) X) ->
  let rows := multi_view_system (matrices vs) xs in svd (length rows) (rows_mat rows) = Some vt ->
  least_direction (length rows) 4 (rows_mat rows) (fun j => vt 3%nat j) ->
  get3d svd refine (matrices vs) xs 0 = Found X.
Proof.
  intros (HL & HS) (i & j & Hi & Hj & NB) rows E LD. unfold get3d, matrices. rewrite map_length, HL, Nat.eqb_refl. cbn [negb]. fold (matrices vs). unfold get3d_views.
  assert (L2 : (2 <= length vs)%nat).
  { destruct (Nat.eq_dec i j) as [->|]; [|lia]. exfalso. apply NB. set (a := v3sub X _). destruct a as [p q r]. unfold cross3, v3zero. cbn [vx vy vz]. f_equal; ring. }
  unfold matrices at 1. rewrite map_length. rewrite (proj2 (Nat.ltb_ge (length vs) 2)) by exact L2. fold rows. cbv zeta. rewrite E.
  assert (SX : solves 4 rows (hom X)).
  { apply multi_view_solves. intros P x Hin. destruct (In_nth _ _ (cam_matrix eye pone, fun _ => 0) Hin) as (k & Hk & EK). rewrite combine_length in Hk. unfold matrices in EK, Hk. rewrite map_length in Hk.
    rewrite combine_nth in EK by (rewrite map_length; exact HL). change (cam_matrix eye pone) with ((fun v : mat * pose => cam_matrix (fst v) (snd v)) (eye, pone)) in EK. rewrite map_nth in EK. injection EK as <- <-.
    destruct (HS k ltac:(lia)) as (R1 & _ & J). apply projected_agrees; [exact R1|exact J]. }
  set (v := fun j => vt 3%nat j) in *.
  assert (SV : solves 4 rows v). { apply rows_solves. apply (least_direction_kernel _ 4 _ v (hom X) LD (hom_nonzero X)). apply rows_solves, SX. }
  assert (AG : forall k, (k < length vs)%nat -> agrees (cam_matrix (fst (nth k vs (eye, pone))) (snd (nth k vs (eye, pone)))) (nth k xs (fun _ => 0)) v).
  { intros k Hk. apply (proj1 (multi_view_solves (matrices vs) xs v) SV).
    replace (cam_matrix (fst (nth k vs (eye, pone))) (snd (nth k vs (eye, pone))), nth k xs (fun _ => 0)) with (nth k (combine (matrices vs) xs) (cam_matrix eye pone, fun _ => 0)).
    - apply nth_In. rewrite combine_length. unfold matrices. rewrite map_length. lia.
    - rewrite combine_nth by (unfold matrices; rewrite map_length; exact HL). unfold matrices. change (cam_matrix eye pone) with ((fun v : mat * pose => cam_matrix (fst v) (snd v)) (eye, pone)) at 1. rewrite map_nth. reflexivity. }
  assert (DV : dehom v = Some X).
  { apply dehom_multiple; [exact (proj1 LD)|]. destruct (HS i Hi) as (R1 & D1 & J1). destruct (HS j Hj) as (R2 & D2 & J2). exact (rays_meet _ _ _ _ X _ _ v R1 R2 D1 D2 NB J1 J2 (AG i Hi) (AG j Hj)). }
  assert (DO : dehom (oriented (matrices vs) v) = Some X). { unfold oriented. destruct (existsb _ _); [rewrite dehom_opp|]; exact DV. }
  rewrite DO. cbn [of_option]. reflexivity.
Qed.
(** the direction check cannot change the result *)
Theorem direction_check_idle svd Ps xs : get3d_views svd Ps xs =
  if (length Ps <? 2)%nat then Thrown else match svd (length (multi_view_system Ps xs)) (rows_mat (multi_view_system Ps xs)) with None => Thrown | Some vt => of_option (dehom (fun j => vt 3%nat j)) end.
Proof.
  unfold get3d_views. destruct (length Ps <? 2)%nat; [reflexivity|]. cbv zeta. destruct (svd _ _) as [vt|]; [|reflexivity]. f_equal. unfold oriented. destruct (existsb _ _); [apply dehom_opp|reflexivity].
Qed.
(** without refinement the exceptions are: different numbers, fewer than two views, failure of the SVD *)
Theorem multi_view_throws_iff svd refine Ps xs : get3d svd refine Ps xs 0 = Thrown <->
  length Ps <> length xs \/ (length Ps < 2)%nat \/ svd (length (multi_view_system Ps xs)) (rows_mat (multi_view_system Ps xs)) = None.
Proof.
  unfold get3d. destruct (length Ps =? length xs)%nat eqn:E; [apply Nat.eqb_eq in E|apply Nat.eqb_neq in E]; cbn [negb]; [|tauto].
  unfold get3d_views. cbv zeta. destruct (length Ps <? 2)%nat eqn:E2; [apply Nat.ltb_lt in E2; tauto|apply Nat.ltb_ge in E2].
  destruct (svd _ _) as [vt|]; [|tauto]. set (o := dehom _). split.
  - destruct o; cbn [of_option]; cbn; intros H; discriminate.
  - intros [H|[H|H]]; [congruence|lia|discriminate].
Qed.

(** * unordered points *)
Definition total (c : nat -> nat -> R) (p : list nat) : R := sum (length p) (fun i => c i (nth i p O)).
(** the solver returns an assignment of least total cost *)
Definition optimal (n : nat) (c : nat -> nat -> R) (p : list nat) : Prop :=
  Munkres.assignment n p /\ forall q, Munkres.assignment n q -> total c p <= total c q.
Lemma assignment_onto n p j : Munkres.assignment n p -> (j < n)%nat -> exists i, (i < n)%nat /\ nth i p O = j.
Proof.
  intros (L & ND & B) Hj. assert (I : In j p).
  { assert (NoDup p -> incl p (seq 0 n) -> incl (seq 0 n) p) as H. { intros N I. apply NoDup_length_incl; [exact N|rewrite seq_length; lia|exact I]. }
    apply H; [exact ND| |apply in_seq; lia]. intros x Hx. apply in_seq. specialize (B x Hx). lia. }
  destruct (In_nth _ _ O I) as (i & Hi & E). exists i. rewrite <- L. auto.
Qed.
Lemma flat_map_singleton {A B} (f : A -> B) (g : A -> list B) l : (forall a, In a l -> g a = f a :: nil) -> flat_map g l = map f l.
Proof. intros H. induction l as [|a l IH]; [reflexivity|]. cbn [flat_map map]. rewrite (H a (or_introl eq_refl)), IH by (intros; apply H; right; assumption). reflexivity. Qed.
(** scene: the points are seen by both cameras, the image points of the second camera come in the
    order s; no two points are coplanar with the camera centres *)
Theorem reconstruct_exact svd solver inv4 pin K1 cam1 K2 cam2 (Xs : list vec3) (p1 p2 : list vect) s m :
  let n := length Xs in let F := fundamental_from_poses inv4 pin cam1 cam2 K1 K2 in let X i := nth i Xs v3zero in
  rigid cam1 -> rigid cam2 -> det3 K1 <> 0 -> det3 K2 <> 0 ->
  meq 4 4 (mmul 4 (pose_mat cam1) (inv4 (pose_mat cam1))) eye ->
  penrose 3 4 (cam_matrix K1 cam1) (pin (cam_matrix K1 cam1)) ->
  length p1 = n -> length p2 = n -> Munkres.assignment n s ->
  (forall i, (i < n)%nat -> projected (seen K1 cam1 (X i)) (nth i p1 (fun _ => 0)) /\ projected (seen K2 cam2 (X i)) (nth (nth i s O) p2 (fun _ => 0))) ->
  (forall i, (i < n)%nat -> off_baseline cam1 cam2 (X i)) ->
  (forall i j, (i < n)%nat -> (j < n)%nat -> i <> j -> triple (v3sub (centre cam1) (centre cam2)) (v3sub (X i) (centre cam2)) (v3sub (X j) (centre cam2)) <> 0) ->
  solver n n (cost_of p1 p2 F) = Some m -> optimal n (cost_of p1 p2 F) m ->
  (forall i, (i < n)%nat -> svd4 svd (two_view_system (cam_matrix K1 cam1) (cam_matrix K2 cam2) (nth i p1 (fun _ => 0)) (nth (nth i s O) p2 (fun _ => 0)))) ->
  reconstruct svd solver p1 p2 (cam_matrix K1 cam1) (cam_matrix K2 cam2) F = Some (map (@Some vec3) Xs).
Proof.
  intros n F X R1 R2 D1 D2 HI HP L1 L2 AS SEEN NB NP SO (AM & OM) SV.
  set (e := seen K2 cam2 (centre cam1)).
  assert (LINE : forall i, (i < n)%nat -> exists d, d <> 0 /\ forall k, (k < 3)%nat -> d * mvec 3 F (hom2 (nth i p1 (fun _ => 0))) k = cross_v e (seen K2 cam2 (X i)) k).
  { intros i Hi. destruct (SEEN i Hi) as ((N & A & B) & _). exists (seen K1 cam1 (X i) 2%nat). split; [exact N|]. intros k Hk.
    rewrite <- (mvec_scal 3 F). unfold e. rewrite <- (fundamental_from_poses_line inv4 pin cam1 cam2 K1 K2 (X i) k Hk R1 R2 D1 HI HP). apply mvec_arg. intros l Hl. unfold hom2, vlist.
    destruct l as [|[|[|]]]; [| | |lia]; cbn [nth]; [rewrite A|rewrite B|]; ring. }
  assert (EPI : forall i j, (i < n)%nat -> (j < n)%nat -> exists d, d <> 0 /\ d * vdot 3 (hom2 (nth (nth j s O) p2 (fun _ => 0))) (mvec 3 F (hom2 (nth i p1 (fun _ => 0)))) = triple (v3sub (centre cam1) (centre cam2)) (v3sub (X i) (centre cam2)) (v3sub (X j) (centre cam2))).
  { intros i j Hi Hj. destruct (LINE i Hi) as (d1 & N1 & E1). destruct (SEEN j Hj) as (_ & (N2 & A & B)).
    exists (/ det3 K2 * d1 * seen K2 cam2 (X j) 2%nat). split; [apply Rmult_integral_contrapositive; split; [apply Rmult_integral_contrapositive; split; [apply Rinv_neq_0_compat|]|]; assumption|].
    apply (Rmult_eq_reg_l (det3 K2)); [|exact D2]. rewrite <- (images_triple K2 (rot cam2)) by exact R2.
    set (l := mvec 3 F _) in *. set (x := nth (nth j s O) p2 (fun _ => 0)) in *.
    transitivity (vdot 3 (cross_v e (seen K2 cam2 (X i))) (seen K2 cam2 (X j))).
    - unfold vdot. cbn [sum]. rewrite <- !E1 by lia. rewrite A, B. unfold hom2, vlist. cbn [nth]. field. exact D2.
    - unfold vdot, e. unfold cross_v. rewrite !(seen_ray K2 cam2) by exact R2. apply sum_ext. intros k Hk. rewrite !(seen_ray K2 cam2 (X j)) by exact R2. reflexivity. }
  assert (TS : forall i, triple (v3sub (centre cam1) (centre cam2)) (v3sub (X i) (centre cam2)) (v3sub (X i) (centre cam2)) = 0).
  { intros i. unfold triple. set (a := v3sub (centre cam1) _). set (b := v3sub (X i) _). clearbody a b. destruct a as [a1 a2 a3], b as [b1 b2 b3]. unfold dot3, cross3. cbn [vx vy vz]. ring. }
  assert (DEF : forall i j, (i < n)%nat -> exists d, costs p1 p2 F i j = Some d).
  { intros i j Hi. destruct (costs p1 p2 F i j) as [d|] eqn:E; [exists d; reflexivity|]. exfalso. unfold costs in E. apply epipolar_distance_undefined_iff in E. destruct E as [Z0 Z1].
    destruct (EPI i i Hi Hi) as (d & Nd & ED). rewrite TS in ED. apply Rmult_integral in ED. destruct ED as [ED|ED]; [contradiction|].
    assert (VD : forall x l, vdot 3 (hom2 x) l = x 0%nat * l 0%nat + x 1%nat * l 1%nat + l 2%nat) by (intros; unfold vdot, hom2, vlist; cbn [sum nth]; ring).
    rewrite VD, Z0, Z1 in ED. assert (Z2 : mvec 3 F (hom2 (nth i p1 (fun _ => 0))) 2%nat = 0) by lra.
    destruct (LINE i Hi) as (d1 & N1 & E1). apply (NB i Hi). assert (CZ : cross3 (v3sub (centre cam1) (centre cam2)) (v3sub (X i) (centre cam2)) = v3zero).
    { apply (images_parallel K2 (rot cam2)); [exact D2|exact R2|]. intros k Hk. transitivity (cross_v e (seen K2 cam2 (X i)) k).
      - unfold e, cross_v. rewrite !(seen_ray K2 cam2) by exact R2. reflexivity.
      - rewrite <- (E1 k Hk). destruct k as [|[|[|]]]; [rewrite Z0|rewrite Z1|rewrite Z2|lia]; ring. }
    assert (G1 := f_equal vx CZ). assert (G2 := f_equal vy CZ). assert (G3 := f_equal vz CZ). set (c1 := centre cam1) in *. set (c2 := centre cam2) in *. set (Y := X i) in *. clearbody c1 c2 Y. destruct c1 as [a1 a2 a3], c2 as [b1 b2 b3], Y as [y1 y2 y3].
    unfold cross3, v3sub, v3zero in *. cbn [vx vy vz] in *. f_equal; nra. }
  assert (CD : costs_defined p1 p2 F = true).
  { unfold costs_defined. apply forallb_forall. intros i Hi. apply in_seq in Hi. apply forallb_forall. intros j _. destruct (DEF i j ltac:(lia)) as (d & ->). reflexivity. }
  assert (CN : forall i j, (i < n)%nat -> 0 <= cost_of p1 p2 F i j /\ (cost_of p1 p2 F i j = 0 <-> vdot 3 (hom2 (nth j p2 (fun _ => 0))) (mvec 3 F (hom2 (nth i p1 (fun _ => 0)))) = 0)).
  { intros i j Hi. unfold cost_of. destruct (DEF i j Hi) as (d & E). rewrite E. exact (epipolar_distance_zero_iff _ _ F d E). }
  assert (TZ : total (cost_of p1 p2 F) s = 0).
  { unfold total. apply sum_zero. intros i Hi. rewrite (proj1 AS) in Hi. apply (CN i _ Hi). destruct (EPI i i Hi Hi) as (d & Nd & E). rewrite TS in E. apply Rmult_integral in E. tauto. }
  assert (MZ : forall i, (i < n)%nat -> cost_of p1 p2 F i (nth i m O) = 0).
  { intros i Hi. assert (LM := proj1 AM). assert (TM := OM s AS). rewrite TZ in TM. unfold total in TM. rewrite LM in TM.
    apply (sum_nonneg_zero n (fun i => cost_of p1 p2 F i (nth i m O))); [intros k Hk; apply (CN k _ Hk)| |exact Hi].
    apply Rle_antisym; [exact TM|apply sum_nonneg; intros k Hk; apply (CN k _ Hk)]. }
  assert (MS : forall i, (i < n)%nat -> nth i m O = nth i s O).
  { intros i Hi. assert (BM : (nth i m O < n)%nat) by (apply (proj2 (proj2 AM)), nth_In; rewrite (proj1 AM); exact Hi).
    destruct (assignment_onto n s _ AS BM) as (j & Hj & EJ). destruct (Nat.eq_dec i j) as [->|NE]; [symmetry; exact EJ|]. exfalso.
    assert (Z := MZ i Hi). rewrite <- EJ in Z. apply (CN i _ Hi) in Z. destruct (EPI i j Hi Hj) as (d & Nd & E). rewrite Z, Rmult_0_r in E. exact (NP i j Hi Hj NE (eq_sym E)). }
  unfold reconstruct. rewrite CD, L1, L2, SO. rewrite (proj1 AM). rewrite Nat.ltb_irrefl. f_equal.
  rewrite (flat_map_singleton (fun i => Some (X i))).
  - apply (nth_ext _ _ (Some (X (length Xs))) (Some v3zero)); [rewrite !map_length, seq_length; reflexivity|]. rewrite map_length, seq_length. intros k Hk.
    rewrite (map_nth (fun i => Some (X i)) (seq 0 n) (length Xs)), seq_nth by exact Hk. rewrite map_nth. reflexivity.
  - intros i Hi. apply in_seq in Hi. assert (Hn : (i < n)%nat) by lia. cbv zeta. rewrite (MS i Hn).
    assert (BS : (nth i s O < n)%nat) by (apply (proj2 (proj2 AS)), nth_In; rewrite (proj1 AS); exact Hn).
    rewrite (proj2 (Nat.ltb_lt _ _) BS). f_equal. destruct (SEEN i Hn) as (S1 & S2). apply two_view_exact; try assumption; [apply NB, Hn|apply SV, Hn].
Qed.

(** * refinement: the derivative of the images by the point *)
Definition replaced (v : vect) (j : nat) (t : R) : vect := fun l => if (l =? j)%nat then t else v l.
Lemma replaced_self v j : (fun l => replaced v j (v j) l) = (fun l => replaced v j (v j) l) /\ forall l, replaced v j (v j) l = v l.
Proof. split; [reflexivity|]. intros l. unfold replaced. destruct (Nat.eqb_spec l j) as [->|]; reflexivity. Qed.
Lemma tp_replaced P v j t i : (j < 3)%nat -> tp34_3 P (replaced v j t) i = tp34_3 P v i + P i j * (t - v j).
Proof. intros Hj. unfold tp34_3, replaced. destruct j as [|[|[|]]]; [| | |lia]; cbn [Nat.eqb]; ring. Qed.
Lemma locally_all {A} (l : list A) (Q : A -> R -> Prop) x : (forall a, In a l -> locally x (Q a)) -> locally x (fun t => forall a, In a l -> Q a t).
Proof.
  intros H. induction l as [|a l IH].
  - apply filter_forall. intros t a [].
  - assert (L := filter_and _ _ (H a (or_introl eq_refl)) (IH (fun b Hb => H b (or_intror Hb)))). refine (filter_imp _ _ _ L). cbv beta. intros t [Ha Hl] b [<-|Hb]; auto.
Qed.
Lemma locally_depth P v j : (j < 3)%nat -> tp34_3 P v 2%nat <> 0 -> locally (v j) (fun t => tp34_3 P (replaced v j t) 2%nat <> 0).
Proof.
  intros Hj N. assert (C : continuous (fun t => tp34_3 P (replaced v j t) 2%nat) (v j)).
  { apply (continuous_ext (fun t => tp34_3 P v 2%nat + P 2%nat j * (t - v j))); [intros t; symmetry; apply tp_replaced, Hj|]. apply (@ex_derive_continuous R_AbsRing R_NormedModule). auto_derive. exact I. }
  apply (C (fun y => y <> 0)). assert (E : tp34_3 P (replaced v j (v j)) 2%nat = tp34_3 P v 2%nat) by (rewrite tp_replaced by exact Hj; ring). rewrite E.
  apply open_neq. exact N.
Qed.
(** the images of the point in all views, and their partial derivatives *)
Definition image_entry (Ps : list mat) (k : nat) (v : vect) : R := match multi_eval Ps v with Some r => r k | None => 0 end.
Theorem multi_projection_spec Ps v : (forall P, In P Ps -> mvec 4 P (hom3 v) 2%nat <> 0) ->
  exists r, multi_eval Ps v = Some r /\ forall i, (i < length Ps)%nat ->
    projected (mvec 4 (nth i Ps (fun _ _ => 0)) (hom3 v)) (fun c => r (2 * i + c)%nat).
Proof.
  intros H. unfold multi_eval.
  assert (T : forall P i, mvec 4 P (hom3 v) i = tp34_3 P v i) by (intros; unfold mvec, hom3, vlist, tp34_3; cbn [sum nth]; ring).
  assert (F : forallb (fun P => match pp34_3 P v with Some _ => true | None => false end) Ps = true).
  { apply forallb_forall. intros P HP. unfold pp34_3, project. assert (N := H P HP). rewrite T in N. destruct (Req_EM_T (tp34_3 P v 2%nat) 0); [contradiction|reflexivity]. }
  rewrite F. eexists. split; [reflexivity|]. intros i Hi. assert (N := H _ (nth_In Ps (fun _ _ => 0) Hi)). unfold projected.
  assert (EC : forall c, (c < 2)%nat -> ((2 * i + c) / 2 = i)%nat /\ ((2 * i + c) mod 2 = c)%nat).
  { intros c Hc. split; [symmetry; apply (Nat.div_unique _ 2 i c); lia|symmetry; apply (Nat.mod_unique _ 2 i c); lia]. }
  destruct (EC 0%nat ltac:(lia)) as [-> ->]. destruct (EC 1%nat ltac:(lia)) as [-> ->]. rewrite !T in *. unfold pp34_3, project. destruct (Req_EM_T (tp34_3 (nth i Ps (fun _ _ => 0)) v 2%nat) 0) as [|_]; [contradiction|].
  unfold vlist. cbn [nth]. split; [exact N|]. split; field; exact N.
Qed.
Theorem multi_projection_jacobian Ps v k j : (k < 2 * length Ps)%nat -> (j < 3)%nat ->
  (forall P, In P Ps -> mvec 4 P (hom3 v) 2%nat <> 0) ->
  is_derive (fun t => image_entry Ps k (replaced v j t)) (v j) (multi_jacobian Ps v k j).
Proof.
  intros Hk Hj H.
  assert (T : forall P i, mvec 4 P (hom3 v) i = tp34_3 P v i) by (intros; unfold mvec, hom3, vlist, tp34_3; cbn [sum nth]; ring).
  set (P := nth (k / 2) Ps (fun _ _ => 0)). set (c := (k mod 2)%nat). assert (Hc : (c < 2)%nat) by (apply Nat.mod_upper_bound; lia).
  assert (HP : In P Ps) by (apply nth_In, Nat.div_lt_upper_bound; lia).
  assert (N : tp34_3 P v 2%nat <> 0) by (rewrite <- T; apply H, HP).
  apply (is_derive_ext_loc (fun t => (tp34_3 P v c + P c j * (t - v j)) / (tp34_3 P v 2%nat + P 2%nat j * (t - v j)))).
  - assert (L := locally_all Ps (fun P t => tp34_3 P (replaced v j t) 2%nat <> 0) (v j) (fun P' HP' => locally_depth P' v j Hj ltac:(rewrite <- T; apply H, HP'))).
    refine (filter_imp _ _ _ L). cbv beta. intros t HA. unfold image_entry, multi_eval.
    assert (F : forallb (fun P => match pp34_3 P (replaced v j t) with Some _ => true | None => false end) Ps = true).
    { apply forallb_forall. intros P' HP'. unfold pp34_3, project. destruct (Req_EM_T (tp34_3 P' (replaced v j t) 2%nat) 0) as [Z|_]; [exfalso; exact (HA P' HP' Z)|reflexivity]. }
    rewrite F. fold P c. unfold pp34_3, project. destruct (Req_EM_T (tp34_3 P (replaced v j t) 2%nat) 0) as [Z|_]; [exfalso; exact (HA P HP Z)|].
    rewrite <- !tp_replaced by exact Hj. clearbody c. destruct c as [|[|]]; [| |lia]; reflexivity.
  - unfold multi_jacobian. fold P c. cbv zeta. set (a := tp34_3 P v c). set (d := tp34_3 P v 2%nat) in *. auto_derive; [replace (v j + - v j) with 0 by ring; rewrite Rmult_0_r, Rplus_0_r; exact N|].
    replace (v j + - v j) with 0 by ring. rewrite !Rmult_0_r, !Rplus_0_r. field. exact N.
Qed.

(** * examples *)
Lemma kernel_least rows v : vdot 4 v v = 1 -> solves 4 rows v -> least_direction (length rows) 4 (rows_mat rows) v.
Proof.
  intros U S. split; [exact U|]. intros x _. apply Rle_trans with 0.
  - apply Req_le. apply sum_zero. intros i Hi. rewrite (proj1 (rows_solves 4 rows v) S i Hi). ring.
  - apply sum_nonneg. intros i _. apply Rle_0_sqr.
Qed.
Lemma cost_nonneg p1 p2 F i j : 0 <= cost_of p1 p2 F i j.
Proof. unfold cost_of, costs. destruct (point_to_point_dist _ _ F) as [d|] eqn:E; [apply (epipolar_distance_zero_iff _ _ _ _ E)|lra]. Qed.
Lemma cost_zero p1 p2 F i j : vdot 3 (hom2 (nth j p2 (fun _ => 0))) (mvec 3 F (hom2 (nth i p1 (fun _ => 0)))) = 0 -> cost_of p1 p2 F i j = 0.
Proof. intros H. unfold cost_of, costs. destruct (point_to_point_dist _ _ F) as [d|] eqn:E; [apply (epipolar_distance_zero_iff _ _ _ _ E), H|reflexivity]. Qed.
Lemma agrees_scaled P x v c : agrees P x v -> agrees P x (fun j => c * v j).
Proof. unfold agrees. rewrite !mvec_scal. intros [A B]. rewrite A, B. split; ring. Qed.
(** two cameras one unit apart see two points; the second camera reports them in the other order *)
Definition ex_cam : pose := P qone (V3 1 0 0).
Definition ex_points : list vec3 := [V3 0 1 1; V3 0 (-1) 1].
Definition ex_p1 : list vect := [vlist [0; 1]; vlist [0; -1]].
Definition ex_p2 : list vect := [vlist [1; -1]; vlist [1; 1]].
Definition ex_svd : gesvd_vt := fun _ A _ j => / sqrt 3 * hom (V3 0 (A 1%nat 2%nat) 1) j.
Lemma ex_unit y : y * y = 1 -> vdot 4 (fun j => / sqrt 3 * hom (V3 0 y 1) j) (fun j => / sqrt 3 * hom (V3 0 y 1) j) = 1.
Proof.
  intros Y. assert (Q := sqrt_lt_R0 3 ltac:(lra)). assert (QQ := sqrt_sqrt 3 ltac:(lra)). unfold vdot, hom. cbn [sum vx vy vz].
  replace (0 + / sqrt 3 * 0 * (/ sqrt 3 * 0) + / sqrt 3 * y * (/ sqrt 3 * y) + / sqrt 3 * 1 * (/ sqrt 3 * 1) + / sqrt 3 * 1 * (/ sqrt 3 * 1)) with (/ sqrt 3 * / sqrt 3 * (y * y + 2)) by ring.
  rewrite Y, <- Rinv_mult, QQ. field.
Qed.
Lemma ex_seen1 y : projected (seen eye pone (V3 0 y 1)) (vlist [0; y]).
Proof. unfold projected, seen, pone, qone. un. unfold vlist, mvec, eye. cbn. repeat split; try lra; ring. Qed.
Lemma ex_seen2 y : projected (seen eye ex_cam (V3 0 y 1)) (vlist [1; y]).
Proof. unfold projected, seen, ex_cam, qone. un. unfold vlist, mvec, eye. cbn. repeat split; try lra; ring. Qed.
Lemma ex_rigid : rigid pone /\ rigid ex_cam. Proof. split; unfold rigid, pone, ex_cam; un; ring. Qed.
Lemma ex_centre : centre pone = v3zero /\ centre ex_cam = V3 (-1) 0 0.
Proof. unfold centre, pone, ex_cam, v3zero. split; un; un; f_equal; ring. Qed.
Lemma ex_svd_ok y : y * y = 1 -> svd4 ex_svd (two_view_system (cam_matrix eye pone) (cam_matrix eye ex_cam) (vlist [0; y]) (vlist [1; y])).
Proof.
  intros Y. unfold svd4. set (rows := two_view_system _ _ _ _).
  assert (E : rows_mat rows 1%nat 2%nat = y). { unfold rows, rows_mat, two_view_system, view_row, vlist, cam_matrix, mmul, eye, pose_mat, pone, qone. un. cbn. ring. }
  apply kernel_least; unfold ex_svd; rewrite E.
  - apply ex_unit, Y.
  - apply two_view_solves. destruct ex_rigid as [R1 R2]. split; apply agrees_scaled, projected_agrees; auto; [apply ex_seen1|apply ex_seen2].
Qed.
Example two_view_case : off_baseline pone ex_cam (V3 0 1 1) /\
  get3d_two ex_svd (cam_matrix eye pone) (cam_matrix eye ex_cam) (vlist [0; 1]) (vlist [1; 1]) = Some (V3 0 1 1).
Proof.
  assert (B : off_baseline pone ex_cam (V3 0 1 1)). { unfold off_baseline. destruct ex_centre as [-> ->]. unfold cross3, v3sub, v3zero. cbn [vx vy vz]. intros E. apply (f_equal vy) in E. cbn in E. lra. }
  split; [exact B|]. destruct ex_rigid as [R1 R2]. assert (DE : det3 eye <> 0) by (rewrite det3_eye; lra).
  apply two_view_exact; auto; [apply ex_seen1|apply ex_seen2|apply ex_svd_ok; ring].
Qed.
Example multi_view_case : let vs := [(eye, pone); (eye, ex_cam)] in let xs := [vlist [0; 1]; vlist [1; 1]] in
  sees_all vs (V3 0 1 1) xs /\ let rows := multi_view_system (matrices vs) xs in
  exists vt : mat, least_direction (length rows) 4 (rows_mat rows) (fun j => vt 3%nat j) /\
    get3d (fun _ _ => Some vt) (fun _ _ p => Found p) (matrices vs) xs 0 = Found (V3 0 1 1).
Proof.
  intros vs xs. destruct ex_rigid as [R1 R2]. assert (DE : det3 eye <> 0) by (rewrite det3_eye; lra).
  assert (S : sees_all vs (V3 0 1 1) xs).
  { split; [reflexivity|]. intros i Hi. destruct i as [|[|]]; [| |cbn in Hi; lia]; cbn; (split; [assumption|split; [assumption|]]); [apply ex_seen1|apply ex_seen2]. }
  split; [exact S|]. intros rows. exists (fun _ j => / sqrt 3 * hom (V3 0 1 1) j).
  assert (L : least_direction (length rows) 4 (rows_mat rows) (fun j => / sqrt 3 * hom (V3 0 1 1) j)).
  { apply kernel_least; [apply ex_unit; ring|]. apply multi_view_solves. intros P x [E|[E|[]]]; injection E as <- <-; apply agrees_scaled, projected_agrees; auto; [apply ex_seen1|apply ex_seen2]. }
  split; [exact L|]. apply (multi_view_exact _ _ vs (V3 0 1 1) xs (fun _ j => / sqrt 3 * hom (V3 0 1 1) j) S); [|reflexivity|exact L].
  exists 0%nat, 1%nat. split; [cbn; lia|]. split; [cbn; lia|]. cbn [nth vs snd]. apply two_view_case.
Qed.
Example reconstruct_case : exists inv4 pin, let F := fundamental_from_poses inv4 pin pone ex_cam eye eye in
  optimal 2 (cost_of ex_p1 ex_p2 F) [1; 0]%nat /\
  reconstruct ex_svd (fun _ _ _ => Some [1; 0]%nat) ex_p1 ex_p2 (cam_matrix eye pone) (cam_matrix eye ex_cam) F = Some [Some (V3 0 1 1); Some (V3 0 (-1) 1)].
Proof.
  destruct from_poses_case as (inv4 & pin & R1 & R2 & DE & HI & HP & _ & HF). exists inv4, pin. fold ex_cam in *. intros F. fold F in HF.
  assert (AS : Munkres.assignment 2 [1; 0]%nat). { split; [reflexivity|]. split; [repeat constructor; cbn; lia|]. intros j [<-|[<-|[]]]; lia. }
  assert (EF : forall x y, vdot 3 (hom2 y) (mvec 3 F (hom2 x)) = x 1%nat - y 1%nat).
  { intros x y. transitivity (vdot 3 (hom2 y) (mvec 3 (mlist [[0; 0; 0]; [0; 0; -1]; [0; 1; 0]]) (hom2 x))).
    - unfold vdot. apply sum_ext. intros i Hi. f_equal. unfold mvec. apply sum_ext. intros j Hj. rewrite (HF i j Hi Hj). reflexivity.
    - unfold vdot, mvec, hom2, mlist, vlist. cbn [sum nth]. ring. }
  assert (OM : optimal 2 (cost_of ex_p1 ex_p2 F) [1; 0]%nat).
  { split; [exact AS|]. intros q _. apply Rle_trans with 0; [|apply sum_nonneg; intros; apply cost_nonneg]. apply Req_le. unfold total. cbn [length sum nth].
    rewrite !cost_zero; [ring| |]; rewrite EF; unfold ex_p1, ex_p2, vlist; cbn [nth]; ring. }
  split; [exact OM|]. destruct ex_centre as [C1 C2].
  apply (reconstruct_exact ex_svd _ inv4 pin eye pone eye ex_cam ex_points ex_p1 ex_p2 [1; 0]%nat [1; 0]%nat); auto.
  - intros i Hi. destruct i as [|[|]]; [| |cbn in Hi; lia]; cbn [nth ex_points ex_p1 ex_p2]; split; (apply ex_seen1 || apply ex_seen2).
  - intros i Hi. unfold off_baseline. rewrite C1, C2. destruct i as [|[|]]; [| |cbn in Hi; lia]; cbn [nth ex_points]; unfold cross3, v3sub, v3zero; cbn [vx vy vz]; intros E; apply (f_equal vy) in E; cbn in E; lra.
  - intros i j Hi Hj N. rewrite C1, C2. destruct i as [|[|]], j as [|[|]]; try (cbn in Hi, Hj; lia); try congruence; cbn [nth ex_points]; unfold triple, cross3, dot3, v3sub, v3zero; cbn [vx vy vz]; intros E; lra.
  - intros i Hi. destruct i as [|[|]]; [| |cbn in Hi; lia]; cbn [nth ex_p1 ex_p2]; apply ex_svd_ok; ring.
Qed.
Example jacobian_case : forall P, In P (cam_matrix eye pone :: cam_matrix eye ex_cam :: nil) -> mvec 4 P (hom3 (vlist [0; 1; 1])) 2%nat <> 0.
Proof.
  intros P [<-|[<-|[]]]; unfold mvec, cam_matrix, mmul, eye, pose_mat, pone, ex_cam, qone, hom3, vlist; un; cbn; lra.
Qed.

Print Assumptions epipolar_distance_spec.
Print Assumptions epipolar_distance_zero_iff.
Print Assumptions epipolar_distance_undefined_iff.
Print Assumptions homogeneous_from_scale.
Print Assumptions homogeneous_to_scale_refuted.
Print Assumptions two_view_exact.
Print Assumptions multi_view_exact.
Print Assumptions direction_check_idle.
Print Assumptions multi_view_throws_iff.
Print Assumptions reconstruct_exact.
Print Assumptions multi_projection_spec.
Print Assumptions multi_projection_jacobian.

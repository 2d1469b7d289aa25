(** Refinement of a pose, its residual and its covariance (C135, C136). *)
From Coq Require Import Reals List Arith Bool Lra Lia Psatz.
Import ListNotations.
From Verif Require Import Mat Quat QuatProofs QuatMatProofs QuatProps LinAlg LinAlgProps AbsOrient AbsOrientProofs AbsOrientProps TsaiLenzProps Dlt DltProofs HomographyProps ProjectionDltProps
  Jacobians JacobiansProps LevMarq LevMarqProofs LevMarqProps BackProp BackPropProps ProjectionProofs OrthoIter OrthoIterProofs OrthoIterProps PlanarPose PlanarPoseProofs PlanarPoseProps PlanarInitProps PlanarDltProps.
Open Scope R_scope.

(** * Specification: sum of the squared distances in the image *)
Definition point_error (K : mat) (p : pose) (uv : image) (x : vec3) : R :=
  let e := mvec 3 K (of3 (papp p x)) in
  (e 0%nat / e 2%nat - fst uv) * (e 0%nat / e 2%nat - fst uv) + (e 1%nat / e 2%nat - snd uv) * (e 1%nat / e 2%nat - snd uv).
Fixpoint image_error (K : mat) (p : pose) (p2d : list image) (p3d : list vec3) : R :=
  match p2d, p3d with
  | uv :: p2d, x :: p3d => point_error K p uv x + image_error K p p2d p3d
  | _, _ => 0
  end.
Definition in_sight (K : mat) (p : pose) (p3d : list vec3) : Prop := forall x, In x p3d -> mvec 3 K (of3 (papp p x)) 2%nat <> 0.

Lemma hom_transform_maps K p x i : rigid p -> (i < 3)%nat -> hom_transform (projection34 K p) (of3 x) i = mvec 3 K (of3 (papp p x)) i.
Proof.
  intros U Hi. rewrite <- projection34_maps by assumption. unfold hom_transform, mvec, hom3, of3, vlist. cbn [sum nth]. ring.
Qed.
(** C136: the residual without refinement *)
Theorem reprojection_error_is_sum K p p2d p3d : rigid p -> length p2d = length p3d -> in_sight K p p3d ->
  reprojection_error p2d p3d p K = Some (image_error K p p2d p3d).
Proof.
  intros U. revert p3d. induction p2d as [|uv p2d IH]; intros [|x p3d] L V; try discriminate; [reflexivity|].
  cbn [reprojection_error image_error]. rewrite !hom_transform_maps by (exact U || lia).
  destruct (Req_EM_T _ 0) as [Z|_]; [exfalso; apply (V x); [left; reflexivity|exact Z]|].
  rewrite IH; [reflexivity|injection L; auto|intros y Hy; apply V; right; exact Hy].
Qed.
Print Assumptions reprojection_error_is_sum.
Lemma reprojection_error_some K p p2d p3d r : rigid p -> length p2d = length p3d -> reprojection_error p2d p3d p K = Some r ->
  in_sight K p p3d /\ r = image_error K p p2d p3d.
Proof.
  intros U. revert p3d r. induction p2d as [|uv p2d IH]; intros [|x p3d] r L E; try discriminate.
  - injection E as <-. split; [intros y []|reflexivity].
  - cbn [reprojection_error image_error] in *. rewrite !hom_transform_maps in E by (exact U || lia).
    destruct (Req_EM_T _ 0) as [|N]; [discriminate|]. destruct (reprojection_error p2d p3d p K) as [r'|] eqn:ER; [|discriminate].
    destruct (IH p3d r' ltac:(injection L; auto) ER) as [V ->]. injection E as <-. split; [|reflexivity].
    intros y [<-|Hy]; [exact N|apply V, Hy].
Qed.

(** * C135 *)
Lemma sum_pairs n (f : nat -> R) : sum (2 * S n) f = f 0%nat + f 1%nat + sum (2 * n) (fun k => f (2 + k)%nat).
Proof. replace (2 * S n)%nat with (2 + 2 * n)%nat by lia. rewrite sum_split. cbn [sum]. ring. Qed.
Lemma pose_point_papp x v i : unit (quat_of v 3) -> (i < 3)%nat -> pose_point (of3 x) v i = of3 (papp (vector_pose v) x) i.
Proof.
  intros U Hi. unfold papp, vector_pose. cbn [rot tra]. rewrite <- (mv3_qmat _ x U). unfold pose_point, mvec, of3, vlist, mv3, vec_of. cbn [sum nth].
  idx i Hi; cbn; ring.
Qed.
Lemma pose_point_row K x v k : unit (quat_of v 3) -> mvec 3 K (pose_point (of3 x) v) k = mvec 3 K (of3 (papp (vector_pose v) x)) k.
Proof. intros U. unfold mvec. apply sum_ext. intros i Hi. rewrite pose_point_papp by assumption. reflexivity. Qed.
Lemma fit_residual K v p2d p3d : unit (quat_of v 3) -> length p2d = length p3d ->
  sum (2 * length p2d) (fun k => (measured p2d k - multi_point K (points p3d) v k) * (measured p2d k - multi_point K (points p3d) v k)) = image_error K (vector_pose v) p2d p3d.
Proof.
  intros U. revert p3d. induction p2d as [|uv p2d IH]; intros [|x p3d] L; try discriminate; [reflexivity|].
  cbn [length]. rewrite sum_pairs. cbn [image_error]. f_equal.
  - unfold multi_point, points, point_projection, dehom, measured, vlist, point_error. cbn [Nat.div Nat.modulo Nat.divmod fst snd Nat.sub flat_map app nth].
    rewrite !pose_point_row by exact U. unfold Rdiv. ring.
  - rewrite <- (IH p3d) by (injection L; auto). apply sum_ext. intros k Hk.
    assert (E1 : multi_point K (points (x :: p3d)) v (2 + k)%nat = multi_point K (points p3d) v k).
    { unfold multi_point. replace (2 + k)%nat with (k + 1 * 2)%nat by lia. rewrite Nat.div_add, Nat.mod_add by lia. rewrite Nat.add_1_r. reflexivity. }
    rewrite E1. reflexivity.
Qed.
Lemma visible_spec K p3d v : unit (quat_of v 3) -> (visible K p3d v = true <-> in_sight K (vector_pose v) p3d).
Proof.
  intros U. unfold visible. unfold unit in U. destruct (Req_EM_T (qnorm (quat_of v 3)) 0) as [Z|_]; [exfalso; rewrite U in Z; lra|]. cbn [negb andb].
  rewrite forallb_forall. split; intros H x Hx; specialize (H x Hx).
  - rewrite pose_point_row in H by exact U. destruct (Req_EM_T _ 0); [discriminate|assumption].
  - rewrite pose_point_row by exact U. destruct (Req_EM_T _ 0); [contradiction|reflexivity].
Qed.
Lemma fit_sum K v p2d p3d r : unit (quat_of v 3) -> length p2d = length p3d ->
  (sum_of_squares (2 * length p2d) (projection_eval K p3d) None (measured p2d) v = Some r <-> in_sight K (vector_pose v) p3d /\ r = image_error K (vector_pose v) p2d p3d).
Proof.
  intros U L. unfold sum_of_squares, projection_eval. pose proof (visible_spec K p3d v U) as VS. destruct (visible K p3d v).
  - rewrite fit_residual by assumption. split; [intros E; injection E as <-; split; [apply VS; reflexivity|reflexivity]|intros [_ ->]; reflexivity].
  - split; [discriminate|]. intros [V _]. apply VS in V. discriminate.
Qed.
Lemma vector_roundtrip p : vector_pose (pose_vector p) = p.
Proof. destruct p as [[] []]. reflexivity. Qed.
Lemma vector_unit p : rigid p -> unit (quat_of (pose_vector p) 3).
Proof. intros U. destruct p as [[] []]. exact U. Qed.

Definition unit_or_nan (v : vect) : Prop := unit (quat_of v 3) \/ qnorm (quat_of v 3) = 0.
Lemma normalized_unit v : unit_or_nan (normalized v).
Proof.
  unfold normalized. destruct (pose_normalize v) as [w|] eqn:E; [left; exact (pose_normalize_unit v w E)|right].
  unfold pose_normalize in E. cbv zeta in E. destruct (Req_EM_T _ 0) as [Z|]; [|discriminate]. exact Z.
Qed.

(** the refined pose is a rigid motion, the result is its error, and no worse than at the start *)
Theorem refined_pose lin p p2d p3d cam iterations p' r : rigid p -> length p2d = length p3d ->
  optimize_pose lin p p2d p3d cam iterations = Refined (Some p') (Some r) ->
  rigid p' /\ in_sight cam p' p3d /\ r = image_error cam p' p2d p3d /\ reprojection_error p2d p3d p' cam = Some r.
Proof.
  intros U L. unfold optimize_pose. destruct (levenberg_marquardt _ _ _ _ _ _ _ _ _ _ _ _) as [v e| |] eqn:E; try discriminate.
  intros H. injection H. intros -> HV. destruct v as [v|]; [|discriminate]. cbn [option_map] in HV. assert (EP : vector_pose v = p') by congruence. clear HV H.
  assert (S := E). apply lm_reports_its_residual in S; [|exact I]. symmetry in S.
  assert (UN : unit_or_nan v).
  { set (Inv := fun s : state => forall w, params s = Some w -> unit_or_nan w).
    assert (IS : forall s s' b, Inv s -> round (2 * length p2d) (projection_eval cam p3d) None normalized lin (opt_terminate iterations (1 / 1000000)) (measured p2d) 10 s = Some (s', b) -> Inv s').
    { intros s s' b HI HR w HW. unfold round in HR. cbv zeta in HR. destruct (lin _ _) as [dx|].
      - destruct (ge _ _); injection HR; intros _ <-; cbn [params] in HW; [exact (HI w HW)|].
        destruct (params s) as [q|]; [|discriminate]. destruct dx as [dx|]; [|discriminate]. injection HW. intros <-. apply normalized_unit.
      - destruct (kind s); try discriminate. injection HR. intros _ <-. exact (HI w HW). }
    assert (I0 : Inv (initial (2 * length p2d) (projection_eval cam p3d) None (measured p2d) (pose_vector p) 1 Cholesky)).
    { intros w HW. unfold initial in HW. cbn [params] in HW. injection HW. intros <-. left. apply vector_unit, U. }
    unfold levenberg_marquardt in E. destruct (loop_invariant _ _ _ _ _ _ _ _ _ _ Inv (Some v) (Some r) IS I0 E) as (s & HI & EPs & _).
    apply HI. symmetry. exact EPs. }
  assert (UV : unit (quat_of v 3)).
  { destruct UN as [UV|Z]; [exact UV|]. exfalso. unfold sum_of_squares, projection_eval, visible in S. destruct (Req_EM_T (qnorm (quat_of v 3)) 0); [discriminate|contradiction]. }
  apply fit_sum in S; [|exact UV|exact L]. destruct S as [V ->]. rewrite EP in *.
  assert (U' : rigid p') by (rewrite <- EP; exact UV).
  split; [exact U'|]. split; [exact V|]. split; [reflexivity|]. apply reprojection_error_is_sum; assumption.
Qed.
Print Assumptions refined_pose.

(** NaN in the system gives NaN or an error code *)
Definition nan_stays (lin : solver -> option (mat * vect) -> lapack) : Prop := forall k x, lin k None <> Solution (Some x).
Theorem refinement_never_worse lin p p2d p3d cam iterations p' r : nan_stays lin -> rigid p -> length p2d = length p3d ->
  optimize_pose lin p p2d p3d cam iterations = Refined (Some p') (Some r) ->
  in_sight cam p p3d /\ image_error cam p' p2d p3d <= image_error cam p p2d p3d.
Proof.
  intros NS U L HR. destruct (refined_pose _ _ _ _ _ _ _ _ U L HR) as (U' & V' & ER & _). rewrite <- ER.
  unfold optimize_pose in HR. destruct (levenberg_marquardt _ _ _ _ _ _ _ _ _ _ _ _) as [v e| |] eqn:E; try discriminate.
  injection HR. intros -> HV. clear HV. unfold levenberg_marquardt in E.
  assert (E0 : forall r0, residual (2 * length p2d) (linearise (projection_eval cam p3d) None (measured p2d) (Some (pose_vector p))) = Some r0 ->
     in_sight cam p p3d /\ r0 = image_error cam p p2d p3d).
  { intros r0 H. rewrite residual_sos in H by exact I. apply fit_sum in H; [|apply vector_unit, U|exact L]. rewrite vector_roundtrip in H. exact H. }
  set (Inv := fun s : state => match err_prev s with Some e => in_sight cam p p3d /\ e <= image_error cam p p2d p3d | None => True end /\ (err_prev s = None -> lin_prev s = None)).
  assert (IS : forall s s' b, Inv s -> round (2 * length p2d) (projection_eval cam p3d) None normalized lin (opt_terminate iterations (1 / 1000000)) (measured p2d) 10 s = Some (s', b) -> Inv s').
  { unfold Inv.
    intros s s' b (HI & HN) HR'. unfold round in HR'. cbv zeta in HR'. destruct (err_prev s) as [e0|] eqn:EE.
    + destruct (lin _ _) as [dx|].
      * set (np := match params s with Some _ => _ | None => _ end) in HR'. set (l := linearise _ _ _ np) in *.
        destruct (residual _ l) as [e1|] eqn:E1.
        -- cbn [ge] in HR'. destruct (Rle_dec e0 e1); injection HR'; intros _ <-; cbn [err_prev lin_prev]; (split; [|discriminate]).
           ++ exact HI.
           ++ split; [tauto|lra].
        -- cbn [ge] in HR'. injection HR'; intros _ <-; cbn [err_prev lin_prev]. split; [exact I|]. intros _. destruct l; [discriminate|reflexivity].
      * destruct (kind s); try discriminate. injection HR'; intros _ <-. cbn [err_prev lin_prev]. split; [exact HI|discriminate].
    + rewrite (HN eq_refl) in HR'. cbn [normal_equations option_map] in HR'. specialize (NS (kind s)). destruct (lin (kind s) None) as [[dx|]|].
      * exfalso. exact (NS dx eq_refl).
      * replace (match params s with Some _ | _ => None end) with (@None vect) in HR' by (destruct (params s); reflexivity).
        cbn in HR'. injection HR'; intros _ <-. cbn [err_prev lin_prev]. split; [exact I|reflexivity].
      * destruct (kind s); try discriminate. injection HR'; intros _ <-. cbn [err_prev lin_prev]. split; [exact I|reflexivity]. }
  assert (I0 : Inv (initial (2 * length p2d) (projection_eval cam p3d) None (measured p2d) (pose_vector p) 1 Cholesky)).
  { unfold Inv.
    unfold initial. cbn [err_prev lin_prev]. destruct (residual _ _) as [r0|] eqn:R0.
    + split; [|discriminate]. destruct (E0 r0 eq_refl) as [V ->]. split; [exact V|lra].
    + split; [exact I|]. intros _. destruct (linearise _ _ _ _); [discriminate|reflexivity]. }
  destruct (loop_invariant _ _ _ _ _ _ _ _ _ _ Inv v (Some r) IS I0 E) as (s & [HI _] & _ & Es).
  rewrite <- Es in HI. exact HI.
Qed.
Print Assumptions refinement_never_worse.

Theorem refinement_ends lin p p2d p3d cam iterations : (0 < iterations)%nat -> optimize_pose lin p p2d p3d cam iterations <> Refine_runs.
Proof.
  intros H. unfold optimize_pose. destruct (levenberg_marquardt _ _ _ _ _ _ _ _ _ _ _ _) eqn:E; try discriminate.
  exfalso. revert E. rewrite <- (Nat.add_1_r iterations). apply lm_terminates_within_limit. exact H.
Qed.
Print Assumptions refinement_ends.

(** * The initial pose is a rigid motion *)
Definition svd32_total (svd : gesvd3) : Prop := forall r, svd32_ok r (svd r).
Definition svd33_total (svd : gesvd3) : Prop := forall r, svd33_ok r (svd r) /\ fst (fst (svd r)) 2%nat <= fst (fst (svd r)) 1%nat <= fst (fst (svd r)) 0%nat.

Lemma homography_pose_rigid svd H invK p : svd32_total svd -> pose_from_homography svd H invK = Some p -> rigid p.
Proof.
  intros HS E. unfold pose_from_homography in E. cbv zeta in E. destruct (homography_translation _); [|discriminate].
  destruct (quaternion_of_rotation_matrix _ (orthogonal_svd_rotation svd _ (HS (signed H invK)))) as (q & EQ & U & _). rewrite EQ in E. injection E as <-. exact U.
Qed.
Lemma svd33_det r s u vt : svd33_ok r (s, u, vt) -> det3 r = det3 u * (s 0%nat * s 1%nat * s 2%nat) * det3 vt.
Proof.
  intros (_ & _ & _ & A). rewrite (det3_ext _ _ A). unfold det3. cbn [sum]. ring.
Qed.
Lemma align_rigid a b c m t : align_plane a b c = Got (m, t) -> rotation m.
Proof.
  unfold align_plane. destruct (scaled_to_one (v3sub b a)) as [x|] eqn:EX; [|discriminate]. destruct (scaled_to_one (v3sub c a)) as [z|]; [|discriminate].
  destruct (Rlt_dec _ _); [discriminate|]. destruct (scaled_to_one (cross3 x z)) as [w|] eqn:EN; [|discriminate]. intros E. injection E. intros _ <-. clear E.
  unfold scaled_to_one in EX, EN. destruct (Req_EM_T _ 0) as [|NX] in EX; [discriminate|]. destruct (Req_EM_T _ 0) as [|NN] in EN; [discriminate|].
  assert (EX' : v3scale (/ norm3 (v3sub b a)) (v3sub b a) = x) by congruence. assert (EN' : v3scale (/ norm3 (cross3 x z)) (cross3 x z) = w) by congruence.
  apply frame_rotation.
  - rewrite <- EX'. apply scaled_unit, NX.
  - rewrite <- EN'. apply scaled_unit, NN.
  - rewrite <- EN'. unfold dot3. cbn [v3scale cross3 vx vy vz]. ring.
Qed.
Theorem init_pose_rigid svd svd32 svd33 inv nonplanar p2d p3d cam p : svd32_total svd32 -> svd33_total svd33 ->
  init_pose svd svd32 svd33 inv nonplanar p2d p3d cam = Got p -> rigid p.
Proof.
  intros H32 H33. unfold init_pose. destruct (length p2d <? 4)%nat; [discriminate|]. cbv zeta.
  assert (HH : init_homography svd svd32 (inv cam) p2d p3d = Got p -> rigid p).
  { unfold init_homography. destruct p3d as [|a [|b [|c [|d rest]]]]; try discriminate. destruct (3 <? _)%nat.
    - destruct (homography_dlt _ _ _) as [H|]; [|discriminate]. destruct (pose_from_homography svd32 H (inv cam)) as [h|] eqn:E; [|discriminate].
      intros E'. injection E' as <-. exact (homography_pose_rigid _ _ _ _ H32 E).
    - destruct (align_plane a b c) as [[m t]| |] eqn:EA; try discriminate. destruct (homography_dlt _ _ _) as [H|]; [|discriminate].
      destruct (pose_from_homography svd32 H (inv cam)) as [h|] eqn:E; [|discriminate].
      destruct (quaternion_of_rotation_matrix m (align_rigid _ _ _ _ _ EA)) as (q & EQ & U & _). rewrite EQ. intros E'. injection E' as <-.
      apply rigid_mul; [exact (homography_pose_rigid _ _ _ _ H32 E)|exact U]. }
  destruct (nonplanar && (6 <=? length p2d)%nat); [|exact HH].
  destruct (init_projection svd svd33 (inv cam) p2d p3d) as [[p'|]| |] eqn:EI; try discriminate; [|exact HH].
  intros E. assert (p' = p) as -> by congruence. clear E. unfold init_projection in EI. destruct (projection_dlt _ _ _) as [M|]; [|discriminate].
  cbv zeta in EI. set (rt := if Rlt_dec _ 0 then _ else _) in EI.
  assert (D : 0 <= det3 rt).
  { unfold rt. destruct (Rlt_dec _ 0) as [LT|GE]; [|lra]. rewrite det3_scale. lra. }
  destruct (H33 rt) as [OK SO]. destruct (svd33 rt) as [[s u] vt]. cbn [fst] in SO.
  destruct (Req_EM_T (s 2%nat) 0) as [|NZ]; [discriminate|]. destruct (Rlt_dec _ 2); [|discriminate].
  pose proof OK as (HU & HV & HS & _). pose proof (HS 2%nat ltac:(lia)) as S2.
  assert (RM : rotation (mmul 3 u vt)).
  { apply orthonormal_rotation; [apply orthonormal_mul; assumption|]. rewrite det3_mmul.
    rewrite (svd33_det rt s u vt OK) in D. pose proof (det3_square u HU) as DU. pose proof (det3_square vt HV) as DV.
    assert (SP : 0 < s 0%nat * s 1%nat * s 2%nat) by (apply Rmult_lt_0_compat; [apply Rmult_lt_0_compat|]; lra).
    set (x := det3 u) in *. set (y := det3 vt) in *. set (k := s 0%nat * s 1%nat * s 2%nat) in *.
    assert (XY : 0 <= x * y) by (destruct (Rlt_dec (x * y) 0); [exfalso; nra|lra]).
    assert (SQ : (x * y) * (x * y) = 1) by (transitivity ((x * x) * (y * y)); [ring|rewrite DU, DV; ring]). nra. }
  destruct (quaternion_of_rotation_matrix _ RM) as (q & EQ & U & _). rewrite EQ in EI. injection EI as <-. exact U.
Qed.
Print Assumptions init_pose_rigid.

(** the start from a projection matrix is used exactly if the matrix without the camera, scaled rotation for exact data,
    stretches no direction twice as much as another *)
Lemma svd_stretch A s u vt x : svd33_ok A (s, u, vt) ->
  vdot 3 (mvec 3 A x) (mvec 3 A x) = sum 3 (fun k => s k * s k * (mvec 3 vt x k * mvec 3 vt x k)).
Proof.
  intros ([U _] & _ & _ & E).
  assert (V : veq 3 (mvec 3 A x) (mvec 3 u (fun k => s k * mvec 3 vt x k))).
  { intros i Hi. unfold mvec. rewrite (sum_ext 3 _ (fun l => sum 3 (fun k => u i k * s k * vt k l) * x l)) by (intros l Hl; rewrite (E i l Hi Hl); reflexivity).
    cbn [sum]. ring. }
  rewrite (vdot_ext 3 _ _ _ _ V V), orthogonal_norm by exact U. unfold vdot. apply sum_ext. intros; ring.
Qed.
Theorem init_projection_guard svd svd33 invK p2d p3d M : svd33_total svd33 -> projection_dlt svd (map of3 p3d) (map image_vect p2d) = Some M ->
  let stretch x := let y := mvec 3 (mmul 3 invK M) x in vdot 3 y y in
  (forall p, init_projection svd svd33 invK p2d p3d = Got (Some p) -> forall x y, vdot 3 x x = 1 -> vdot 3 y y = 1 -> stretch x < 4 * stretch y) /\
  (init_projection svd svd33 invK p2d p3d = Got None -> exists x y, vdot 3 x x = 1 /\ vdot 3 y y = 1 /\ 4 * stretch y <= stretch x).
Proof.
  intros H33 EM stretch. unfold init_projection. rewrite EM. cbv zeta. set (rt := if Rlt_dec _ 0 then _ else _).
  assert (SR : forall x, stretch x = vdot 3 (mvec 3 rt x) (mvec 3 rt x)).
  { intros x. unfold stretch, rt. cbv zeta. destruct (Rlt_dec _ 0); [|reflexivity]. unfold vdot. apply sum_ext. intros i _.
    assert (N : mvec 3 (mscale (-1) (mmul 3 invK M)) x i = - mvec 3 (mmul 3 invK M) x i) by (unfold mvec, mscale; cbn [sum]; ring). rewrite N. ring. }
  clearbody stretch. destruct (H33 rt) as [OK SO]. clearbody rt. destruct (svd33 rt) as [[s u] vt]. cbn [fst] in SO. pose proof OK as (_ & [V1 V2] & HS & _).
  pose proof (HS 2%nat ltac:(lia)) as S2.
  assert (ST : forall x, stretch x = sum 3 (fun k => s k * s k * (mvec 3 vt x k * mvec 3 vt x k))) by (intros x; rewrite SR; apply (svd_stretch _ _ u), OK).
  assert (Q10 : s 1%nat * s 1%nat <= s 0%nat * s 0%nat) by (apply Rmult_le_compat; lra).
  assert (Q21 : s 2%nat * s 2%nat <= s 1%nat * s 1%nat) by (apply Rmult_le_compat; lra).
  split.
  - intros p H x y X Y. destruct (Req_EM_T (s 2%nat) 0) as [|NZ]; [discriminate|]. destruct (Rlt_dec _ 2) as [L|]; [|discriminate].
    assert (L' : s 0%nat < 2 * s 2%nat).
    { apply (Rmult_lt_compat_r (s 2%nat)) in L; [|lra]. unfold Rdiv in L. rewrite Rmult_assoc, Rinv_l, Rmult_1_r in L by exact NZ. exact L. }
    assert (Q02 : s 0%nat * s 0%nat < 4 * (s 2%nat * s 2%nat)) by nra.
    assert (ZX := orthogonal_norm 3 vt x V1). assert (ZY := orthogonal_norm 3 vt y V1). rewrite X in ZX. rewrite Y in ZY. rewrite !ST.
    set (a := mvec 3 vt x) in *. set (b := mvec 3 vt y) in *. unfold vdot in ZX, ZY. cbn [sum] in *.
    pose proof (Rle_0_sqr (a 0%nat)) as A0. pose proof (Rle_0_sqr (a 1%nat)) as A1. pose proof (Rle_0_sqr (a 2%nat)) as A2.
    pose proof (Rle_0_sqr (b 0%nat)) as B0. pose proof (Rle_0_sqr (b 1%nat)) as B1. pose proof (Rle_0_sqr (b 2%nat)) as B2. unfold Rsqr in *.
    apply Rle_lt_trans with (s 0%nat * s 0%nat); [|apply Rlt_le_trans with (4 * (s 2%nat * s 2%nat)); [exact Q02|]].
    + replace (s 0%nat * s 0%nat) with (0 + s 0%nat * s 0%nat * (a 0%nat * a 0%nat) + s 0%nat * s 0%nat * (a 1%nat * a 1%nat) + s 0%nat * s 0%nat * (a 2%nat * a 2%nat)) at 2
        by (transitivity (s 0%nat * s 0%nat * (0 + a 0%nat * a 0%nat + a 1%nat * a 1%nat + a 2%nat * a 2%nat)); [ring|rewrite ZX; ring]).
      repeat apply Rplus_le_compat; try (apply Rmult_le_compat_r; lra). lra.
    + apply Rmult_le_compat_l; [lra|]. replace (s 2%nat * s 2%nat) with (0 + s 2%nat * s 2%nat * (b 0%nat * b 0%nat) + s 2%nat * s 2%nat * (b 1%nat * b 1%nat) + s 2%nat * s 2%nat * (b 2%nat * b 2%nat)) at 1
        by (transitivity (s 2%nat * s 2%nat * (0 + b 0%nat * b 0%nat + b 1%nat * b 1%nat + b 2%nat * b 2%nat)); [ring|rewrite ZY; ring]).
      repeat apply Rplus_le_compat; try (apply Rmult_le_compat_r; lra). lra.
  - intros H.
    assert (L : 2 * s 2%nat <= s 0%nat).
    { destruct (Req_EM_T (s 2%nat) 0) as [Z|NZ]; [lra|]. destruct (Rlt_dec _ 2) as [|L]; [destruct (quat_of_mat _); discriminate|].
      apply Rnot_lt_le in L. apply (Rmult_le_compat_r (s 2%nat)) in L; [|lra]. unfold Rdiv in L. rewrite Rmult_assoc, Rinv_l, Rmult_1_r in L by exact NZ. exact L. }
    assert (RW : forall i, (i < 3)%nat -> veq 3 (mvec 3 vt (fun j => vt i j)) (fun k => eye k i)) by (intros i Hi k Hk; exact (V2 k i Hk Hi)).
    exists (fun j => vt 0%nat j), (fun j => vt 2%nat j).
    split; [exact (V2 0%nat 0%nat ltac:(lia) ltac:(lia))|]. split; [exact (V2 2%nat 2%nat ltac:(lia) ltac:(lia))|].
    rewrite !ST, (sum_ext 3 _ (fun k => s k * s k * (eye k 2%nat * eye k 2%nat))) by (intros k Hk; rewrite (RW 2%nat ltac:(lia) k Hk); reflexivity).
    rewrite (sum_ext 3 (fun k => s k * s k * (mvec 3 vt (fun j => vt 0%nat j) k * _)) (fun k => s k * s k * (eye k 0%nat * eye k 0%nat))) by (intros k Hk; rewrite (RW 0%nat ltac:(lia) k Hk); reflexivity).
    unfold eye. cbn [sum Nat.eqb]. nra.
Qed.
Print Assumptions init_projection_guard.

(** * C136: residual and covariance of the result *)
Section Computed.
Variables (svd : gesvd_vt) (svd32 svd33 : gesvd3) (inv : mat -> mat) (gesvd : gesvd_o) (lin : solver -> option (mat * vect) -> lapack).
Hypothesis H32 : svd32_total svd32.
Hypothesis H33 : svd33_total svd33.

Lemma computed_parts nonplanar optimize p2d p3d cam p C res : length p2d = length p3d ->
  compute_pose svd svd32 svd33 inv gesvd lin nonplanar optimize p2d p3d cam = Got (p, C, res) ->
  rigid p /\ in_sight cam p p3d /\ C = single_camera_error gesvd p p3d cam (image_error cam p p2d p3d) /\ res = sqrt (image_error cam p p2d p3d / INR (length p2d * 2)).
Proof.
  intros L. unfold compute_pose. destruct (init_pose _ _ _ _ _ _ _ _) as [p0| |] eqn:EI; try discriminate.
  pose proof (init_pose_rigid _ _ _ _ _ _ _ _ _ H32 H33 EI) as U0. cbv zeta. destruct optimize.
  - destruct (optimize_pose _ _ _ _ _ _) as [[p'|] [r|]| |] eqn:EO; try discriminate. intros E.
    destruct (refined_pose _ _ _ _ _ _ _ _ U0 L EO) as (U & V & -> & _). injection E. intros <- <- <-. auto.
  - destruct (reprojection_error p2d p3d p0 cam) as [r|] eqn:ER; try discriminate. intros E.
    destruct (reprojection_error_some _ _ _ _ _ U0 L ER) as (V & ->). injection E. intros <- <- <-. auto.
Qed.
(** the result is a rigid motion and the residual is the root of the mean square of the 2 n coordinates *)
Theorem computed_residual nonplanar optimize p2d p3d cam p C res : length p2d = length p3d ->
  compute_pose svd svd32 svd33 inv gesvd lin nonplanar optimize p2d p3d cam = Got (p, C, res) ->
  rigid p /\ 0 <= res /\ 2 * INR (length p2d) * (res * res) = image_error cam p p2d p3d.
Proof.
  intros L E. assert (N4 : (4 <= length p2d)%nat).
  { unfold compute_pose, init_pose in E. destruct (length p2d <? 4)%nat eqn:N; [discriminate|]. apply Nat.ltb_ge in N. exact N. }
  destruct (computed_parts _ _ _ _ _ _ _ _ L E) as (U & V & _ & ->). split; [exact U|]. split; [apply sqrt_pos|].
  assert (NP : 0 < INR (length p2d)) by (apply lt_0_INR; lia). rewrite mult_INR. cbn [INR].
  rewrite sqrt_sqrt; [field; lra|]. unfold Rdiv. apply Rmult_le_pos; [|left; apply Rinv_0_lt_compat; nra].
  clear. revert p3d. induction p2d as [|uv p2d IH]; intros [|x p3d]; cbn [image_error]; try lra.
  specialize (IH p3d). unfold point_error. cbv zeta. set (a := _ / _ - fst uv). set (b := _ / _ - snd uv). nra.
Qed.
(** the covariance is that of measurements whose variance is the sum, not the mean, of the squares:
    2 n times the one for the variance the residual stands for *)
Theorem computed_covariance nonplanar optimize p2d p3d cam p C res : length p2d = length p3d ->
  compute_pose svd svd32 svd33 inv gesvd lin nonplanar optimize p2d p3d cam = Got (p, C, res) ->
  let J := multi_point_error_jac cam p3d (pose_vector p) in let m := (2 * length p3d)%nat in
  gesvd_ok m 6 J (gesvd m 6%nat J) -> well_conditioned m 6 J ->
  exists Cov, C = Some Cov /\ inverse_times 6 (2 * INR (length p2d) * (res * res)) (information m (fun _ => 1) J) Cov.
Proof.
  intros L E J m HG HW. destruct (computed_residual _ _ _ _ _ _ _ _ L E) as (_ & R0 & ER). destruct (computed_parts _ _ _ _ _ _ _ _ L E) as (U & V & EC & _).
  rewrite ER. destruct (back_identity_inverse gesvd m 6 (image_error cam p p2d p3d) J HG HW) as (Cov & EB & I).
  - rewrite <- ER. pose proof (pos_INR (length p2d)). apply Rmult_le_pos; [lra|apply Rle_0_sqr].
  - exists Cov. split; [rewrite EC; exact EB|exact I].
Qed.
Theorem computed_covariance_refuted nonplanar optimize p2d p3d cam p C res : length p2d = length p3d ->
  compute_pose svd svd32 svd33 inv gesvd lin nonplanar optimize p2d p3d cam = Got (p, C, res) -> res <> 0 ->
  let J := multi_point_error_jac cam p3d (pose_vector p) in let m := (2 * length p3d)%nat in
  gesvd_ok m 6 J (gesvd m 6%nat J) -> well_conditioned m 6 J ->
  exists Cov, C = Some Cov /\ ~ inverse_times 6 (res * res) (information m (fun _ => 1) J) Cov.
Proof.
  intros L E NR J m HG HW. destruct (computed_covariance _ _ _ _ _ _ _ _ L E HG HW) as (Cov & EC & I1 & _). exists Cov. split; [exact EC|]. intros [I2 _].
  assert (N4 : (4 <= length p2d)%nat).
  { unfold compute_pose, init_pose in E. destruct (length p2d <? 4)%nat eqn:N; [discriminate|]. apply Nat.ltb_ge in N. exact N. }
  apply le_INR in N4. cbn [INR] in N4.
  specialize (I1 0%nat 0%nat ltac:(lia) ltac:(lia)). specialize (I2 0%nat 0%nat ltac:(lia) ltac:(lia)). fold J m in I1. rewrite I1 in I2. unfold mscale, eye in I2. cbn [Nat.eqb] in I2.
  assert (0 < res * res) by nra. nra.
Qed.
End Computed.
Print Assumptions computed_residual.
Print Assumptions computed_covariance.
Print Assumptions computed_covariance_refuted.

(** a solver that never moves: one iteration returns the pose and its error *)
Definition still (_ : solver) (sys : option (mat * vect)) : lapack := match sys with Some _ => Solution (Some (fun _ => 0)) | None => Solution None end.
Example still_nan : nan_stays still.
Proof. intros k x. discriminate. Qed.
Example refined_case : let p := P qone (V3 0 0 (-1)) in
  optimize_pose still p [(2, 1); (1, -1); (-1, 1); (-1, -1)] [V3 1 1 0; V3 1 (-1) 0; V3 (-1) 1 0; V3 (-1) (-1) 0] flip 1 = Refined (Some p) (Some 1).
Proof.
  intros p. set (p3d := [V3 1 1 0; V3 1 (-1) 0; V3 (-1) 1 0; V3 (-1) (-1) 0]). set (p2d := [(2, 1); (1, -1); (-1, 1); (-1, -1)]).
  assert (U : rigid p) by (unfold p, rigid, unit, qnorm, qone; cbn; ring).
  assert (S0 : forall v, unit (quat_of v 3) -> vector_pose v = p -> residual (2 * length p2d) (linearise (projection_eval flip p3d) None (measured p2d) (Some v)) = Some 1).
  { intros v UV EV. rewrite residual_sos by exact I. apply fit_sum; [exact UV|reflexivity|]. rewrite EV. split.
    - intros x Hx. unfold p3d in Hx. cbn [In] in Hx. destruct Hx as [<-|[<-|[<-|[<-|[]]]]]; unfold p, mvec, papp, qrot, flip, mk33, of3, vlist; cbn; lra.
    - unfold p3d, p2d, p. cbn [image_error]. unfold point_error, mvec, papp, qrot, flip, mk33, of3, vlist. cbn. field. }
  unfold optimize_pose. change (2 * length p2d)%nat with 8%nat in *. unfold levenberg_marquardt. cbn [loop]. unfold round, initial.
  cbn [iteration kind lin_prev params err_prev lambda]. rewrite (S0 (pose_vector p) (vector_unit p U) (vector_roundtrip p)).
  destruct (linearise (projection_eval flip p3d) None (measured p2d) (Some (pose_vector p))) as [[d J]|] eqn:EL.
  2:{ exfalso. pose proof (S0 (pose_vector p) (vector_unit p U) (vector_roundtrip p)) as E. rewrite EL in E. discriminate. }
  cbn [normal_equations option_map still].
  assert (EN : vector_pose (normalized (vadd (pose_vector p) (fun _ => 0))) = p /\ unit (quat_of (normalized (vadd (pose_vector p) (fun _ => 0))) 3)).
  { unfold normalized, pose_normalize. cbv zeta. unfold vadd, pose_vector, p, qone, vlist. cbn [nth rot tra vx vy vz qx qy qz qw].
    assert (EL2 : (0 + 0) * (0 + 0) + (0 + 0) * (0 + 0) + (0 + 0) * (0 + 0) + (1 + 0) * (1 + 0) = 1) by ring. rewrite EL2, sqrt_1.
    destruct (Req_EM_T 1 0) as [Z|_]; [lra|]. unfold vector_pose, quat_of, vec_of, unit, qnorm. cbn. split; [|field].
    f_equal; f_equal; field. }
  destruct EN as [EN UN]. rewrite (S0 _ UN EN). cbn [ge]. destruct (Rle_dec 1 1) as [_|N]; [|lra].
  assert (ST : opt_terminate 1 (1 / 1000000) 1 (Some 1) (Some 1) = true) by reflexivity. rewrite ST. cbn [params err_prev option_map]. rewrite vector_roundtrip. reflexivity.
Qed.

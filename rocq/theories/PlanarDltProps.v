(** Pose estimation from a projection matrix (C134). *)
From Coq Require Import Reals List Arith Bool Lra Lia Psatz.
Import ListNotations.
From Verif Require Import Mat Quat QuatProofs QuatMatProofs QuatProps LinAlg LinAlgProps AbsOrient AbsOrientProofs AbsOrientProps TsaiLenzProps Dlt DltProofs HomographyProps ProjectionDltProps
  Jacobians LevMarq LevMarqProofs LevMarqProps BackProp BackPropProps ProjectionProofs OrthoIter OrthoIterProofs OrthoIterProps PlanarPose PlanarPoseProofs PlanarPoseProps PlanarInitProps.
Open Scope R_scope.

Definition svd33_contract (svd : gesvd3) : Prop := forall r c q, 0 < c -> unit q -> meq 3 3 r (mscale c (qmat q)) -> svd33_ok r (svd r).

Lemma orthonormal_row m i j : orthonormal 3 m -> (i < 3)%nat -> (j < 3)%nat -> sum 3 (fun k => m i k * m j k) = eye i j.
Proof. intros [_ H] Hi Hj. exact (H i j Hi Hj). Qed.
Lemma orthonormal_column m i j : orthonormal 3 m -> (i < 3)%nat -> (j < 3)%nat -> sum 3 (fun k => m k i * m k j) = eye i j.
Proof. intros [H _] Hi Hj. exact (H i j Hi Hj). Qed.

Lemma svd_scaled r s u vt m c : svd33_ok r (s, u, vt) -> rotation m -> 0 < c -> meq 3 3 r (mscale c m) ->
  (forall k, (k < 3)%nat -> s k = c) /\ meq 3 3 (mmul 3 u vt) m.
Proof.
  intros (HU & HV & HS & A) HM HC E. destruct (rotation_orthonormal m HM) as [HO _].
  assert (F : forall k j, (k < 3)%nat -> (j < 3)%nat -> sum 3 (fun i => u i k * (c * m i j)) = s k * vt k j).
  { intros k j Hk Hj.
    rewrite (sum_ext _ _ (fun i => sum 3 (fun l => u i k * u i l * (s l * vt l j)))).
    2:{ intros i Hi. assert (EI := E i j Hi Hj). unfold mscale in EI. rewrite <- EI, (A i j Hi Hj), <- sum_scal_l. apply sum_ext. intros; ring. }
    rewrite sum_swap. rewrite (sum_single 3 _ k Hk).
    - rewrite sum_scal_r, (orthonormal_column u k k HU Hk Hk). unfold eye. rewrite Nat.eqb_refl. ring.
    - intros l Hl N. rewrite sum_scal_r, (orthonormal_column u k l HU Hk Hl). unfold eye. rewrite (proj2 (Nat.eqb_neq k l)) by lia. ring. }
  assert (SK : forall k, (k < 3)%nat -> s k = c).
  { intros k Hk.
    assert (SQ : s k * s k = c * c).
    { transitivity (sum 3 (fun j => (s k * vt k j) * (s k * vt k j))).
      - rewrite (sum_ext _ _ (fun j => s k * s k * (vt k j * vt k j))) by (intros; ring). rewrite sum_scal_l, (orthonormal_row vt k k HV Hk Hk). unfold eye. rewrite Nat.eqb_refl. ring.
      - rewrite (sum_ext _ _ (fun j => sum 3 (fun i => u i k * (c * m i j)) * sum 3 (fun i => u i k * (c * m i j)))) by (intros; rewrite F by assumption; reflexivity).
        pose proof (orthonormal_row m 0 0 HO) as R00. pose proof (orthonormal_row m 0 1 HO) as R01. pose proof (orthonormal_row m 0 2 HO) as R02.
        pose proof (orthonormal_row m 1 1 HO) as R11. pose proof (orthonormal_row m 1 2 HO) as R12. pose proof (orthonormal_row m 2 2 HO) as R22.
        pose proof (orthonormal_column u k k HU Hk Hk) as UK. unfold eye in *. rewrite Nat.eqb_refl in UK. cbn [sum Nat.eqb] in *.
        specialize (R00 ltac:(lia) ltac:(lia)). specialize (R01 ltac:(lia) ltac:(lia)). specialize (R02 ltac:(lia) ltac:(lia)). specialize (R11 ltac:(lia) ltac:(lia)). specialize (R12 ltac:(lia) ltac:(lia)). specialize (R22 ltac:(lia) ltac:(lia)).
        set (a := u 0%nat k) in *. set (b := u 1%nat k) in *. set (d := u 2%nat k) in *.
        transitivity (c * c * (a * a * (0 + m 0%nat 0%nat * m 0%nat 0%nat + m 0%nat 1%nat * m 0%nat 1%nat + m 0%nat 2%nat * m 0%nat 2%nat)
          + b * b * (0 + m 1%nat 0%nat * m 1%nat 0%nat + m 1%nat 1%nat * m 1%nat 1%nat + m 1%nat 2%nat * m 1%nat 2%nat)
          + d * d * (0 + m 2%nat 0%nat * m 2%nat 0%nat + m 2%nat 1%nat * m 2%nat 1%nat + m 2%nat 2%nat * m 2%nat 2%nat)
          + 2 * a * b * (0 + m 0%nat 0%nat * m 1%nat 0%nat + m 0%nat 1%nat * m 1%nat 1%nat + m 0%nat 2%nat * m 1%nat 2%nat)
          + 2 * a * d * (0 + m 0%nat 0%nat * m 2%nat 0%nat + m 0%nat 1%nat * m 2%nat 1%nat + m 0%nat 2%nat * m 2%nat 2%nat)
          + 2 * b * d * (0 + m 1%nat 0%nat * m 2%nat 0%nat + m 1%nat 1%nat * m 2%nat 1%nat + m 1%nat 2%nat * m 2%nat 2%nat))); [ring|].
        rewrite R00, R01, R02, R11, R12, R22. transitivity (c * c * (0 + a * a + b * b + d * d)); [ring|]. rewrite UK. ring. }
    pose proof (HS k Hk). nra. }
  split; [exact SK|]. intros i j Hi Hj. apply Rmult_eq_reg_l with c; [|lra]. assert (EI := E i j Hi Hj). unfold mscale in EI. rewrite <- EI, (A i j Hi Hj).
  unfold mmul. rewrite <- sum_scal_l. apply sum_ext. intros k Hk. rewrite SK by exact Hk. ring.
Qed.

(** length of the third row of the camera matrix *)
Definition third_row (K : mat) : R := K 2%nat 0%nat * K 2%nat 0%nat + K 2%nat 1%nat * K 2%nat 1%nat + K 2%nat 2%nat * K 2%nat 2%nat.

Lemma projection34_maps K p x i : rigid p -> (i < 3)%nat -> mvec 4 (projection34 K p) (hom3 (of3 x)) i = mvec 3 K (of3 (papp p x)) i.
Proof.
  intros U Hi. unfold papp. rewrite <- (mv3_qmat (rot p) x U). unfold mvec, projection34, mmul, hom3, of3, vlist, mv3, v3add. cbn [sum nth Nat.ltb Nat.leb vx vy vz]. ring.
Qed.
Lemma projection34_det K p : rigid p -> det3 (projection34 K p) = det3 K.
Proof.
  intros U. transitivity (det3 (mmul 3 K (qmat (rot p)))).
  - apply det3_ext. intros i j Hi Hj. unfold projection34, mmul. apply sum_ext. intros k Hk. rewrite (proj2 (Nat.ltb_lt j 3)) by lia. reflexivity.
  - rewrite det3_mmul. destruct (rotation_orthonormal _ (qmat_rotation (rot p) U)) as [_ D]. rewrite D. ring.
Qed.
Lemma projection34_view K p : rigid p -> view_length (projection34 K p) = third_row K.
Proof.
  intros U. destruct (rotation_orthonormal _ (qmat_rotation (rot p) U)) as [HO _]. set (m := qmat (rot p)) in *.
  pose proof (orthonormal_row m 0 0 HO) as R00. pose proof (orthonormal_row m 0 1 HO) as R01. pose proof (orthonormal_row m 0 2 HO) as R02.
  pose proof (orthonormal_row m 1 1 HO) as R11. pose proof (orthonormal_row m 1 2 HO) as R12. pose proof (orthonormal_row m 2 2 HO) as R22. unfold eye in *. cbn [sum Nat.eqb] in *.
  specialize (R00 ltac:(lia) ltac:(lia)). specialize (R01 ltac:(lia) ltac:(lia)). specialize (R02 ltac:(lia) ltac:(lia)). specialize (R11 ltac:(lia) ltac:(lia)). specialize (R12 ltac:(lia) ltac:(lia)). specialize (R22 ltac:(lia) ltac:(lia)).
  unfold view_length, projection34, mmul, third_row. fold m. cbn [sum Nat.ltb Nat.leb].
  set (a := K 2%nat 0%nat) in *. set (b := K 2%nat 1%nat) in *. set (d := K 2%nat 2%nat) in *.
  transitivity (a * a * (0 + m 0%nat 0%nat * m 0%nat 0%nat + m 0%nat 1%nat * m 0%nat 1%nat + m 0%nat 2%nat * m 0%nat 2%nat)
          + b * b * (0 + m 1%nat 0%nat * m 1%nat 0%nat + m 1%nat 1%nat * m 1%nat 1%nat + m 1%nat 2%nat * m 1%nat 2%nat)
          + d * d * (0 + m 2%nat 0%nat * m 2%nat 0%nat + m 2%nat 1%nat * m 2%nat 1%nat + m 2%nat 2%nat * m 2%nat 2%nat)
          + 2 * a * b * (0 + m 0%nat 0%nat * m 1%nat 0%nat + m 0%nat 1%nat * m 1%nat 1%nat + m 0%nat 2%nat * m 1%nat 2%nat)
          + 2 * a * d * (0 + m 0%nat 0%nat * m 2%nat 0%nat + m 0%nat 1%nat * m 2%nat 1%nat + m 0%nat 2%nat * m 2%nat 2%nat)
          + 2 * b * d * (0 + m 1%nat 0%nat * m 2%nat 0%nat + m 1%nat 1%nat * m 2%nat 1%nat + m 1%nat 2%nat * m 2%nat 2%nat)); [ring|].
  rewrite R00, R01, R02, R11, R12, R22. ring.
Qed.

(** exact points in general position: the rotation is exact, the translation is multiplied by the
    squared length of the third row of the camera matrix *)
Theorem projection_init svd svd32 svd33 inv p (p2d : list image) (p3d : list vec3) cam :
  rigid p -> (6 <= length p3d)%nat -> length p2d = length p3d ->
  (forall x uv, In (x, uv) (combine p3d p2d) -> seen cam p uv x) ->
  determines_p (map of3 p3d) (map image_vect p2d) (projection34 cam p) ->
  meq 3 3 (mmul 3 (inv cam) cam) eye -> svd33_contract svd33 -> p_svd_ok svd (map of3 p3d) (map image_vect p2d) ->
  exists p'', init_pose svd svd32 svd33 inv true p2d p3d cam = Got p'' /\ same_motion (P (rot p) (v3scale (third_row cam) (tra p))) p''.
Proof.
  intros U L6 HL HV DT HI H33 HS. set (P0 := projection34 cam p) in *.
  assert (RC : regular_camera P0) by (unfold regular_camera, P0; rewrite projection34_det by exact U; apply (inverse_det cam (inv cam) HI)).
  assert (PM : forall f t, In (f, t) (combine (map of3 p3d) (map image_vect p2d)) -> pmaps P0 f t).
  { intros f t Hin. rewrite combine_map_l, combine_map_r, map_map in Hin. apply in_map_iff in Hin. destruct Hin as ([x uv] & E & Hin). cbn [fst snd] in E. injection E as <- <-.
    specialize (HV x uv Hin). unfold seen in HV. assert (PJ : projected (mvec 4 P0 (hom3 (of3 x))) (image_vect uv)).
    { unfold projected in *. unfold P0. rewrite !projection34_maps by (exact U || lia). exact HV. }
    apply pmaps_iff_projected; [|exact PJ]. exists 2%nat. split; [lia|]. apply PJ. }
  destruct (projection_dlt_exact svd (map of3 p3d) (map image_vect p2d) P0 HS) as (M & mu & EM & NM & MM & _); try assumption.
  { destruct p3d; [cbn in L6; lia|discriminate]. }
  { rewrite !map_length. symmetry. exact HL. }
  destruct (projection_dlt_normal_form _ _ _ _ EM) as [VL _].
  assert (MS : mu * mu * third_row cam = 1).
  { rewrite <- VL, <- (projection34_view cam p U). fold P0. unfold view_length. rewrite !MM by lia. unfold mscale. ring. }
  set (RT := fun i j => if (j <? 3)%nat then qmat (rot p) i j else of3 (tra p) i).
  assert (E0 : meq 3 4 (mmul 3 (inv cam) M) (mscale mu RT)).
  { intros i j Hi Hj. transitivity (mu * mmul 3 (mmul 3 (inv cam) cam) RT i j).
    - rewrite mmul_assoc. change (mmul 3 cam RT) with P0. unfold mmul. rewrite <- sum_scal_l. apply sum_ext. intros k Hk. rewrite (MM k j) by lia. unfold mscale. ring.
    - unfold mscale. f_equal. rewrite (mmul_ext 3 3 4 _ eye RT RT HI (meq_refl _ _ _) i j Hi Hj). apply mmul_eye_l; assumption. }
  assert (DR : det3 (mmul 3 (inv cam) M) = mu * mu * mu).
  { rewrite (det3_ext _ (mscale mu (qmat (rot p)))) by (intros i j Hi Hj; rewrite E0 by lia; unfold mscale, RT; rewrite (proj2 (Nat.ltb_lt j 3)) by lia; reflexivity).
    rewrite det3_scale. destruct (rotation_orthonormal _ (qmat_rotation (rot p) U)) as [_ D]. rewrite D. ring. }
  unfold init_pose. replace (length p2d <? 4)%nat with false by (symmetry; apply Nat.ltb_ge; lia).
  replace (6 <=? length p2d)%nat with true by (symmetry; apply Nat.leb_le; lia). cbn [andb]. unfold init_projection. rewrite EM.
  set (rt := if Rlt_dec _ 0 then _ else _).
  assert (ERT : meq 3 4 rt (mscale (Rabs mu) RT)).
  { intros i j Hi Hj. unfold rt. rewrite DR. destruct (Rlt_dec (mu * mu * mu) 0) as [LT|GE].
    - rewrite Rabs_left by (clear -LT; pose proof (Rle_0_sqr mu); unfold Rsqr in *; destruct (Rlt_dec mu 0); [assumption|nra]). unfold mscale. rewrite (E0 i j Hi Hj). unfold mscale. ring.
    - rewrite Rabs_pos_eq by (clear -GE NM; assert (0 < mu * mu) by nra; destruct (Rlt_dec mu 0); [exfalso; apply GE; nra|lra]). exact (E0 i j Hi Hj). }
  clearbody rt. assert (AP := Rabs_pos_lt mu NM).
  assert (ER : meq 3 3 rt (mscale (Rabs mu) (qmat (rot p)))) by (intros i j Hi Hj; rewrite ERT by lia; unfold mscale, RT; rewrite (proj2 (Nat.ltb_lt j 3)) by lia; reflexivity).
  pose proof (H33 rt (Rabs mu) (rot p) AP U ER) as OK. destruct (svd33 rt) as [[s u] vt].
  destruct (svd_scaled rt s u vt (qmat (rot p)) (Rabs mu) OK (qmat_rotation _ U) AP ER) as [SK UV].
  rewrite !SK by lia. destruct (Req_EM_T (Rabs mu) 0) as [Z|_]; [exfalso; lra|]. destruct (Rlt_dec (Rabs mu / Rabs mu) 2) as [_|GE].
  2:{ exfalso. apply GE. replace (Rabs mu / Rabs mu) with 1 by (field; lra). lra. }
  destruct (quaternion_of_rotation_matrix (mmul 3 u vt)) as (q & -> & UQ & EQ).
  { apply (rotation_meq (qmat (rot p))); [apply meq_sym; exact UV|apply qmat_rotation; exact U]. }
  eexists. split; [reflexivity|]. split; [exact UQ|]. intros x. unfold papp. cbn [rot tra].
  f_equal; [apply qmat_rot; [exact U|exact UQ|]; apply (meq_trans _ _ _ _ _ EQ UV)|].
  assert (TS : third_row cam = / (Rabs mu * Rabs mu)).
  { rewrite <- Rabs_mult, Rabs_pos_eq by (apply Rle_0_sqr). apply Rmult_eq_reg_l with (mu * mu); [rewrite MS; field; exact NM|]. clear -NM. nra. }
  rewrite TS. unfold col3. apply v3_ext; cbn [v3scale vx vy vz]; rewrite ERT by lia; unfold mscale, RT; cbn [Nat.ltb Nat.leb]; rewrite of3_nth by lia; field; lra.
Qed.
Print Assumptions projection_init.
(** a camera matrix with third row (0, 0, +-1): the pose itself *)
Theorem projection_init_exact svd svd32 svd33 inv p (p2d : list image) (p3d : list vec3) cam :
  rigid p -> (6 <= length p3d)%nat -> length p2d = length p3d -> third_row cam = 1 ->
  (forall x uv, In (x, uv) (combine p3d p2d) -> seen cam p uv x) ->
  determines_p (map of3 p3d) (map image_vect p2d) (projection34 cam p) ->
  meq 3 3 (mmul 3 (inv cam) cam) eye -> svd33_contract svd33 -> p_svd_ok svd (map of3 p3d) (map image_vect p2d) ->
  exists p'', init_pose svd svd32 svd33 inv true p2d p3d cam = Got p'' /\ same_motion p p''.
Proof.
  intros U L6 HL T1 HV DT HI H33 HS. destruct (projection_init svd svd32 svd33 inv p p2d p3d cam U L6 HL HV DT HI H33 HS) as (p'' & E & SM).
  exists p''. split; [exact E|]. rewrite T1 in SM. replace (v3scale 1 (tra p)) with (tra p) in SM by (apply v3_ext; cbn; ring). destruct p; exact SM.
Qed.
Print Assumptions projection_init_exact.
(** the same camera with its matrix multiplied by a constant does not give the same pose *)
Theorem projection_init_refuted svd svd32 svd33 inv p (p2d : list image) (p3d : list vec3) cam :
  rigid p -> (6 <= length p3d)%nat -> length p2d = length p3d -> third_row cam <> 1 -> tra p <> v3zero ->
  (forall x uv, In (x, uv) (combine p3d p2d) -> seen cam p uv x) ->
  determines_p (map of3 p3d) (map image_vect p2d) (projection34 cam p) ->
  meq 3 3 (mmul 3 (inv cam) cam) eye -> svd33_contract svd33 -> p_svd_ok svd (map of3 p3d) (map image_vect p2d) ->
  exists p'', init_pose svd svd32 svd33 inv true p2d p3d cam = Got p'' /\ ~ same_motion p p''.
Proof.
  intros U L6 HL T1 TN HV DT HI H33 HS. destruct (projection_init svd svd32 svd33 inv p p2d p3d cam U L6 HL HV DT HI H33 HS) as (p'' & E & _ & SM).
  exists p''. split; [exact E|]. intros [_ SM']. apply TN. specialize (SM v3zero). rewrite SM' in SM. unfold papp in SM. cbn [rot tra] in SM.
  apply v3_ext; [apply (f_equal vx) in SM|apply (f_equal vy) in SM|apply (f_equal vz) in SM]; cbn [v3add v3scale v3zero vx vy vz] in *; clear -T1 SM;
    match goal with |- ?t = 0 => assert ((third_row cam - 1) * t = 0) as Z by lra; apply Rmult_integral in Z; destruct Z; lra end.
Qed.
Print Assumptions projection_init_refuted.

(** a decomposition of scaled rotations *)
Definition scaled_svd : gesvd3 := fun r => let c := norm3 (col3 r 0) in (fun _ => c, mscale (/ c) r, eye).
Lemma scaled_svd_ok : svd33_contract scaled_svd.
Proof.
  intros r c q C U E. assert (R0 := qmat_rotation q U). unfold svd33_ok, scaled_svd.
  assert (EN : norm3 (col3 r 0) = c).
  { apply norm3_sq; [lra|]. pose proof (qmat_col q 0 0 U) as D. unfold dot3, col3, eye in *. cbn [vx vy vz Nat.eqb] in *. rewrite !E by lia. unfold mscale.
    transitivity (c * c * (qmat q 0%nat 0%nat * qmat q 0%nat 0%nat + qmat q 1%nat 0%nat * qmat q 1%nat 0%nat + qmat q 2%nat 0%nat * qmat q 2%nat 0%nat)); [ring|]. rewrite D by lia. ring. }
  cbv zeta. rewrite EN. split; [|split; [|split; [intros; lra|]]].
  - apply rotation_orthonormal. apply (rotation_meq (qmat q)); [|exact R0]. intros i j Hi Hj. unfold mscale. rewrite E by assumption. unfold mscale. field. lra.
  - split; intros i j Hi Hj; idx i Hi; idx j Hj; unfold mmul, tr, eye; cbn; ring.
  - intros i j Hi Hj. rewrite (sum_single 3 _ j Hj).
    + unfold mscale, eye. rewrite Nat.eqb_refl. field. lra.
    + intros k Hk N. unfold eye. rewrite (proj2 (Nat.eqb_neq k j)) by lia. ring.
Qed.
Definition cube3 : list vec3 := [V3 1 1 1; V3 1 (-1) 1; V3 (-1) 1 1; V3 (-1) (-1) 1; V3 1 1 (-1); V3 1 (-1) (-1); V3 (-1) 1 (-1); V3 (-1) (-1) (-1)].
Definition cube2 : list image := [(1/3, 1/3); (1/3, -1/3); (-1/3, 1/3); (-1/3, -1/3); (1, 1); (1, -1); (-1, 1); (-1, -1)].
(** a cube seen by a camera with matrix c I *)
Example cube_seen c : c <> 0 -> exists svd p'', init_pose svd frame_svd scaled_svd (fun _ => mscale (/ c) eye) true cube2 cube3 (mscale c eye) = Got p'' /\
  same_motion (P qone (V3 0 0 (2 * (c * c)))) p''.
Proof.
  intros C. destruct cube_found as (svd & _ & OK & _). exists svd. set (p := P qone (V3 0 0 2)). set (K := mscale c eye).
  assert (EP : meq 3 4 (projection34 K p) (mscale c cube_camera)).
  { intros i j Hi Hj. unfold projection34, p, K, mmul, mscale, eye, cube_camera, mlist, qmat, qone, of3, vlist. cbn [rot tra vx vy vz].
    destruct i as [|[|[|]]]; [| | |lia]; (destruct j as [|[|[|[|]]]]; [| | | |lia]); cbn; ring. }
  destruct (projection_init svd frame_svd scaled_svd (fun _ => mscale (/ c) eye) p cube2 cube3 K) as (p'' & E & SM).
  - unfold p, rigid, unit, qnorm, qone. cbn. ring.
  - cbn. lia.
  - reflexivity.
  - intros x uv Hin. unfold cube3, cube2 in Hin. cbn [combine In] in Hin.
    repeat (destruct Hin as [Hin|Hin]; [injection Hin as <- <-; unfold seen, projected, mvec, papp, qrot, p, K, mscale, eye, image_vect, of3, vlist; cbn; split; [intros Z; apply C; lra|split; field]|]). destruct Hin.
  - intros M HM. destruct (cube_determines M) as (mu & EM); [exact HM|]. exists (mu / c). intros i j Hi Hj. rewrite (EM i j Hi Hj). unfold mscale. rewrite (EP i j Hi Hj). unfold mscale. field. exact C.
  - intros i j Hi Hj. unfold K, mmul, mscale, eye. idx i Hi; idx j Hj; cbn; field; exact C.
  - exact scaled_svd_ok.
  - exact OK.
  - exists p''. split; [exact E|]. replace (V3 0 0 (2 * (c * c))) with (v3scale (third_row K) (tra p)); [exact SM|].
    unfold third_row, K, p, mscale, eye. apply v3_ext; cbn; ring.
Qed.

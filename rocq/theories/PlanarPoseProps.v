(** Pose from a homography and from 2D-3D correspondences (C132-C137). *)
From Coq Require Import Reals List Arith Bool Lra Lia Psatz.
Import ListNotations.
From Verif Require Import Mat Quat QuatProofs QuatProps LinAlg LinAlgProps AbsOrient AbsOrientProofs Dlt DltProofs HomographyProps ProjectionDltProps
  Jacobians LevMarq LevMarqProofs LevMarqProps BackProp BackPropProps ProjectionProofs OrthoIter OrthoIterProofs OrthoIterProps PlanarPose PlanarPoseProofs.
Open Scope R_scope.

(** * Specification *)
(** the pose as a motion: it is rigid and moves all points as [p] does *)
Definition same_motion (p p' : pose) : Prop := rigid p' /\ forall x, papp p' x = papp p x.
(** the plane z = 0 of an object at [p] seen by a camera with matrix [K]: the homography from
    plane to image coordinates *)
Definition plane_homography (K : mat) (p : pose) : mat := fun i j =>
  let x := match j with 0%nat => V3 1 0 0 | 1%nat => V3 0 1 0 | _ => V3 0 0 0 end in
  let y := match j with 0%nat | 1%nat => qrot (rot p) x | _ => papp p x end in
  mvec 3 K (of3 y) i.
(** it maps (x, y, 1) to K (R (x, y, 0) + t) *)
Lemma plane_homography_maps K p x y : rigid p ->
  veq 3 (mvec 3 (plane_homography K p) (hom2 (vlist [x; y]))) (mvec 3 K (of3 (papp p (V3 x y 0)))).
Proof.
  intros U i Hi. unfold plane_homography, mvec, hom2, of3, vlist, papp. cbn [sum nth v3add vx vy vz].
  assert (E : qrot (rot p) (V3 x y 0) = v3add (v3scale x (qrot (rot p) (V3 1 0 0))) (v3scale y (qrot (rot p) (V3 0 1 0)))).
  { rewrite <- !qrot_scale, <- qrot_add. f_equal. apply v3_ext; cbn; ring. }
  assert (Z : qrot (rot p) (V3 0 0 0) = V3 0 0 0) by (unfold qrot; cbn [vx vy vz]; apply v3_ext; cbn; ring).
  rewrite E, Z. cbn [v3add v3scale vx vy vz]. ring.
Qed.
Lemma plane_homography_frame K p : rigid p -> meq 3 3 (plane_homography K p) (mmul 3 K (plane_frame (rot p) (tra p))).
Proof.
  intros U i j Hi Hj. unfold plane_homography, mmul, mvec. apply sum_ext. intros k Hk. f_equal.
  unfold plane_frame. unfold rigid in U. idx j Hj; cbn [Nat.ltb Nat.leb].
  - rewrite <- mv3_qmat by exact U. idx k Hk; unfold of3, vlist, mv3; cbn [nth vx vy vz]; ring.
  - rewrite <- mv3_qmat by exact U. idx k Hk; unfold of3, vlist, mv3; cbn [nth vx vy vz]; ring.
  - unfold papp. rewrite <- mv3_qmat by exact U. idx k Hk; unfold of3, vlist, mv3; cbn [nth v3add vx vy vz]; ring.
Qed.
Lemma homography_reduced K invK H lambda p : rigid p -> meq 3 3 (mmul 3 invK K) eye -> meq 3 3 H (mscale lambda (plane_homography K p)) ->
  meq 3 3 (mmul 3 invK H) (mscale lambda (plane_frame (rot p) (tra p))).
Proof.
  intros U I E i j Hi Hj.
  assert (E' : meq 3 3 H (mscale lambda (mmul 3 K (plane_frame (rot p) (tra p))))).
  { intros a b Ha Hb. rewrite (E a b Ha Hb). unfold mscale. rewrite plane_homography_frame by assumption. reflexivity. }
  transitivity (mmul 3 invK (mscale lambda (mmul 3 K (plane_frame (rot p) (tra p)))) i j); [apply (mmul_ext 3 3 3); [apply meq_refl|exact E'|exact Hi|exact Hj]|].
  transitivity (lambda * mmul 3 invK (mmul 3 K (plane_frame (rot p) (tra p))) i j); [unfold mmul, mscale; cbn [sum]; ring|].
  unfold mscale. f_equal. rewrite <- mmul_assoc. transitivity (mmul 3 eye (plane_frame (rot p) (tra p)) i j); [apply (mmul_ext 3 3 3); [exact I|apply meq_refl|exact Hi|exact Hj]|apply mmul_eye_l; exact Hi].
Qed.

(** * C132 *)
(** the pose is a rigid motion with the plane's origin at z <= 0, and no rotation is closer to the
    homography's first two columns *)
Theorem homography_pose_rotation svd H invK p : svd32_ok (signed H invK) (svd (signed H invK)) ->
  pose_from_homography svd H invK = Some p ->
  rigid p /\ vz (tra p) <= 0 /\
  forall q, unit q -> frame_distance (signed H invK) (qmat (rot p)) <= frame_distance (signed H invK) (qmat q).
Proof.
  intros HS. unfold pose_from_homography. cbv zeta. set (r := signed H invK) in *.
  pose proof (orthogonal_svd_rotation svd r HS) as HR. destruct (quaternion_of_rotation_matrix _ HR) as (q & -> & U & E).
  destruct (homography_translation r) as [t|] eqn:ET; [|discriminate]. intros HP. injection HP as <-. cbn [rot tra]. split; [exact U|]. split.
  - unfold homography_translation in ET. cbv zeta in ET. destruct (Req_EM_T _ 0) as [|N]; [discriminate|]. injection ET as <-. cbn [v3scale vz col3].
    pose proof (signed_nonpos H invK) as S. fold r in S.
    assert (L : 0 < norm3 (col3 r 0) + norm3 (col3 r 1)).
    { pose proof (sqrt_pos (r 0%nat 0%nat * r 0%nat 0%nat + r 1%nat 0%nat * r 1%nat 0%nat + r 2%nat 0%nat * r 2%nat 0%nat)) as A.
      pose proof (sqrt_pos (r 0%nat 1%nat * r 0%nat 1%nat + r 1%nat 1%nat * r 1%nat 1%nat + r 2%nat 1%nat * r 2%nat 1%nat)) as B.
      unfold norm3, col3 in *. cbn [vx vy vz] in *. lra. }
    assert (0 < 2 / (norm3 (col3 r 0) + norm3 (col3 r 1))) by (apply Rdiv_lt_0_compat; lra). nra.
  - intros q' U'. assert (FE : frame_distance r (qmat q) = frame_distance r (orthogonal_svd svd r)) by (unfold frame_distance; cbn [sum]; rewrite !E by lia; reflexivity).
    rewrite FE. apply orthogonal_svd_closest; [exact HS|]. apply qmat_rotation. exact U'.
Qed.
Print Assumptions homography_pose_rotation.

(** the homography of a plane in front of the camera (negative z), with any factor, gives the pose of
    the plane; one behind the camera is mirrored to the front *)
Theorem homography_pose_exact svd K invK H lambda p : rigid p -> meq 3 3 (mmul 3 invK K) eye ->
  lambda <> 0 -> vz (tra p) <> 0 -> meq 3 3 H (mscale lambda (plane_homography K p)) ->
  svd32_ok (signed H invK) (svd (signed H invK)) ->
  exists p', pose_from_homography svd H invK = Some p' /\ same_motion (facing p) p'.
Proof.
  intros U HI HL HT HH HS. pose proof (homography_reduced K invK H lambda p U HI HH) as E. destruct p as [q t]. cbn [rot tra] in *.
  pose proof (signed_facing H invK lambda q t HL HT U E) as S. set (f := facing (P q t)) in *.
  assert (UF : rigid f) by (apply facing_rigid; exact U). unfold pose_from_homography. cbv zeta.
  pose proof (Rabs_pos_lt lambda HL) as AL.
  rewrite (translation_exact _ (Rabs lambda) (rot f) (tra f)) by (assumption || lra).
  assert (X : meq 3 3 (orthogonal_svd svd (signed H invK)) (qmat (rot f))).
  { apply (orthogonal_svd_exact svd _ _ (Rabs lambda) HS); [apply qmat_rotation; exact UF|exact AL|].
    intros i j Hi Hj. rewrite S by lia. unfold mscale. rewrite plane_frame_cols by assumption. reflexivity. }
  destruct (quaternion_of_rotation_matrix _ (orthogonal_svd_rotation svd _ HS)) as (q' & -> & U' & E').
  eexists. split; [reflexivity|]. split; [exact U'|]. intros x. unfold papp. cbn [rot tra].
  rewrite (Rabs_pos_eq (Rabs lambda)) by lra. replace (v3scale (Rabs lambda / Rabs lambda) (tra f)) with (tra f) by (apply v3_ext; cbn; field; lra).
  f_equal. apply qmat_rot; [exact UF|exact U'|]. apply (meq_trans _ _ _ _ _ E' X).
Qed.
Print Assumptions homography_pose_exact.
(** the same without LAPACK; and whenever it gives a result it is rigid *)
Theorem homography_pose_plain_exact K invK H lambda p : rigid p -> meq 3 3 (mmul 3 invK K) eye ->
  lambda <> 0 -> vz (tra p) <> 0 -> meq 3 3 H (mscale lambda (plane_homography K p)) ->
  exists p', pose_from_homography_plain H invK = Some p' /\ same_motion (facing p) p'.
Proof.
  intros U HI HL HT HH. pose proof (homography_reduced K invK H lambda p U HI HH) as E. destruct p as [q t]. cbn [rot tra] in *.
  pose proof (signed_facing H invK lambda q t HL HT U E) as S. set (f := facing (P q t)) in *.
  assert (UF : rigid f) by (apply facing_rigid; exact U). unfold pose_from_homography_plain. cbv zeta.
  pose proof (Rabs_pos_lt lambda HL) as AL.
  rewrite (translation_exact _ (Rabs lambda) (rot f) (tra f)) by (assumption || lra).
  destruct (orthogonal_cross_exact (signed H invK) (Rabs lambda) (rot f) AL UF) as (m & EM & X).
  { intros i j Hi Hj. rewrite S by lia. unfold mscale. rewrite plane_frame_cols by assumption. reflexivity. }
  rewrite EM. destruct (quaternion_of_rotation_matrix _ (orthogonal_cross_rotation _ _ EM)) as (q' & -> & U' & E').
  eexists. split; [reflexivity|]. split; [exact U'|]. intros x. unfold papp. cbn [rot tra].
  rewrite (Rabs_pos_eq (Rabs lambda)) by lra. replace (v3scale (Rabs lambda / Rabs lambda) (tra f)) with (tra f) by (apply v3_ext; cbn; field; lra).
  f_equal. apply qmat_rot; [exact UF|exact U'|]. apply (meq_trans _ _ _ _ _ E' X).
Qed.
Print Assumptions homography_pose_plain_exact.
Theorem homography_pose_plain_rigid H invK p : pose_from_homography_plain H invK = Some p -> rigid p.
Proof.
  unfold pose_from_homography_plain. cbv zeta. destruct (homography_translation _) as [t|]; [|discriminate].
  destruct (orthogonal_cross _) as [m|] eqn:EM; [|discriminate].
  destruct (quaternion_of_rotation_matrix _ (orthogonal_cross_rotation _ _ EM)) as (q' & -> & U' & E'). intros HP. injection HP as <-. exact U'.
Qed.
Print Assumptions homography_pose_plain_rigid.
(** in either case the points of the plane are seen where they are *)
Theorem facing_reprojects K p x y : rigid p -> vz (tra p) <> 0 ->
  vz (tra (facing p)) < 0 /\
  exists s, (s = 1 \/ s = -1) /\ papp (facing p) (V3 x y 0) = v3scale s (papp p (V3 x y 0)) /\
  forall uv, projected (mvec 3 K (of3 (papp p (V3 x y 0)))) uv -> projected (mvec 3 K (of3 (papp (facing p) (V3 x y 0)))) uv.
Proof.
  intros U HT. assert (G : exists s, (s = 1 \/ s = -1) /\ papp (facing p) (V3 x y 0) = v3scale s (papp p (V3 x y 0))).
  { unfold facing. destruct (Rlt_dec _ _) as [C|C].
    - exists 1. split; [auto|]. apply v3_ext; cbn; ring.
    - exists (-1). split; [auto|].
      destruct (behind_the_camera_same_error p [(0,0)] [V3 x y 0] (pose_error p [(0,0)] [V3 x y 0]) U) as (_ & _ & M).
      + intros z [<-|[]]. reflexivity.
      + apply object_error_pose; reflexivity.
      + rewrite M by (left; reflexivity). apply v3_ext; cbn; ring. }
  split.
  - unfold facing. destruct (Rlt_dec _ _); [assumption|]. cbn [mirrored tra v3opp vz]. lra.
  - destruct G as (s & S & E). exists s. split; [exact S|]. split; [exact E|]. intros uv. unfold projected. rewrite E.
    assert (M : forall i, mvec 3 K (of3 (v3scale s (papp p (V3 x y 0)))) i = s * mvec 3 K (of3 (papp p (V3 x y 0))) i).
    { intros i. unfold mvec, of3, vlist. cbn [sum nth v3scale vx vy vz]. ring. }
    rewrite !M. intros (A & B & C). rewrite B, C. split; [|split; ring]. destruct S as [-> | ->]; lra.
Qed.
Print Assumptions facing_reprojects.

(** * C133: initialisation from planar points *)
(** the camera [K] sees the object point [x] of an object at [p] in the image [uv] *)
Definition seen (K : mat) (p : pose) (uv : image) (x : vec3) : Prop := projected (mvec 3 K (of3 (papp p x))) (image_vect uv).
(** the plane z = 0 of the object does not contain the camera *)
Definition plane_visible (p : pose) : Prop := dot3 (qrot (rot p) (V3 0 0 1)) (tra p) <> 0.
(** the singular value decomposition of two orthogonal columns of the same length *)
Definition svd32_contract (svd : gesvd3) : Prop := forall r c q, 0 < c -> unit q -> meq 3 2 r (mscale c (qmat q)) -> svd32_ok r (svd r).
Definition not_collinear (a b c : vec3) : Prop := cross3 (v3sub b a) (v3sub c a) <> v3zero.

Lemma plane_frame_det q t : unit q -> det3 (plane_frame q t) = dot3 (qrot q (V3 0 0 1)) t.
Proof.
  intros U. rewrite <- (mv3_qmat q (V3 0 0 1) U).
  replace (mv3 (qmat q) (V3 0 0 1)) with (col3 (qmat q) 2) by (unfold mv3, col3; apply v3_ext; cbn [vx vy vz]; ring).
  rewrite (rotation_third _ (qmat_rotation q U)). unfold det3, plane_frame, dot3, cross3, col3, of3, vlist. cbn [Nat.ltb Nat.leb nth vx vy vz]. ring.
Qed.
Lemma inverse_det K invK : meq 3 3 (mmul 3 invK K) eye -> det3 K <> 0.
Proof. intros I Z. pose proof (det3_ext _ _ I) as E. rewrite det3_mmul, Z, det3_eye in E. lra. Qed.

Lemma flat_exact svd svd32 K invK p (flat : list (R * R)) (p2d : list image) a b c d ta tb tc td :
  rigid p -> plane_visible p -> vz (tra p) <> 0 -> meq 3 3 (mmul 3 invK K) eye -> svd32_contract svd32 ->
  h_svd_ok svd (map image_vect flat) (map image_vect p2d) ->
  (forall xy uv, In (xy, uv) (combine flat p2d) -> seen K p uv (V3 (fst xy) (snd xy) 0)) ->
  In (a, ta) (combine flat p2d) -> In (b, tb) (combine flat p2d) -> In (c, tc) (combine flat p2d) -> In (d, td) (combine flat p2d) ->
  general_position (image_vect a) (image_vect b) (image_vect c) (image_vect d) ->
  exists H p'', homography_dlt svd (map image_vect flat) (map image_vect p2d) = Some H /\
    pose_from_homography svd32 H invK = Some p'' /\ same_motion (facing p) p''.
Proof.
  intros U PV HT HI H32 HS HV Ia Ib Ic Id GP.
  assert (CM : forall x t, In (x, t) (combine flat p2d) -> In (image_vect x, image_vect t) (combine (map image_vect flat) (map image_vect p2d))).
  { intros x t Hin. rewrite combine_map_l, combine_map_r, map_map. apply in_map_iff. exists (x, t). split; [reflexivity|exact Hin]. }
  destruct (homography_dlt_exact svd (map image_vect flat) (map image_vect p2d) (plane_homography K p)
    (image_vect a) (image_vect b) (image_vect c) (image_vect d) (image_vect ta) (image_vect tb) (image_vect tc) (image_vect td)) as (H & mu & EH & NM & EM & _); auto.
  - rewrite (det3_ext _ _ (plane_homography_frame K p U)), det3_mmul, plane_frame_det by exact U.
    apply Rmult_integral_contrapositive. split; [apply (inverse_det K invK HI)|exact PV].
  - intros f t Hin. rewrite combine_map_l, combine_map_r, map_map in Hin. apply in_map_iff in Hin. destruct Hin as ([x uv] & E & Hin). cbn [fst snd] in E. injection E as <- <-.
    specialize (HV x uv Hin). unfold seen in HV. unfold projected in *.
    pose proof (plane_homography_maps K p (fst x) (snd x) U) as M. unfold image_vect at 1 2 3 4 5. rewrite !M by lia. exact HV.
  - destruct (homography_pose_exact svd32 K invK H mu p U HI NM HT EM) as (p'' & EP & SM).
    { destruct p as [q t]. apply (H32 _ (Rabs mu) (rot (facing (P q t))) (Rabs_pos_lt mu NM)); [apply (facing_rigid (P q t)), U|].
      intros i j Hi Hj. rewrite (signed_facing H invK mu q t NM HT U (homography_reduced K invK H mu (P q t) U HI EM)) by lia.
      unfold mscale. rewrite plane_frame_cols by assumption. reflexivity. }
    exists H, p''. auto.
Qed.

Lemma same_level_all h l : (forall x, In x l -> vz x = h) -> same_level h l = map image_vect (map (fun x => (vx x, vy x)) l).
Proof.
  induction l as [|x l IH]; intros HZ; [reflexivity|]. cbn [same_level map]. destruct (Req_EM_T (vz x) h) as [E|N].
  - rewrite IH by (intros; apply HZ; right; assumption). reflexivity.
  - exfalso. apply N. apply HZ. left. reflexivity.
Qed.

(** all points at height h: the result is the pose of the points moved to height zero *)
Theorem level_points_pose svd svd32 svd33 inv p h (p2d : list image) (p3d : list vec3) cam a b c d ta tb tc td :
  let flat := map (fun x => (vx x, vy x)) p3d in
  let p' := P (rot p) (papp p (V3 0 0 h)) in
  rigid p -> (4 <= length p3d)%nat -> length p2d = length p3d -> (forall x, In x p3d -> vz x = h) ->
  (forall x uv, In (x, uv) (combine p3d p2d) -> seen cam p uv x) ->
  plane_visible p' -> vz (tra p') <> 0 ->
  In (a, ta) (combine p3d p2d) -> In (b, tb) (combine p3d p2d) -> In (c, tc) (combine p3d p2d) -> In (d, td) (combine p3d p2d) ->
  not_collinear a b c -> not_collinear a b d -> not_collinear a c d -> not_collinear b c d ->
  meq 3 3 (mmul 3 (inv cam) cam) eye -> svd32_contract svd32 -> h_svd_ok svd (map image_vect flat) (map image_vect p2d) ->
  exists p'', init_pose svd svd32 svd33 inv false p2d p3d cam = Got p'' /\ same_motion (facing p') p''.
Proof.
  intros flat p' U L4 HL HZ HV PV HT Ia Ib Ic Id N1 N2 N3 N4 HI H32 HS.
  assert (CF : forall x t, In (x, t) (combine p3d p2d) -> In ((vx x, vy x), t) (combine flat p2d)).
  { intros x t Hin. unfold flat. rewrite combine_map_l. apply in_map_iff. exists (x, t). split; [reflexivity|exact Hin]. }
  assert (GEN : forall x y z tx ty tz, In (x, tx) (combine p3d p2d) -> In (y, ty) (combine p3d p2d) -> In (z, tz) (combine p3d p2d) -> not_collinear x y z ->
     area (image_vect (vx x, vy x)) (image_vect (vx y, vy y)) (image_vect (vx z, vy z)) <> 0).
  { intros x y z tx ty tz Hx Hy Hz N A. apply N. pose proof (HZ x (in_combine_l _ _ _ _ Hx)) as Zx. pose proof (HZ y (in_combine_l _ _ _ _ Hy)) as Zy. pose proof (HZ z (in_combine_l _ _ _ _ Hz)) as Zz.
    unfold area, image_vect, vlist in A. cbn [fst snd nth] in A. apply v3_ext; cbn [cross3 v3sub v3zero vx vy vz]; rewrite ?Zx, ?Zy, ?Zz; lra. }
  destruct (flat_exact svd svd32 cam (inv cam) p' flat p2d (vx a, vy a) (vx b, vy b) (vx c, vy c) (vx d, vy d) ta tb tc td) as (H & p'' & EH & EP & SM); auto.
  - intros xy uv Hin. unfold flat in Hin. rewrite combine_map_l in Hin. apply in_map_iff in Hin. destruct Hin as ([x t] & E & Hin). cbn [fst snd] in E. injection E as <- <-. cbn [fst snd].
    specialize (HV x t Hin). unfold seen in *. replace (papp p' (V3 (vx x) (vy x) 0)) with (papp p x); [exact HV|].
    unfold p', papp. cbn [rot tra]. pose proof (HZ x (in_combine_l _ _ _ _ Hin)) as Zx.
    replace x with (v3add (V3 (vx x) (vy x) 0) (V3 0 0 h)) at 1 by (apply v3_ext; cbn [v3add vx vy vz]; lra).
    rewrite qrot_add. apply v3_ext; cbn [v3add vx vy vz]; ring.
  - unfold general_position. repeat split; eapply GEN; eassumption.
  - exists p''. split; [|exact SM]. unfold init_pose. replace (length p2d <? 4)%nat with false by (symmetry; apply Nat.ltb_ge; lia). cbn [andb].
    unfold init_homography. destruct p3d as [|w1 [|w2 [|w3 [|w4 rest]]]]; try (cbn in L4; lia).
    set (l := w1 :: w2 :: w3 :: w4 :: rest) in *. assert (E1 : vz w1 = h) by (apply HZ; left; reflexivity).
    rewrite E1, (same_level_all h l HZ). fold flat. cbv zeta. rewrite !map_length.
    assert (LF : length flat = length p2d) by (unfold flat; rewrite map_length, HL; reflexivity).
    assert (L3 : (3 <? length p2d)%nat = true) by (apply Nat.ltb_lt; lia).
    change image with (R * R)%type in *. rewrite LF, L3, firstn_all, EH, EP. reflexivity.
Qed.
Print Assumptions level_points_pose.

(** ... which is the pose itself exactly when the height is zero *)
Theorem planar_pose_exact svd svd32 svd33 inv p (p2d : list image) (p3d : list vec3) cam a b c d ta tb tc td :
  let flat := map (fun x => (vx x, vy x)) p3d in
  rigid p -> (4 <= length p3d)%nat -> length p2d = length p3d -> (forall x, In x p3d -> vz x = 0) ->
  (forall x uv, In (x, uv) (combine p3d p2d) -> seen cam p uv x) ->
  plane_visible p -> vz (tra p) < 0 ->
  In (a, ta) (combine p3d p2d) -> In (b, tb) (combine p3d p2d) -> In (c, tc) (combine p3d p2d) -> In (d, td) (combine p3d p2d) ->
  not_collinear a b c -> not_collinear a b d -> not_collinear a c d -> not_collinear b c d ->
  meq 3 3 (mmul 3 (inv cam) cam) eye -> svd32_contract svd32 -> h_svd_ok svd (map image_vect flat) (map image_vect p2d) ->
  exists p'', init_pose svd svd32 svd33 inv false p2d p3d cam = Got p'' /\ same_motion p p''.
Proof.
  intros flat U L4 HL HZ HV PV HT Ia Ib Ic Id N1 N2 N3 N4 HI H32 HS.
  assert (EP : P (rot p) (papp p (V3 0 0 0)) = p).
  { destruct p as [q t]. unfold papp. cbn [rot tra]. f_equal. unfold qrot. cbn [vx vy vz]. apply v3_ext; cbn [v3add vx vy vz]; ring. }
  destruct (level_points_pose svd svd32 svd33 inv p 0 p2d p3d cam a b c d ta tb tc td) as (p'' & E & SM); try assumption; try (rewrite EP; assumption).
  - apply (f_equal tra) in EP. cbn [tra] in *. rewrite EP. lra.
  - exists p''. split; [exact E|]. rewrite EP in SM. unfold facing in SM. destruct (Rlt_dec (vz (tra p)) 0); [exact SM|contradiction].
Qed.
Print Assumptions planar_pose_exact.
Theorem level_points_refuted svd svd32 svd33 inv p h (p2d : list image) (p3d : list vec3) cam a b c d ta tb tc td :
  let flat := map (fun x => (vx x, vy x)) p3d in
  h <> 0 -> rigid p -> (4 <= length p3d)%nat -> length p2d = length p3d -> (forall x, In x p3d -> vz x = h) ->
  (forall x uv, In (x, uv) (combine p3d p2d) -> seen cam p uv x) ->
  plane_visible (P (rot p) (papp p (V3 0 0 h))) -> vz (papp p (V3 0 0 h)) < 0 ->
  In (a, ta) (combine p3d p2d) -> In (b, tb) (combine p3d p2d) -> In (c, tc) (combine p3d p2d) -> In (d, td) (combine p3d p2d) ->
  not_collinear a b c -> not_collinear a b d -> not_collinear a c d -> not_collinear b c d ->
  meq 3 3 (mmul 3 (inv cam) cam) eye -> svd32_contract svd32 -> h_svd_ok svd (map image_vect flat) (map image_vect p2d) ->
  exists p'', init_pose svd svd32 svd33 inv false p2d p3d cam = Got p'' /\ rigid p'' /\
    (forall x, papp p'' x = v3add (papp p x) (v3scale h (qrot (rot p) (V3 0 0 1)))) /\ forall x, papp p'' x <> papp p x.
Proof.
  intros flat HH U L4 HL HZ HV PV HT Ia Ib Ic Id N1 N2 N3 N4 HI H32 HS.
  destruct (level_points_pose svd svd32 svd33 inv p h p2d p3d cam a b c d ta tb tc td) as (p'' & E & U'' & SM); try assumption.
  { cbn [tra]. lra. }
  exists p''. split; [exact E|]. split; [exact U''|].
  assert (A : forall x, papp p'' x = v3add (papp p x) (v3scale h (qrot (rot p) (V3 0 0 1)))).
  { intros x. rewrite SM. unfold facing. cbn [tra]. destruct (Rlt_dec _ 0); [|contradiction]. unfold papp. cbn [rot tra].
    rewrite <- qrot_scale. replace (v3scale h (V3 0 0 1)) with (V3 0 0 h) by (apply v3_ext; cbn; ring). apply v3_ext; cbn [v3add vx vy vz]; ring. }
  split; [exact A|]. intros x EQ. rewrite A in EQ.
  assert (Z : v3scale h (qrot (rot p) (V3 0 0 1)) = v3zero).
  { pose proof (f_equal vx EQ) as E1. pose proof (f_equal vy EQ) as E2. pose proof (f_equal vz EQ) as E3. cbn [v3add vx vy vz] in E1, E2, E3. apply v3_ext; cbn [v3zero vx vy vz]; lra. }
  pose proof (qrot_dot (rot p) (V3 0 0 1) (V3 0 0 1) U) as D. unfold dot3 at 2 in D. cbn in D.
  assert (S : h * h * dot3 (qrot (rot p) (V3 0 0 1)) (qrot (rot p) (V3 0 0 1)) = dot3 (v3scale h (qrot (rot p) (V3 0 0 1))) (v3scale h (qrot (rot p) (V3 0 0 1)))) by (unfold dot3; cbn [v3scale vx vy vz]; ring).
  rewrite Z, D in S. unfold dot3 in S. cbn in S. nra.
Qed.
Print Assumptions level_points_refuted.

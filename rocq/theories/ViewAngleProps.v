(** Opening angles (C165). *)
From Coq Require Import Reals ZArith Lra Lia.
From Verif Require Import Mat Quat ViewAngle.
Open Scope R_scope.

Lemma pi_is_pi : pi_of = PI.
Proof. unfold pi_of. rewrite <- cos_PI. apply acos_cos. generalize PI_RGT_0. lra. Qed.
(** an angle in degrees lies between two directions *)
Definition angle_between (deg : R) (u v : vec3) : Prop :=
  let t := deg * PI / 180 in 0 <= t <= PI /\ dot3 u v = norm3 u * norm3 v * cos t.
(** the ray through the image point (x, y) of a camera with focal lengths fx, fy and principal point (cx, cy) *)
Definition ray (fx fy cx cy x y : R) : vec3 := V3 ((x - cx) / fx) ((y - cy) / fy) 1.
Lemma cos_twice_atan t : cos (2 * atan t) * (1 + t * t) = 1 - t * t.
Proof.
  rewrite cos_2a. rewrite sin_atan, cos_atan. assert (P : 0 < 1 + t²) by (generalize (Rle_0_sqr t); lra). assert (S := sqrt_sqrt (1 + t²) ltac:(lra)). assert (N : sqrt (1 + t²) <> 0) by (generalize (sqrt_lt_R0 _ P); lra).
  replace (1 / sqrt (1 + t²) * (1 / sqrt (1 + t²)) - t / sqrt (1 + t²) * (t / sqrt (1 + t²))) with ((1 - t * t) / (sqrt (1 + t²) * sqrt (1 + t²))) by (field; exact N). rewrite S. unfold Rsqr in *. field. lra.
Qed.
Lemma opposite_rays a b deg t : 0 <= t -> a * a + b * b = t * t -> deg = 360 / PI * atan t -> angle_between deg (V3 (- a) (- b) 1) (V3 a b 1).
Proof.
  intros T E ->. unfold angle_between. pose proof PI_RGT_0 as P. replace (360 / PI * atan t * PI / 180) with (2 * atan t) by (field; lra). cbv zeta.
  assert (B := atan_bound t). assert (A0 : 0 <= atan t) by (destruct (Req_dec t 0) as [->|N]; [rewrite atan_0; lra|rewrite <- atan_0; left; apply atan_increasing; lra]). split; [lra|].
  unfold dot3, norm3. cbn. replace (- a * - a + - b * - b + 1 * 1) with (1 + t * t) by lra. replace (a * a + b * b + 1 * 1) with (1 + t * t) by lra. rewrite sqrt_sqrt by nra. rewrite (Rmult_comm (1 + t * t)), cos_twice_atan. lra.
Qed.
(** for a principal point in the middle, the horizontal and vertical angles are those between the rays through the middles of opposite sides *)
Theorem angle_horizontal_rays w h fx fy : (0 <= w)%Z -> 0 < fx -> 0 < fy ->
  exists a, angle_horizontal w h fx fy = Some a /\ angle_between a (ray fx fy (IZR w / 2) (IZR h / 2) 0 (IZR h / 2)) (ray fx fy (IZR w / 2) (IZR h / 2) (IZR w) (IZR h / 2)).
Proof.
  intros W F G. unfold angle_horizontal, angle_side. destruct (Req_EM_T (2 * fx) 0); [lra|]. eexists. split; [reflexivity|]. assert (W' := IZR_le _ _ W).
  unfold factor. rewrite pi_is_pi. unfold ray. replace ((0 - IZR w / 2) / fx) with (- (IZR w / (2 * fx))) by (field; lra). replace ((IZR h / 2 - IZR h / 2) / fy) with (- 0) by (field; lra).
  replace ((IZR w - IZR w / 2) / fx) with (IZR w / (2 * fx)) by (field; lra). replace (V3 (IZR w / (2 * fx)) (- 0) 1) with (V3 (IZR w / (2 * fx)) 0 1) by (f_equal; ring).
  apply (opposite_rays _ _ _ (IZR w / (2 * fx))); [apply Rmult_le_pos; [lra|left; apply Rinv_0_lt_compat; lra]|ring|reflexivity].
Qed.
Theorem angle_vertical_rays w h fx fy : (0 <= h)%Z -> 0 < fx -> 0 < fy ->
  exists a, angle_vertical w h fx fy = Some a /\ angle_between a (ray fx fy (IZR w / 2) (IZR h / 2) (IZR w / 2) 0) (ray fx fy (IZR w / 2) (IZR h / 2) (IZR w / 2) (IZR h)).
Proof.
  intros W F G. unfold angle_vertical, angle_side. destruct (Req_EM_T (2 * fy) 0); [lra|]. eexists. split; [reflexivity|]. assert (W' := IZR_le _ _ W).
  unfold factor. rewrite pi_is_pi. unfold ray. replace ((0 - IZR h / 2) / fy) with (- (IZR h / (2 * fy))) by (field; lra). replace ((IZR w / 2 - IZR w / 2) / fx) with (- 0) by (field; lra).
  replace ((IZR h - IZR h / 2) / fy) with (IZR h / (2 * fy)) by (field; lra). replace (V3 (- 0) (IZR h / (2 * fy)) 1) with (V3 0 (IZR h / (2 * fy)) 1) by (f_equal; ring).
  apply (opposite_rays _ _ _ (IZR h / (2 * fy))); [apply Rmult_le_pos; [lra|left; apply Rinv_0_lt_compat; lra]|ring|reflexivity].
Qed.
(** a wider image or a shorter focal length opens the angle *)
Theorem angle_monotone d d' f f' : (0 <= d <= d')%Z -> 0 < f' <= f -> exists a a', angle_side d f = Some a /\ angle_side d' f' = Some a' /\ 0 <= a <= a' /\ a' < 180.
Proof.
  intros D F. unfold angle_side. destruct (Req_EM_T (2 * f) 0); [lra|]. destruct (Req_EM_T (2 * f') 0); [lra|]. eexists. eexists. split; [reflexivity|]. split; [reflexivity|].
  unfold factor. rewrite pi_is_pi. pose proof PI_RGT_0 as P. destruct D as [D0 D1]. apply IZR_le in D0, D1.
  assert (I : / (2 * f) <= / (2 * f')) by (apply Rinv_le_contravar; lra). assert (I0 : 0 < / (2 * f)) by (apply Rinv_0_lt_compat; lra).
  assert (Q : 0 <= IZR d / (2 * f)) by (apply Rmult_le_pos; lra). assert (L : IZR d / (2 * f) <= IZR d' / (2 * f')) by (apply Rmult_le_compat; lra).
  assert (M : forall s t, s <= t -> atan s <= atan t) by (intros s t [H|H]; [left; apply atan_increasing; exact H|subst; lra]). assert (A := M _ _ Q). assert (B := M _ _ L). rewrite atan_0 in A. assert (C := atan_bound (IZR d' / (2 * f'))).
  assert (K : 0 < 360 / PI) by (apply Rdiv_lt_0_compat; lra). split; [split; [apply Rmult_le_pos; lra|apply Rmult_le_compat_l; lra]|]. replace 180 with (360 / PI * (PI / 2)) by (field; lra). apply Rmult_lt_compat_l; lra.
Qed.
(** the diagonal angle: with equal focal lengths it is that of an image smaller by the square root of two *)
Theorem angle_diagonal_value w h f : (0 <= w)%Z -> (0 <= h)%Z -> 0 < f -> exists a, angle_diagonal w h f f = Some a /\
  angle_between a (V3 (- (IZR w / (2 * f) / sqrt 2)) (- (IZR h / (2 * f) / sqrt 2)) 1) (V3 (IZR w / (2 * f) / sqrt 2) (IZR h / (2 * f) / sqrt 2) 1).
Proof.
  intros W H F. unfold angle_diagonal. destruct (Req_EM_T (4 * (f * f + f * f)) 0) as [E|_]; [nra|]. eexists. split; [reflexivity|].
  assert (S2 := sqrt_sqrt 2 ltac:(lra)). assert (SN : 0 < sqrt 2) by (apply sqrt_lt_R0; lra). assert (N : 0 <= IZR (w * w + h * h) / (4 * (f * f + f * f))).
  { apply Rmult_le_pos; [apply IZR_le; nia|]. left. apply Rinv_0_lt_compat. nra. }
  apply (opposite_rays _ _ _ (sqrt (IZR (w * w + h * h) / (4 * (f * f + f * f))))); [apply sqrt_pos| |unfold factor; rewrite pi_is_pi; reflexivity].
  rewrite sqrt_sqrt by exact N. rewrite plus_IZR, !mult_IZR.
  replace (IZR w / (2 * f) / sqrt 2 * (IZR w / (2 * f) / sqrt 2) + IZR h / (2 * f) / sqrt 2 * (IZR h / (2 * f) / sqrt 2)) with ((IZR w * IZR w + IZR h * IZR h) / (4 * f * f * (sqrt 2 * sqrt 2))) by (field; repeat split; lra). rewrite S2. field. repeat split; nra.
Qed.
(** so it is not the angle between the rays through opposite corners; a wide image has a diagonal angle smaller than the horizontal one *)
Theorem angle_diagonal_refuted : exists w h f a b, (0 < h <= w)%Z /\ 0 < f /\ angle_diagonal w h f f = Some a /\ angle_horizontal w h f f = Some b /\ a < b /\
  ~ angle_between a (ray f f (IZR w / 2) (IZR h / 2) 0 0) (ray f f (IZR w / 2) (IZR h / 2) (IZR w) (IZR h)).
Proof.
  exists 1600%Z, 900%Z, 800. pose proof PI_RGT_0 as P. unfold angle_diagonal, angle_horizontal, angle_side. destruct (Req_EM_T (4 * (800 * 800 + 800 * 800)) 0); [lra|]. destruct (Req_EM_T (2 * 800) 0); [lra|].
  eexists. eexists. split; [lia|]. split; [lra|]. split; [reflexivity|]. split; [reflexivity|]. unfold factor. rewrite pi_is_pi.
  change (1600 * 1600 + 900 * 900)%Z with 3370000%Z. set (t := sqrt (3370000 / (4 * (800 * 800 + 800 * 800)))). assert (T : t * t = 3370000 / (4 * (800 * 800 + 800 * 800))) by (apply sqrt_sqrt; lra). assert (T0 : 0 <= t) by apply sqrt_pos.
  replace (1600 / (2 * 800)) with 1 by field. assert (T1 : t < 1) by nra. split.
  - apply Rmult_lt_compat_l; [apply Rdiv_lt_0_compat; lra|]. apply atan_increasing. exact T1.
  - unfold angle_between, ray, dot3, norm3. cbn [vx vy vz]. intros [_ E]. replace (360 / PI * atan t * PI / 180) with (2 * atan t) in E by (field; lra).
    replace ((0 - 1600 / 2) / 800) with (-1) in E by field. replace ((1600 - 1600 / 2) / 800) with 1 in E by field. replace ((0 - 900 / 2) / 800) with (- (9 / 16)) in E by field. replace ((900 - 900 / 2) / 800) with (9 / 16) in E by field.
    replace (- (9 / 16) * - (9 / 16)) with (9 / 16 * (9 / 16)) in E by ring. replace (-1 * -1) with (1 * 1) in E by ring. rewrite sqrt_sqrt in E by lra. assert (C := cos_twice_atan t). rewrite T in C. lra.
Qed.
(** nor are the sides right if the principal point is off the middle *)
Theorem angle_offset_refuted : exists w h f cx a, 0 < f /\ angle_horizontal w h f f = Some a /\ ~ angle_between a (ray f f cx 0 0 0) (ray f f cx 0 (IZR w) 0).
Proof.
  exists 2%Z, 2%Z, 1, 0. pose proof PI_RGT_0 as P. unfold angle_horizontal, angle_side. destruct (Req_EM_T (2 * 1) 0); [lra|]. eexists. split; [lra|]. split; [reflexivity|]. unfold factor. rewrite pi_is_pi. replace (2 / (2 * 1)) with 1 by field.
  unfold angle_between, ray, dot3, norm3. cbn [vx vy vz]. intros [_ E]. replace (360 / PI * atan 1 * PI / 180) with (2 * atan 1) in E by (field; lra). assert (C := cos_twice_atan 1). assert (Z : cos (2 * atan 1) = 0) by lra. rewrite Z in E. lra.
Qed.
(** flipping: the flipped matrix projects a point as the original one projects the point with the opposite depth; twice gives the original *)
Theorem flip_projects a p i : sum 3 (fun j => flip_handiness a i j * p j) = sum 3 (fun j => a i j * (if Nat.eqb j 2 then - p j else p j)).
Proof. unfold flip_handiness. cbn. ring. Qed.
Theorem flip_twice a i j : flip_handiness (flip_handiness a) i j = a i j.
Proof. unfold flip_handiness. destruct (Nat.eqb j 2); ring. Qed.
(** an image as high as wide, as wide as twice the focal length, has a right angle *)
Example angle_case : angle_horizontal 1600 900 800 800 = Some 90.
Proof. unfold angle_horizontal, angle_side. destruct (Req_EM_T (2 * 800) 0); [lra|]. f_equal. replace (1600 / (2 * 800)) with 1 by field. rewrite atan_1. unfold factor. rewrite pi_is_pi. field. generalize PI_RGT_0. lra. Qed.
Print Assumptions angle_horizontal_rays. Print Assumptions angle_monotone. Print Assumptions angle_diagonal_value. Print Assumptions angle_diagonal_refuted. Print Assumptions angle_offset_refuted. Print Assumptions flip_projects.

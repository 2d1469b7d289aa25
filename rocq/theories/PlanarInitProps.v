(** Pose estimation from points in a plane in general position (C137, and C133 for the rotated plane). *)
From Coq Require Import Reals List Arith Bool Lra Lia Psatz ClassicalEpsilon.
Import ListNotations.
From Verif Require Import Mat Quat QuatProofs QuatMatProofs QuatProps LinAlg LinAlgProps AbsOrient AbsOrientProofs AbsOrientProps TsaiLenzProps Dlt DltProofs HomographyProps ProjectionDltProps
  Jacobians LevMarq LevMarqProofs LevMarqProps BackProp BackPropProps ProjectionProofs OrthoIter OrthoIterProofs OrthoIterProps PlanarPose PlanarPoseProofs PlanarPoseProps.
Open Scope R_scope.

Lemma norm3_zero a : norm3 a = 0 -> a = v3zero.
Proof.
  unfold norm3. intros E. apply sqrt_eq_0 in E; [|unfold dot3; nra]. unfold dot3 in E. apply v3_ext; cbn [v3zero vx vy vz]; nra.
Qed.
Lemma norm3_pos a : a <> v3zero -> 0 < norm3 a.
Proof. intros N. assert (P0 : 0 <= norm3 a) by apply sqrt_pos. destruct (Req_dec (norm3 a) 0) as [Z|Z]; [exfalso; apply N, norm3_zero, Z|lra]. Qed.
Lemma cross_nonzero x y : cross3 x y <> v3zero -> x <> v3zero /\ y <> v3zero.
Proof. intros N. split; intros ->; apply N; apply v3_ext; cbn; ring. Qed.

(** the angle at the first point is not too small *)
Definition wide_angle (a b c : vec3) : Prop :=
  dot3 (v3sub b a) (v3sub c a) <= 8 / 10 * (norm3 (v3sub b a) * norm3 (v3sub c a)).
Definition coplanar (a b c d : vec3) : Prop := dot3 (cross3 (v3sub b a) (v3sub c a)) (v3sub d a) = 0.

Lemma scaled_some v : v <> v3zero -> scaled_to_one v = Some (v3scale (/ norm3 v) v).
Proof. intros N. pose proof (norm3_pos v N). unfold scaled_to_one. destruct (Req_EM_T (norm3 v) 0); [lra|reflexivity]. Qed.
Lemma scaled_dot x y : x <> v3zero -> y <> v3zero ->
  dot3 (v3scale (/ norm3 x) x) (v3scale (/ norm3 y) y) * (norm3 x * norm3 y) = dot3 x y.
Proof. intros NX NY. pose proof (norm3_pos x NX). pose proof (norm3_pos y NY). unfold dot3. cbn [v3scale vx vy vz]. field. lra. Qed.

Lemma align_ok a b c : not_collinear a b c -> wide_angle a b c ->
  exists m t q, align_plane a b c = Got (m, t) /\ quat_of_mat m = Some q /\ unit q /\
    (forall x, v3add (mv3 m x) t = papp (P q t) x) /\ papp (P q t) a = v3zero /\
    forall d, coplanar a b c d -> vz (papp (P q t) d) = 0.
Proof.
  intros N W. destruct (cross_nonzero _ _ N) as [NX NZ]. unfold not_collinear, wide_angle, coplanar in *.
  set (u := v3sub b a) in *. set (w := v3sub c a) in *.
  pose proof (norm3_pos u NX) as PU. pose proof (norm3_pos w NZ) as PW.
  set (x := v3scale (/ norm3 u) u). set (z := v3scale (/ norm3 w) w).
  assert (EC : cross3 x z = v3scale (/ norm3 u * / norm3 w) (cross3 u w)) by (apply v3_ext; unfold x, z; cbn [cross3 v3scale vx vy vz]; ring).
  assert (PK : 0 < / norm3 u * / norm3 w) by (apply Rmult_lt_0_compat; apply Rinv_0_lt_compat; assumption).
  assert (NC : cross3 x z <> v3zero).
  { rewrite EC. intros Z. apply N. pose proof (f_equal vx Z) as E1. pose proof (f_equal vy Z) as E2. pose proof (f_equal vz Z) as E3. cbn [v3scale v3zero vx vy vz] in E1, E2, E3.
    apply v3_ext; cbn [v3zero vx vy vz]; [clear -E1 PK|clear -E2 PK|clear -E3 PK]; nra. }
  assert (PC := norm3_pos _ NC).
  set (n := v3scale (/ norm3 (cross3 x z)) (cross3 x z)).
  assert (XX : dot3 x x = 1) by (apply scaled_unit; lra).
  assert (NN : dot3 n n = 1) by (apply scaled_unit; lra).
  assert (XN : dot3 x n = 0) by (unfold n, dot3; cbn [v3scale cross3 vx vy vz]; ring).
  destruct (frame_rotation x n XX NN XN) as [_ RM].
  set (m := mk33 _ _ _ _ _ _ _ _ _) in RM. destruct (quat_of_mat_rotation m RM) as (q & EQ & U & QM).
  assert (EM : forall y, qrot q y = mv3 m y).
  { intros y. rewrite <- (mv3_qmat q y U). unfold mv3. apply v3_ext; cbn [vx vy vz]; rewrite !QM by lia; reflexivity. }
  exists m, (v3opp (mv3 m a)), q. split; [|split; [exact EQ|split; [exact U|split; [|split]]]].
  - unfold align_plane. fold u w. rewrite (scaled_some u NX), (scaled_some w NZ). fold x z.
    destruct (Rlt_dec (8 / 10) (dot3 x z)) as [LT|_].
    + exfalso. pose proof (scaled_dot u w NX NZ) as SD. fold x z in SD. assert (PP : 0 < norm3 u * norm3 w) by (apply Rmult_lt_0_compat; assumption). nra.
    + rewrite (scaled_some _ NC). reflexivity.
  - intros y. unfold papp. cbn [rot tra]. rewrite EM. reflexivity.
  - unfold papp. cbn [rot tra]. rewrite EM. apply v3_ext; cbn [v3add v3opp v3zero vx vy vz]; ring.
  - intros d CP. unfold papp. cbn [rot tra]. rewrite EM.
    assert (E3 : vz (v3add (mv3 m d) (v3opp (mv3 m a))) = dot3 n (v3sub d a)) by (unfold mv3, v3opp, v3add, dot3, m, mk33; cbn [v3sub vx vy vz]; ring).
    rewrite E3. unfold n. rewrite EC. set (k := / norm3 (v3scale _ _)). set (l := / norm3 u * / norm3 w).
    transitivity (k * l * dot3 (cross3 u w) (v3sub d a)); [unfold dot3; cbn [v3scale vx vy vz]; ring|rewrite CP; ring].
Qed.

Lemma cross_rot q x y : unit q -> cross3 (qrot q x) (qrot q y) = qrot q (cross3 x y).
Proof. intros U. symmetry. apply qrot_cross, U. Qed.

Lemma papp_sub p x y : v3sub (papp p x) (papp p y) = qrot (rot p) (v3sub x y).
Proof.
  replace (v3sub x y) with (v3add x (v3scale (-1) y)) by (apply v3_ext; cbn; ring). rewrite qrot_add, qrot_scale.
  unfold papp. apply v3_ext; cbn [v3sub v3add v3scale vx vy vz]; ring.
Qed.
(** the camera is not in the plane of the points *)
Definition off_plane (p : pose) (a b c : vec3) : Prop :=
  dot3 (cross3 (v3sub (papp p b) (papp p a)) (v3sub (papp p c) (papp p a))) (papp p a) <> 0.

Lemma flat_area A x y z : rigid A -> vz (papp A x) = 0 -> vz (papp A y) = 0 -> vz (papp A z) = 0 -> not_collinear x y z ->
  area (image_vect (vx (papp A x), vy (papp A x))) (image_vect (vx (papp A y), vy (papp A y))) (image_vect (vx (papp A z), vy (papp A z))) <> 0.
Proof.
  intros U Zx Zy Zz N AR. apply N.
  assert (C : qrot (rot A) (cross3 (v3sub y x) (v3sub z x)) = v3zero).
  { rewrite <- cross_rot by exact U. rewrite <- !papp_sub.
    unfold area, image_vect, vlist in AR. cbn [fst snd nth] in AR. apply v3_ext; cbn [cross3 v3sub v3zero vx vy vz]; rewrite ?Zx, ?Zy, ?Zz; lra. }
  rewrite <- (qrot_conj_l (rot A) (cross3 (v3sub y x) (v3sub z x)) U), C. apply v3_ext; unfold qrot; cbn; ring.
Qed.

(** coplanar leading points: the pose itself *)
Theorem rotated_plane_exact svd svd32 svd33 inv p (p2d : list image) a b c d ta tb tc td rest rest2 cam :
  rigid p -> ~ (vz a = vz b /\ vz b = vz c /\ vz c = vz d) -> wide_angle a b c -> coplanar a b c d ->
  p2d = ta :: tb :: tc :: td :: rest2 ->
  seen cam p ta a -> seen cam p tb b -> seen cam p tc c -> seen cam p td d ->
  off_plane p a b c -> vz (papp p a) < 0 ->
  not_collinear a b d -> not_collinear a c d -> not_collinear b c d ->
  meq 3 3 (mmul 3 (inv cam) cam) eye -> svd32_contract svd32 -> (forall from to, length from = 4%nat -> length to = 4%nat -> h_svd_ok svd from to) ->
  exists p'', init_pose svd svd32 svd33 inv false p2d (a :: b :: c :: d :: rest) cam = Got p'' /\ same_motion p p''.
Proof.
  intros U NL W CP -> Va Vb Vc Vd OP HT N2 N3 N4 HI H32 HS.
  assert (N1 : not_collinear a b c).
  { intros Z. apply OP. rewrite !papp_sub, cross_rot, Z by exact U. unfold dot3, qrot. cbn. ring. }
  destruct (align_ok a b c N1 W) as (m & t & q & EA & EQ & UQ & EM & EZ & EC).
  set (A := P q t) in *. assert (UA : rigid A) by exact UQ.
  assert (Za : vz (papp A a) = 0) by (rewrite EZ; reflexivity).
  assert (Zb : vz (papp A b) = 0) by (apply EC; unfold coplanar, dot3; cbn [cross3 v3sub vx vy vz]; ring).
  assert (Zc : vz (papp A c) = 0) by (apply EC; unfold coplanar, dot3; cbn [cross3 v3sub vx vy vz]; ring).
  assert (Zd := EC d CP).
  set (p' := pmul p (pinv A)).
  assert (UI : rigid (pinv A)) by (apply rigid_inv; exact UA).
  assert (U' : rigid p') by (apply rigid_mul; assumption).
  assert (EP : forall x, papp p' (papp A x) = papp p x) by (intros x; unfold p'; rewrite papp_mul by assumption; rewrite papp_inv_l by exact UA; reflexivity).
  assert (ET : tra p' = papp p a).
  { rewrite <- EP, EZ. unfold papp, qrot. apply v3_ext; cbn; ring. }
  assert (PV : plane_visible p').
  { intros Z. apply OP. rewrite <- !EP, (papp_sub p' (papp A b)), (papp_sub p' (papp A c)), cross_rot, EP, <- ET by exact U'.
    set (k := vz (cross3 (v3sub (papp A b) (papp A a)) (v3sub (papp A c) (papp A a)))).
    replace (cross3 (v3sub (papp A b) (papp A a)) (v3sub (papp A c) (papp A a))) with (v3scale k (V3 0 0 1))
      by (apply v3_ext; unfold k; cbn [cross3 v3sub v3scale vx vy vz]; rewrite ?Za, ?Zb, ?Zc; ring).
    rewrite qrot_scale.
    transitivity (k * dot3 (qrot (rot p') (V3 0 0 1)) (tra p')); [unfold dot3; cbn [v3scale vx vy vz]; ring|rewrite Z; ring]. }
  set (fl := fun x => (vx (papp A x), vy (papp A x))).
  assert (FS : forall x uv, vz (papp A x) = 0 -> seen cam p uv x -> seen cam p' uv (V3 (fst (fl x)) (snd (fl x)) 0)).
  { intros x uv Zx V. unfold seen in *. replace (V3 (fst (fl x)) (snd (fl x)) 0) with (papp A x); [rewrite EP; exact V|].
    unfold fl. cbn [fst snd]. rewrite <- Zx. destruct (papp A x); reflexivity. }
  destruct (flat_exact svd svd32 cam (inv cam) p' [fl a; fl b; fl c; fl d] [ta; tb; tc; td] (fl a) (fl b) (fl c) (fl d) ta tb tc td) as (H & p'' & EH & EPH & SM); auto.
  - rewrite ET. lra.
  - intros xy uv [E|[E|[E|[E|[]]]]]; injection E as <- <-; apply FS; assumption.
  - left; reflexivity.
  - right; left; reflexivity.
  - right; right; left; reflexivity.
  - right; right; right; left; reflexivity.
  - unfold general_position, fl. repeat split; apply flat_area; assumption.
  - exists (pmul p'' A). destruct SM as [U'' SM]. split.
    + unfold init_pose. cbn [length Nat.ltb Nat.leb andb]. unfold init_homography.
      assert (SL : (3 <? length (same_level (vz a) (a :: b :: c :: d :: rest)))%nat = false).
      { cbn [same_level]. destruct (Req_EM_T (vz a) (vz a)) as [_|NE]; [|exfalso; apply NE; reflexivity].
        destruct (Req_EM_T (vz b) (vz a)) as [E1|_]; [|reflexivity]. destruct (Req_EM_T (vz c) (vz a)) as [E2|_]; [|reflexivity].
        destruct (Req_EM_T (vz d) (vz a)) as [E3|_]; [|reflexivity]. exfalso. apply NL. lra. }
      rewrite SL, EA. cbv zeta.
      replace (map (fun x => vlist [vx (v3add (mv3 m x) t); vy (v3add (mv3 m x) t)]) [a; b; c; d]) with (map image_vect [fl a; fl b; fl c; fl d]) by (cbn [map]; rewrite !EM; reflexivity).
      cbn [firstn]. rewrite EH, EPH, EQ. reflexivity.
    + split; [apply rigid_mul; assumption|]. intros x. rewrite papp_mul by assumption. rewrite SM. unfold facing. rewrite ET. destruct (Rlt_dec _ 0); [apply EP|contradiction].
Qed.
Print Assumptions rotated_plane_exact.

(** * C137: the collinearity test *)
(** what the message of the exception says *)
Definition collinear (a b c : vec3) : Prop := cross3 (v3sub b a) (v3sub c a) = v3zero.
(** the exact condition of the exception for distinct points *)
Theorem collinearity_test svd svd32 invK p2d a b c d rest : b <> a -> c <> a -> ~ (vz a = vz b /\ vz b = vz c /\ vz c = vz d) ->
  (init_homography svd svd32 invK p2d (a :: b :: c :: d :: rest) = Thrown_out <-> ~ wide_angle a b c).
Proof.
  intros NB NC NL.
  assert (NX : v3sub b a <> v3zero) by (intros Z; apply NB; apply v3_ext; [apply (f_equal vx) in Z|apply (f_equal vy) in Z|apply (f_equal vz) in Z]; cbn in Z; lra).
  assert (NZ : v3sub c a <> v3zero) by (intros Z; apply NC; apply v3_ext; [apply (f_equal vx) in Z|apply (f_equal vy) in Z|apply (f_equal vz) in Z]; cbn in Z; lra).
  pose proof (norm3_pos _ NX) as PU. pose proof (norm3_pos _ NZ) as PW. pose proof (scaled_dot _ _ NX NZ) as SD.
  assert (PP : 0 < norm3 (v3sub b a) * norm3 (v3sub c a)) by (apply Rmult_lt_0_compat; assumption).
  unfold init_homography.
  assert (SL : (3 <? length (same_level (vz a) (a :: b :: c :: d :: rest)))%nat = false).
  { cbn [same_level]. destruct (Req_EM_T (vz a) (vz a)) as [_|NE]; [|exfalso; apply NE; reflexivity].
    destruct (Req_EM_T (vz b) (vz a)) as [E1|_]; [|reflexivity]. destruct (Req_EM_T (vz c) (vz a)) as [E2|_]; [|reflexivity].
    destruct (Req_EM_T (vz d) (vz a)) as [E3|_]; [|reflexivity]. exfalso. apply NL. lra. }
  rewrite SL. unfold align_plane. rewrite (scaled_some _ NX), (scaled_some _ NZ). unfold wide_angle.
  destruct (Rlt_dec (8 / 10) _) as [LT|GE].
  - split; [intros _; nra|reflexivity].
  - split; [|intros N; exfalso; nra]. intros E. exfalso. destruct (scaled_to_one _); [|discriminate].
    match type of E with context [homography_dlt ?s ?f ?t] => destruct (homography_dlt s f t) as [H|]; [|discriminate] end.
    destruct (pose_from_homography _ _ _); [|discriminate]. destruct (quat_of_mat _); discriminate.
Qed.
Print Assumptions collinearity_test.
(** three collinear points with the first one in the middle are not reported, but give NaN *)
Theorem collinear_points_missed svd svd32 invK p2d a b k d rest : b <> a -> 0 < k -> vz a <> vz b ->
  let c := v3sub a (v3scale k (v3sub b a)) in
  collinear a b c /\ init_homography svd svd32 invK p2d (a :: b :: c :: d :: rest) = Bad.
Proof.
  intros NB K NV c.
  assert (C : collinear a b c) by (apply v3_ext; unfold c; cbn [cross3 v3sub v3scale v3zero vx vy vz]; ring).
  split; [exact C|].
  assert (NX : v3sub b a <> v3zero) by (intros Z; apply NB; apply v3_ext; [apply (f_equal vx) in Z|apply (f_equal vy) in Z|apply (f_equal vz) in Z]; cbn in Z; lra).
  assert (EW : v3sub c a = v3scale (- k) (v3sub b a)) by (apply v3_ext; unfold c; cbn [v3sub v3scale vx vy vz]; ring).
  assert (NZ : v3sub c a <> v3zero).
  { rewrite EW. intros Z. apply NX. apply v3_ext; [apply (f_equal vx) in Z|apply (f_equal vy) in Z|apply (f_equal vz) in Z]; cbn [v3scale v3zero vx vy vz] in *; clear -Z K; nra. }
  pose proof (scaled_dot _ _ NX NZ) as SD. pose proof (norm3_pos _ NX) as PU. pose proof (norm3_pos _ NZ) as PW.
  assert (PP : 0 < norm3 (v3sub b a) * norm3 (v3sub c a)) by (apply Rmult_lt_0_compat; assumption).
  assert (DN : dot3 (v3sub b a) (v3sub c a) <= 0) by (rewrite EW; unfold dot3; cbn [v3scale vx vy vz]; clear -K; nra).
  unfold init_homography. cbn [same_level]. destruct (Req_EM_T (vz a) (vz a)) as [_|NE]; [|exfalso; apply NE; reflexivity].
  destruct (Req_EM_T (vz b) (vz a)) as [E1|_]; [exfalso; lra|]. cbv zeta. cbn [length Nat.ltb Nat.leb].
  unfold align_plane. rewrite (scaled_some _ NX), (scaled_some _ NZ). destruct (Rlt_dec (8 / 10) _) as [LT|GE]; [exfalso; nra|].
  assert (CZ : cross3 (v3scale (/ norm3 (v3sub b a)) (v3sub b a)) (v3scale (/ norm3 (v3sub c a)) (v3sub c a)) = v3zero).
  { rewrite EW. apply v3_ext; cbn [cross3 v3scale v3zero vx vy vz]; ring. }
  rewrite CZ. unfold scaled_to_one. destruct (Req_EM_T (norm3 v3zero) 0) as [_|NE]; [reflexivity|].
  exfalso. apply NE. unfold norm3, dot3. cbn [v3zero vx vy vz]. rewrite !Rmult_0_l, !Rplus_0_r. apply sqrt_0.
Qed.
Print Assumptions collinear_points_missed.
(** points that are not collinear are rejected as collinear *)
Theorem collinearity_test_refuted : exists a b c d, not_collinear a b c /\ not_collinear a b d /\ not_collinear a c d /\ not_collinear b c d /\ coplanar a b c d /\
  forall svd svd32 invK p2d rest, init_homography svd svd32 invK p2d (a :: b :: c :: d :: rest) = Thrown_out.
Proof.
  exists (V3 0 0 0), (V3 1 0 1), (V3 1 (1/2) 1), (V3 0 1 0).
  assert (NCL : forall u, vx u <> 0 -> u <> v3zero) by (intros u N E; rewrite E in N; apply N; reflexivity).
  unfold not_collinear, coplanar, dot3. repeat split; try (apply NCL; cbn; lra); [cbn; lra|].
  intros. apply collinearity_test.
  - intros E. apply (f_equal vx) in E. cbn in E. lra.
  - intros E. apply (f_equal vx) in E. cbn in E. lra.
  - cbn. intros (E & _). lra.
  - intros W. unfold wide_angle, norm3, dot3 in W. cbn in W.
    rewrite <- sqrt_mult in W by lra.
    match type of W with context [sqrt ?e] => replace e with (9 / 2) in W by field end.
    assert (S : sqrt (9 / 2) <= 22 / 10) by (rewrite <- (sqrt_square (22 / 10)) by lra; apply sqrt_le_1; lra). lra.
Qed.
Print Assumptions collinearity_test_refuted.

(** * The hypotheses can be met *)
(** fewer homogeneous equations than unknowns have a nonzero solution *)
Lemma kernel_exists n rows : (length rows < n)%nat -> exists x j, (j < n)%nat /\ x j <> 0 /\ solves n rows x.
Proof.
  revert rows. induction n as [|n IH]; intros rows L; [lia|].
  destruct (Forall_Exists_dec (fun r : vect => r n = 0) (fun r => Req_EM_T (r n) 0) rows) as [Z|N].
  - exists (fun j => if (j =? n)%nat then 1 else 0), n. split; [lia|]. split; [rewrite Nat.eqb_refl; lra|].
    intros r Hr. rewrite Forall_forall in Z. unfold vdot. cbn [sum]. rewrite Nat.eqb_refl, (Z r Hr).
    rewrite sum_zero; [ring|]. intros i Hi. rewrite (proj2 (Nat.eqb_neq i n)) by lia. ring.
  - apply Exists_exists in N. destruct N as (r & Hr & NZ). apply in_split in Hr. destruct Hr as (l1 & l2 & ->).
    set (e := fun s : vect => (fun j => s j - s n / r n * r j) : vect).
    destruct (IH (map e (l1 ++ l2))) as (x & j & Hj & NX & HS).
    { rewrite map_length, app_length. rewrite app_length in L. cbn [length] in L. lia. }
    set (x' := fun k => if (k =? n)%nat then - vdot n r x / r n else x k).
    assert (EX : forall s, vdot (S n) s x' = vdot n s x + s n * (- vdot n r x / r n)).
    { intros s. unfold vdot. cbn [sum]. unfold x' at 2. rewrite Nat.eqb_refl. f_equal. apply sum_ext. intros i Hi. unfold x'. rewrite (proj2 (Nat.eqb_neq i n)) by lia. reflexivity. }
    exists x', j. split; [lia|]. split; [unfold x'; rewrite (proj2 (Nat.eqb_neq j n)) by lia; exact NX|].
    intros s Hs. rewrite EX. assert (K : In s (l1 ++ l2) \/ s = r).
    { apply in_app_or in Hs. destruct Hs as [Hs|[Hs|Hs]]; [left; apply in_or_app; tauto|right; symmetry; exact Hs|left; apply in_or_app; tauto]. }
    destruct K as [I| ->].
    + assert (E := HS (e s) (in_map e _ _ I)). unfold vdot in *. unfold e in E.
      rewrite (sum_ext _ _ (fun k => s k * x k + (- (s n / r n)) * (r k * x k))), sum_plus, sum_scal_l in E by (intros; ring).
      transitivity (sum n (fun k => s k * x k) + - (s n / r n) * sum n (fun k => r k * x k)); [field; exact NZ|exact E].
    + field. exact NZ.
Qed.
Lemma least_direction_exists n rows : (length rows < n)%nat -> exists v, least_direction (length rows) n (rows_mat rows) v.
Proof.
  intros L. destruct (kernel_exists n rows L) as (x & j & Hj & NX & HS).
  assert (PD : 0 < vdot n x x).
  { assert (NN : forall i, (i < n)%nat -> 0 <= x i * x i) by (intros; apply Rle_0_sqr).
    destruct (Req_dec (vdot n x x) 0) as [Z|Z]; [|pose proof (sum_nonneg n _ NN); unfold vdot in *; lra].
    exfalso. apply NX. pose proof (sum_nonneg_zero n _ NN Z j Hj) as E. cbv beta in E. nra. }
  set (c := / sqrt (vdot n x x)). exists (fun i => c * x i).
  split.
  - unfold vdot at 1. rewrite (sum_ext _ _ (fun i => c * c * (x i * x i))) by (intros; ring). rewrite sum_scal_l. fold (vdot n x x).
    unfold c. rewrite <- Rinv_mult, sqrt_sqrt by lra. field. lra.
  - intros y _. rewrite (rows_energy n rows (fun i => c * x i)). match goal with |- ?l <= _ => replace l with 0 end; [apply sum_nonneg; intros; apply Rle_0_sqr|].
    symmetry. clear -HS. induction rows as [|r l IH]; [reflexivity|]. cbn [fold_right]. rewrite IH by (intros q Hq; apply HS; right; exact Hq).
    assert (E : vdot n r (fun i => c * x i) = 0).
    { unfold vdot. rewrite (sum_ext _ _ (fun i => c * (r i * x i))) by (intros; ring). rewrite sum_scal_l. fold (vdot n r x). rewrite (HS r (or_introl eq_refl)). ring. }
    rewrite E. ring.
Qed.
(** four correspondences: the contract of the homography holds for some decomposition *)
Definition some_svd : gesvd_vt := fun m A _ j => ClassicalEpsilon.epsilon (inhabits (fun _ => 0)) (fun v => least_direction m 9 A v) j.
Lemma some_svd_ok from to : length from = 4%nat -> length to = 4%nat -> h_svd_ok some_svd from to.
Proof.
  intros LF LT fs fc ts tc _ _. cbv zeta. set (rows := homography_system fs fc ts tc from to).
  assert (L : (length rows < 9)%nat).
  { destruct from as [|? [|? [|? [|? [|? ?]]]]]; try discriminate. destruct to as [|? [|? [|? [|? [|? ?]]]]]; try discriminate. cbn. lia. }
  exact (ClassicalEpsilon.epsilon_spec (inhabits (fun _ => 0)) _ (least_direction_exists 9 rows L)).
Qed.
(** the decomposition of a scaled frame *)
Definition frame_svd : gesvd3 := fun r =>
  let c := norm3 (col3 r 0) in let x := v3scale (/ c) (col3 r 0) in let y := v3scale (/ c) (col3 r 1) in let z := cross3 x y in
  (fun _ => c, mk33 (vx x) (vx y) (vx z) (vy x) (vy y) (vy z) (vz x) (vz y) (vz z), eye).
Lemma frame_svd_ok : svd32_contract frame_svd.
Proof.
  intros r c q C U E. assert (R0 := qmat_rotation q U). unfold svd32_ok, frame_svd.
  assert (EN : norm3 (col3 r 0) = c).
  { apply norm3_sq; [lra|]. pose proof (qmat_col q 0 0 U) as D. unfold dot3, col3, eye in *. cbn [vx vy vz Nat.eqb] in *. rewrite !E by lia. unfold mscale.
    transitivity (c * c * (qmat q 0%nat 0%nat * qmat q 0%nat 0%nat + qmat q 1%nat 0%nat * qmat q 1%nat 0%nat + qmat q 2%nat 0%nat * qmat q 2%nat 0%nat)); [ring|]. rewrite D by lia. ring. }
  cbv zeta. rewrite EN.
  assert (X : forall j, (j < 2)%nat -> v3scale (/ c) (col3 r j) = col3 (qmat q) j).
  { intros j Hj. unfold col3. apply v3_ext; cbn [v3scale vx vy vz]; rewrite E by lia; unfold mscale; field; lra. }
  rewrite (X 0%nat), (X 1%nat) by lia. rewrite <- (rotation_third _ R0).
  split; [|split; [|split; [lra|split; [lra|]]]].
  - apply rotation_orthonormal. apply (rotation_meq (qmat q)); [|exact R0]. intros i j Hi Hj. idx i Hi; idx j Hj; reflexivity.
  - split; intros i j Hi Hj; idx i Hi; idx j Hj; unfold mmul, tr, eye; cbn; ring.
  - intros i j Hi Hj. rewrite E by lia. unfold mscale, mk33, eye, col3. cbn [vx vy vz]. idx i Hi; idx j Hj; cbn; ring.
Qed.

Definition flip : mat := mk33 1 0 0 0 1 0 0 0 (-1).
Lemma flip_inv : meq 3 3 (mmul 3 flip flip) eye.
Proof. intros i j Hi Hj. idx i Hi; idx j Hj; unfold mmul, flip, mk33, eye; cbn; ring. Qed.
Example square_seen : exists p'', init_pose some_svd frame_svd frame_svd (fun _ => flip) false [(1, 1); (1, -1); (-1, 1); (-1, -1)]
  [V3 1 1 0; V3 1 (-1) 0; V3 (-1) 1 0; V3 (-1) (-1) 0] flip = Got p'' /\ same_motion (P qone (V3 0 0 (-1))) p''.
Proof.
  set (p3d := [V3 1 1 0; V3 1 (-1) 0; V3 (-1) 1 0; V3 (-1) (-1) 0]). set (p2d := [(1, 1); (1, -1); (-1, 1); (-1, -1)]).
  assert (NCL : forall u, vz u <> 0 -> u <> v3zero) by (intros u N E; rewrite E in N; apply N; reflexivity).
  apply (planar_pose_exact some_svd frame_svd frame_svd (fun _ => flip) (P qone (V3 0 0 (-1))) p2d p3d flip
    (V3 1 1 0) (V3 1 (-1) 0) (V3 (-1) 1 0) (V3 (-1) (-1) 0) (1, 1) (1, -1) (-1, 1) (-1, -1)).
  - unfold rigid, unit, qnorm, qone. cbn. ring.
  - cbn. lia.
  - reflexivity.
  - intros x [<-|[<-|[<-|[<-|[]]]]]; reflexivity.
  - intros x uv [E|[E|[E|[E|[]]]]]; injection E as <- <-; unfold seen, projected, mvec, papp, qrot, flip, mk33, image_vect, of3, vlist; cbn; repeat split; try lra; field.
  - unfold plane_visible, dot3, qrot. cbn. lra.
  - cbn. lra.
  - left. reflexivity.
  - right. left. reflexivity.
  - right. right. left. reflexivity.
  - right. right. right. left. reflexivity.
  - unfold not_collinear. apply NCL. cbn. lra.
  - unfold not_collinear. apply NCL. cbn. lra.
  - unfold not_collinear. apply NCL. cbn. lra.
  - unfold not_collinear. apply NCL. cbn. lra.
  - exact flip_inv.
  - exact frame_svd_ok.
  - apply some_svd_ok; reflexivity.
Qed.
Example slanted_square_seen : exists p'', init_pose some_svd frame_svd frame_svd (fun _ => flip) false [(0, 0); (1/2, 0); (0, 1/3); (1/2, 1/2)]
  [V3 0 0 0; V3 1 0 1; V3 0 1 0; V3 1 1 1] flip = Got p'' /\ same_motion (P qone (V3 0 0 (-3))) p''.
Proof.
  assert (NCL : forall u, vz u <> 0 -> u <> v3zero) by (intros u N E; rewrite E in N; apply N; reflexivity).
  apply (rotated_plane_exact some_svd frame_svd frame_svd (fun _ => flip) (P qone (V3 0 0 (-3))) [(0, 0); (1/2, 0); (0, 1/3); (1/2, 1/2)]
    (V3 0 0 0) (V3 1 0 1) (V3 0 1 0) (V3 1 1 1) (0, 0) (1/2, 0) (0, 1/3) (1/2, 1/2) [] []).
  - unfold rigid, unit, qnorm, qone. cbn. ring.
  - cbn. intros (E & _). lra.
  - unfold wide_angle. match goal with |- ?l <= _ => replace l with 0 by (unfold dot3; cbn; ring) end.
    apply Rmult_le_pos; [lra|]. apply Rmult_le_pos; apply sqrt_pos.
  - unfold coplanar, dot3. cbn. ring.
  - reflexivity.
  - unfold seen, projected, mvec, papp, qrot, flip, mk33, image_vect, of3, vlist; cbn; repeat split; try lra; field.
  - unfold seen, projected, mvec, papp, qrot, flip, mk33, image_vect, of3, vlist; cbn; repeat split; try lra; field.
  - unfold seen, projected, mvec, papp, qrot, flip, mk33, image_vect, of3, vlist; cbn; repeat split; try lra; field.
  - unfold seen, projected, mvec, papp, qrot, flip, mk33, image_vect, of3, vlist; cbn; repeat split; try lra; field.
  - unfold off_plane, dot3, papp, qrot. cbn. lra.
  - unfold papp, qrot. cbn. lra.
  - unfold not_collinear. apply NCL. cbn. lra.
  - unfold not_collinear. apply NCL. cbn. lra.
  - unfold not_collinear. apply NCL. cbn. lra.
  - exact flip_inv.
  - exact frame_svd_ok.
  - apply some_svd_ok.
Qed.

(** C149: the pose of the second camera from the essential matrix (EssentialPose.v). *)
From Coq Require Import Reals Lra Lia List Arith Bool Setoid Morphisms ClassicalEpsilon.
Import ListNotations.
From Verif Require Import Mat MatSetoid Quat QuatProofs QuatMatProofs QuatTrigProofs QuatProps LinAlg LinAlgProps Dlt DltProofs AbsOrient AbsOrientProofs HomographyProps ProjectionDltProps FundamentalProps Triangulate TriangulateProofs TriangulateProps PlanarPose PlanarPoseProofs PlanarFitProps ContractsProps EssentialPose EssentialPoseProofs.
Open Scope R_scope.

(** ** triangulation with a candidate *)
Lemma two_view_meq svd A B K1 c1 K2 c2 X x1 x2 : rigid c1 -> rigid c2 -> det3 K1 <> 0 -> det3 K2 <> 0 ->
  meq 3 4 A (cam_matrix K1 c1) -> meq 3 4 B (cam_matrix K2 c2) -> off_baseline c1 c2 X ->
  projected (seen K1 c1 X) x1 -> projected (seen K2 c2 X) x2 -> svd4 svd (two_view_system A B x1 x2) ->
  get3d_two svd A B x1 x2 = Some X.
Proof.
  intros R1 R2 D1 D2 EA EB NB J1 J2 SV. unfold get3d_two. cbv zeta. set (rows := two_view_system A B x1 x2) in *.
  assert (AG : forall M N x v, meq 3 4 M N -> agrees N x v <-> agrees M x v).
  { intros M N x v E. unfold agrees. assert (T : forall i, (i < 3)%nat -> mvec 4 M v i = mvec 4 N v i) by (intros i Hi; unfold mvec; apply sum_ext; intros j Hj; rewrite (E i j Hi Hj); reflexivity).
    rewrite !T by lia. reflexivity. }
  change 4%nat with (length rows) at 1. set (v := fun j => svd (length rows) (rows_mat rows) 3%nat j) in *. change (dehom v = Some X).
  assert (S : solves 4 rows v).
  { apply rows_solves. apply (least_direction_kernel _ 4 _ v (hom X) SV (hom_nonzero X)). apply rows_solves. apply two_view_solves.
    split; [apply (AG _ _ _ _ EA)|apply (AG _ _ _ _ EB)]; apply projected_agrees; assumption. }
  apply two_view_solves in S. destruct S as [A1 A2]. apply dehom_multiple; [exact (proj1 SV)|].
  apply (rays_meet K1 c1 K2 c2 X x1 x2); try assumption; [apply (AG _ _ _ _ EA), A1|apply (AG _ _ _ _ EB), A2].
Qed.
Lemma baseline_turned c X : rigid c -> cross3 (qrot (rot c) X) (tra c) <> v3zero <-> off_baseline pone c X.
Proof.
  intros Rc. unfold off_baseline. assert (T := centre_front c Rc). set (C := centre c) in *. rewrite T.
  assert (C1 : centre pone = v3zero) by (unfold centre, pone; un; f_equal; ring). rewrite C1.
  assert (E : cross3 (qrot (rot c) X) (v3opp (qrot (rot c) C)) = qrot (rot c) (cross3 (v3sub X v3zero) (v3sub X C))).
  { rewrite (qrot_cross _ _ _ Rc). assert (L : qrot (rot c) (v3sub X v3zero) = qrot (rot c) X) by (f_equal; destruct X as [X1 X2 X3]; unfold v3sub, v3zero; cbn [vx vy vz]; f_equal; ring).
    rewrite L. assert (M : qrot (rot c) (v3sub X C) = v3sub (qrot (rot c) X) (qrot (rot c) C)) by (rewrite !(qrot_mat _ _ Rc); destruct X as [X1 X2 X3], C as [C2 C3 C4]; unfold mv3, v3sub; cbn [vx vy vz]; f_equal; ring).
    rewrite M. set (a := qrot (rot c) X). set (b := qrot (rot c) C). clearbody a b. destruct a as [a1 a2 a3], b as [b1 b2 b3]. unfold cross3, v3opp, v3sub. cbn [vx vy vz]. f_equal; ring. }
  rewrite E. set (w := cross3 (v3sub X v3zero) (v3sub X C)). assert (Z : qrot (rot c) v3zero = v3zero) by (rewrite (qrot_mat _ _ Rc); unfold mv3, v3zero; cbn [vx vy vz]; f_equal; ring).
  split; intros N H; apply N.
  - rewrite H. exact Z.
  - rewrite <- (qrot_conj_l (rot c) w Rc), H. destruct (rot c); unfold v3zero, qconj. un. f_equal; ring.
Qed.
(** the candidate as a pose *)
Definition moved (q : quat) (t : vect) : pose := P q (V3 (t 0%nat) (t 1%nat) (t 2%nat)).
Lemma candidate_point svd K1 K2 p X x x' W q t al be : (forall rows, length rows = 4%nat -> svd4 svd rows) -> det3 K1 <> 0 -> det3 K2 <> 0 -> rigid p -> unit q -> meq 3 3 (qmat q) W ->
  projected (seen K1 pone X) x -> projected (seen K2 p X) x' -> al <> 0 -> be <> 0 ->
  papp (moved q t) (v3scale al X) = v3scale be (papp p X) -> cross3 (qrot q X) (V3 (t 0%nat) (t 1%nat) (t 2%nat)) <> v3zero ->
  get3d_two svd (mmul 3 K1 (motion_mat eye (fun _ => 0))) (mmul 3 K2 (motion_mat W t)) x x' = Some (v3scale al X) /\
  (in_view W t (v3scale al X) = true <-> al * vz X < 0 /\ be * vz (papp p X) < 0).
Proof.
  intros SV D1 D2 Rp Uq EW J1 J2 Na Nb E NB. assert (Rc : rigid (moved q t)) by exact Uq. assert (R1 : rigid pone) by (unfold rigid, pone, unit, qone; cbn; un; ring).
  assert (LIN : forall (K : mat) Y s i, mvec 3 K (vlist [vx (v3scale s Y); vy (v3scale s Y); vz (v3scale s Y)]) i = s * mvec 3 K (vlist [vx Y; vy Y; vz Y]) i).
  { intros K Y s i. destruct Y as [a b d]. unfold mvec, v3scale, vlist. cbn [vx vy vz sum nth]. ring. }
  assert (PS : forall (e e' y : vect) s, s <> 0 -> (forall i, e' i = s * e i) -> projected e y -> projected e' y).
  { intros e e' y s Ns H (N & A & B). unfold projected. rewrite !H. split; [intros Z; apply Rmult_integral in Z; tauto|]. rewrite A, B. split; ring. }
  split.
  - apply (two_view_meq svd _ _ K1 pone K2 (moved q t)); try assumption.
    + apply (mmul_proper 3 3 4); [reflexivity|]. intros i j Hi Hj. unfold motion_mat, pose_mat, pone, eye, qone. destruct i as [|[|[|]]]; [| | |lia]; (destruct j as [|[|[|[|]]]]; [| | | |lia]); cbn; un; ring.
    + apply (mmul_proper 3 3 4); [reflexivity|]. intros i j Hi Hj. unfold motion_mat, pose_mat, moved. cbn [rot tra vx vy vz].
      destruct j as [|[|[|[|]]]]; [| | | |lia]; cbn [Nat.eqb]; (destruct i as [|[|[|]]]; [| | |lia]); try reflexivity; symmetry; apply EW; lia.
    + apply baseline_turned; [exact Rc|]. unfold moved. cbn [rot tra]. intros Z. apply NB.
      assert (L : qrot q (v3scale al X) = v3scale al (qrot q X)) by (rewrite !(qrot_mat _ _ Uq); destruct X as [X1 X2 X3]; unfold mv3, v3scale; cbn [vx vy vz]; f_equal; ring).
      rewrite L in Z. set (a := qrot q X) in *. clearbody a. destruct a as [a1 a2 a3]. unfold cross3, v3scale, v3zero in *. cbn [vx vy vz] in *. assert (Z1 := f_equal vx Z). assert (Z2 := f_equal vy Z). assert (Z3 := f_equal vz Z). cbn [vx vy vz] in *.
      f_equal; apply (Rmult_eq_reg_l al); lra.
    + apply (PS (seen K1 pone X) _ _ al Na); [|exact J1]. intros i. unfold seen. assert (PO : forall Y, papp pone Y = Y) by (intros Y; destruct Y as [Y1 Y2 Y3]; unfold papp, pone; un; cbn; f_equal; ring). rewrite !PO. apply LIN.
    + apply (PS (seen K2 p X) _ _ be Nb); [|exact J2]. intros i. unfold seen. rewrite E. apply LIN.
    + apply SV. reflexivity.
  - unfold in_view. assert (Z : mvec 3 W (vlist [vx (v3scale al X); vy (v3scale al X); vz (v3scale al X)]) 2%nat + t 2%nat = be * vz (papp p X)).
    { assert (E2 := f_equal vz E). unfold papp at 1, moved in E2. cbn [rot tra] in E2. rewrite (qrot_mat _ _ Uq) in E2. set (Y := papp p X) in *. clearbody Y. destruct Y as [y1 y2 y3], X as [x1 x2 x3]. unfold v3scale, mv3, v3add in *. cbn [vx vy vz] in *. rewrite <- E2.
      unfold mvec, vlist. cbn [sum nth]. rewrite <- !(EW 2%nat _) by lia. ring. }
    rewrite Z. assert (VZ : vz (v3scale al X) = al * vz X) by (destruct X as [X1 X2 X3]; reflexivity). rewrite VZ. destruct (Rlt_dec (be * vz (papp p X)) 0), (Rlt_dec (al * vz X) 0); split; intros; try tauto; try discriminate; tauto.
Qed.

(** ** the true rotation and the one turned half about the baseline *)
Lemma vl_i a i : (i < 3)%nat -> vl a i = match i with 0%nat => vx a | 1%nat => vy a | _ => vz a end.
Proof. intros Hi. destruct i as [|[|[|]]]; [| | |lia]; reflexivity. Qed.
Lemma rotated_by q W X : unit q -> meq 3 3 (qmat q) W -> forall i, (i < 3)%nat -> vl (qrot q X) i = mvec 3 W (vl X) i.
Proof.
  intros U E i Hi. rewrite (qrot_mat _ _ U). destruct X as [a b c]. unfold mvec, vl, vlist, mv3. cbn [vx vy vz sum nth].
  destruct i as [|[|[|]]]; [| | |lia]; rewrite <- !E by lia; cbn [nth]; ring.
Qed.
Section Candidates.
Variables (svd : gesvd_vt) (K1 K2 : mat) (p : pose) (X : vec3) (x x' : vect) (u : vec3) (c0 : R).
Hypotheses (SV : forall rows, length rows = 4%nat -> svd4 svd rows) (D1 : det3 K1 <> 0) (D2 : det3 K2 <> 0) (Rp : rigid p)
  (J1 : projected (seen K1 pone X) x) (J2 : projected (seen K2 p X) x') (OB : off_baseline pone p X)
  (U1 : dot3 u u = 1) (N0 : c0 <> 0) (ET : tra p = v3scale c0 u) (F1 : vz X < 0) (F2 : vz (papp p X) < 0).
Let P1 := mmul 3 K1 (motion_mat eye (fun _ => 0)).
Lemma true_candidate q W t sg : sg * sg = 1 -> unit q -> meq 3 3 (qmat q) W -> (forall Y, qrot q Y = qrot (rot p) Y) -> V3 (t 0%nat) (t 1%nat) (t 2%nat) = v3scale sg u ->
  exists s, get3d_two svd P1 (mmul 3 K2 (motion_mat W t)) x x' = Some s /\ (in_view W t s = true <-> 0 < sg * c0).
Proof.
  intros SG Uq EW SR Et. assert (NS : sg <> 0) by (intros Z; rewrite Z in SG; lra).
  set (al := sg / c0). assert (Na : al <> 0) by (unfold al, Rdiv; apply Rmult_integral_contrapositive_currified; [exact NS|apply Rinv_neq_0_compat, N0]).
  destruct (candidate_point svd K1 K2 p X x x' W q t al al) as [C1 C2]; try assumption.
  - unfold papp, moved. cbn [rot tra]. rewrite Et, SR, ET. assert (L : qrot (rot p) (v3scale al X) = v3scale al (qrot (rot p) X)) by (rewrite !(qrot_mat _ _ Rp); destruct X as [X1 X2 X3]; unfold mv3, v3scale; cbn [vx vy vz]; f_equal; ring).
    rewrite L. set (a := qrot (rot p) X). destruct a as [a1 a2 a3], u as [u1 u2 u3]. unfold v3add, v3scale, al. cbn [vx vy vz]. f_equal; field; exact N0.
  - rewrite Et, SR. apply (baseline_turned p X Rp) in OB. rewrite ET in OB. intros Z. apply OB. set (a := qrot (rot p) X) in *. destruct a as [a1 a2 a3], u as [u1 u2 u3]. unfold cross3, v3scale, v3zero in *. cbn [vx vy vz] in *.
    assert (Z1 := f_equal vx Z). assert (Z2 := f_equal vy Z). assert (Z3 := f_equal vz Z). cbn [vx vy vz] in *. f_equal; apply (Rmult_eq_reg_l sg); try exact NS; [transitivity (c0 * (a2 * (sg * u3) - a3 * (sg * u2)))|transitivity (c0 * (a3 * (sg * u1) - a1 * (sg * u3)))|transitivity (c0 * (a1 * (sg * u2) - a2 * (sg * u1)))]; try ring; rewrite ?Z1, ?Z2, ?Z3; ring.
  - exists (v3scale al X). split; [exact C1|]. rewrite C2. assert (EA : sg * c0 = al * (c0 * c0)) by (unfold al; field; exact N0). assert (CC : 0 < c0 * c0) by nra. rewrite EA. split.
    + intros [H _]. assert (0 < al) by nra. apply Rmult_lt_0_compat; assumption.
    + intros H. assert (0 < al) by nra. split; nra.
Qed.
Lemma twisted_candidate q W t sg : sg * sg = 1 -> unit q -> meq 3 3 (qmat q) W -> (forall Y, qrot q Y = v3sub (v3scale (2 * dot3 u (qrot (rot p) Y)) u) (qrot (rot p) Y)) ->
  V3 (t 0%nat) (t 1%nat) (t 2%nat) = v3scale sg u -> dot3 X X <> dot3 (papp p X) (papp p X) ->
  exists s, get3d_two svd P1 (mmul 3 K2 (motion_mat W t)) x x' = Some s /\ in_view W t s = false.
Proof.
  intros SG Uq EW TW Et ND. assert (NS : sg <> 0) by (intros Z; rewrite Z in SG; lra).
  set (a := qrot (rot p) X) in *. set (g := 2 * dot3 u a + c0).
  assert (NG : g <> 0).
  { intros Z. apply ND. rewrite <- (qrot_dot (rot p) X X Rp). unfold papp. rewrite ET. fold a. transitivity (dot3 a a + c0 * g); [rewrite Z; ring|]. unfold g.
    destruct a as [a1 a2 a3], u as [u1 u2 u3]. unfold dot3, v3add, v3scale in *. cbn [vx vy vz] in *. transitivity (a1 * a1 + a2 * a2 + a3 * a3 + 2 * c0 * (u1 * a1 + u2 * a2 + u3 * a3) + c0 * c0 * (u1 * u1 + u2 * u2 + u3 * u3)); [rewrite U1; ring|ring]. }
  set (al := - sg / g). assert (Na : al <> 0) by (unfold al, Rdiv; apply Rmult_integral_contrapositive_currified; [lra|apply Rinv_neq_0_compat, NG]).
  destruct (candidate_point svd K1 K2 p X x x' W q t al (- al)) as [C1 C2]; try assumption; try lra.
  - unfold papp, moved. cbn [rot tra]. rewrite Et, TW, ET. assert (L : qrot (rot p) (v3scale al X) = v3scale al a) by (unfold a; rewrite !(qrot_mat _ _ Rp); destruct X as [X1 X2 X3]; unfold mv3, v3scale; cbn [vx vy vz]; f_equal; ring).
    rewrite L. fold a. assert (GA : sg = - al * g) by (unfold al; field; exact NG). clearbody al. subst sg. unfold g. clear. destruct a as [a1 a2 a3], u as [u1 u2 u3]. unfold v3add, v3sub, v3scale, dot3. cbn [vx vy vz]. f_equal; ring.
  - rewrite Et, TW. fold a. apply (baseline_turned p X Rp) in OB. fold a in OB. rewrite ET in OB. intros Z. apply OB. clear - Z NS. destruct a as [a1 a2 a3], u as [u1 u2 u3]. unfold cross3, v3scale, v3sub, v3zero, dot3 in *. cbn [vx vy vz] in *.
    assert (Z1 := f_equal vx Z). assert (Z2 := f_equal vy Z). assert (Z3 := f_equal vz Z). cbn [vx vy vz] in *. f_equal; apply (Rmult_eq_reg_l sg); try exact NS.
    + assert (W1 : sg * (a2 * u3 - a3 * u2) = 0) by lra. transitivity (c0 * (sg * (a2 * u3 - a3 * u2))); [ring|rewrite W1; ring].
    + assert (W1 : sg * (a3 * u1 - a1 * u3) = 0) by lra. transitivity (c0 * (sg * (a3 * u1 - a1 * u3))); [ring|rewrite W1; ring].
    + assert (W1 : sg * (a1 * u2 - a2 * u1) = 0) by lra. transitivity (c0 * (sg * (a1 * u2 - a2 * u1))); [ring|rewrite W1; ring].
  - exists (v3scale al X). split; [exact C1|]. apply not_true_is_false. intros H. apply C2 in H. destruct H as [H1 H2]. nra.
Qed.
End Candidates.

(** ** the pose comes back *)
(** the baseline direction *)
Definition direction (t : vec3) : vec3 := v3scale (/ sqrt (dot3 t t)) t.
(** decreasing singular values *)
Definition svd3_ok (svd3 : gesvd3) (A : mat) : Prop :=
  svd33_ok A (svd3 A) /\ fst (fst (svd3 A)) 2%nat <= fst (fst (svd3 A)) 1%nat <= fst (fst (svd3 A)) 0%nat.
(** F belongs to a first camera at the origin and a second one with pose [p]: up to a factor
    K2^T F K1 = [t]x R *)
Definition essential_of (F K1 K2 : mat) (p : pose) : Prop :=
  exists mu, mu <> 0 /\ meq 3 3 (mmul 3 (tr K2) (mmul 3 F K1)) (mscale mu (mmul 3 (skew3 (vl (tra p))) (qmat (rot p)))).
Lemma same_matrix a b W : unit a -> unit b -> meq 3 3 (qmat a) W -> meq 3 3 (qmat b) W -> forall Y, qrot a Y = qrot b Y.
Proof. intros Ua Ub Ea Eb Y. apply vl_ext. intros i Hi. rewrite (rotated_by a W Y Ua Ea i Hi), (rotated_by b W Y Ub Eb i Hi). reflexivity. Qed.
Theorem essential_pose_exact svd svd3 F K1 K2 p X x x' : (forall rows, length rows = 4%nat -> svd4 svd rows) -> svd3_ok svd3 (essential F K1 K2) ->
  det3 K1 <> 0 -> det3 K2 <> 0 -> rigid p -> essential_of F K1 K2 p ->
  projected (seen K1 pone X) x -> projected (seen K2 p X) x' -> vz X < 0 -> vz (papp p X) < 0 ->
  off_baseline pone p X -> dot3 X X <> dot3 (papp p X) (papp p X) ->
  exists r, pose_from_fundamental svd svd3 F x x' K1 K2 = Some r /\ rigid r /\ (forall Y, qrot (rot r) Y = qrot (rot p) Y) /\ tra r = direction (tra p).
Proof.
  intros SV (S3 & SD) D1 D2 Rp (mu & Nmu & EE) J1 J2 F1 F2 OB ND. unfold pose_from_fundamental.
  destruct (svd3 (essential F K1 K2)) as [[s U] Vt] eqn:ES. cbn [fst] in SD.
  assert (OU := proj1 S3). assert (OV := proj1 (proj2 S3)).
  set (W := positive (mmul 3 U (mmul 3 quarter_turn Vt))). set (Wt := positive (mmul 3 U (mmul 3 (tr quarter_turn) Vt))).
  set (u := V3 (U 0%nat 2%nat) (U 1%nat 2%nat) (U 2%nat 2%nat)).
  assert (U1 : dot3 u u = 1). { assert (H := proj1 OU 2%nat 2%nat ltac:(lia) ltac:(lia)). unfold mmul, tr, eye in H. cbn [sum Nat.eqb] in H. unfold u, dot3. cbn [vx vy vz]. lra. }
  assert (OR : orthonormal 3 (qmat (rot p)) /\ det3 (qmat (rot p)) = 1).
  { destruct (qmat_rotation (rot p) Rp) as (H1 & H2 & H3). split; [split; assumption|]. rewrite det3_33. exact H3. }
  assert (NT : exists i, (i < 3)%nat /\ vl (tra p) i <> 0).
  { apply (baseline_turned p X Rp) in OB. destruct (Req_dec (vx (tra p)) 0) as [Z0|Z0]; [|exists 0%nat; split; [lia|exact Z0]]. destruct (Req_dec (vy (tra p)) 0) as [Z1|Z1]; [|exists 1%nat; split; [lia|exact Z1]].
    destruct (Req_dec (vz (tra p)) 0) as [Z2|Z2]; [|exists 2%nat; split; [lia|exact Z2]]. exfalso. apply OB. unfold cross3, v3zero. rewrite Z0, Z1, Z2. f_equal; ring. }
  assert (EE' : meq 3 3 (essential F K1 K2) (mscale mu (mmul 3 (skew3 (vl (tra p))) (qmat (rot p))))) by (unfold essential; rewrite (mA 3 3 3 3); exact EE).
  destruct (essential_decomposed _ U s Vt _ _ mu S3 SD (proj1 OR) (proj2 OR) Nmu NT EE') as ((c0 & N0 & EC) & ROT).
  assert (ET : tra p = v3scale c0 u). { apply vl_ext. intros i Hi. rewrite (EC i Hi). unfold u, vl, vlist, v3scale. cbn [vx vy vz]. destruct i as [|[|[|]]]; [| | |lia]; reflexivity. }
  assert (QO := quarter_orthonormal). assert (QD := quarter_det).
  destruct (quat_of_mat_rotation W) as (qa & Ea & Ua & Ma); [apply positive_rotation; tauto|].
  destruct (quat_of_mat_rotation Wt) as (qb & Eb & Ub & Mb); [apply positive_rotation; try tauto; rewrite det3_tr; exact QD|].
  assert (TU : V3 (U 0%nat 2%nat) (U 1%nat 2%nat) (U 2%nat 2%nat) = v3scale 1 u) by (unfold u, v3scale; cbn [vx vy vz]; f_equal; ring).
  assert (TN : V3 (- U 0%nat 2%nat) (- U 1%nat 2%nat) (- U 2%nat 2%nat) = v3scale (-1) u) by (unfold u, v3scale; cbn [vx vy vz]; f_equal; ring).
  assert (SQ : sqrt (dot3 (tra p) (tra p)) = Rabs c0). { rewrite ET. replace (dot3 (v3scale c0 u) (v3scale c0 u)) with (Rsqr c0); [apply sqrt_Rsqr_abs|]. transitivity (c0 * c0 * dot3 u u); [rewrite U1; unfold Rsqr; ring|destruct u as [u1 u2 u3]; unfold dot3, v3scale; cbn [vx vy vz]; ring]. }
  assert (DPOS : 0 < c0 -> v3scale 1 u = direction (tra p)).
  { intros H. unfold direction. rewrite SQ, ET, Rabs_right by lra. destruct u as [u1 u2 u3]. unfold v3scale. cbn [vx vy vz]. f_equal; field; exact N0. }
  assert (DNEG : c0 < 0 -> v3scale (-1) u = direction (tra p)).
  { intros H. unfold direction. rewrite SQ, ET, Rabs_left by lra. destruct u as [u1 u2 u3]. unfold v3scale. cbn [vx vy vz]. f_equal; field; exact N0. }
  assert (RES : forall q M t, quat_of_mat M = Some q -> unit q -> (forall Y, qrot q Y = qrot (rot p) Y) -> V3 (t 0%nat) (t 1%nat) (t 2%nat) = direction (tra p) ->
    exists r, result_pose M t = Some r /\ rigid r /\ (forall Y, qrot (rot r) Y = qrot (rot p) Y) /\ tra r = direction (tra p)).
  { intros q M t Eq Uq Rq Tq. unfold result_pose. rewrite Eq. cbn [option_map]. eexists. split; [reflexivity|]. split; [exact Uq|]. split; [exact Rq|]. exact Tq. }
  destruct ROT as [RW|RW].
  - assert (SR : forall Y, qrot qa Y = qrot (rot p) Y) by (apply (same_matrix qa (rot p) W); assumption).
    destruct (true_candidate svd K1 K2 p X x x' u c0 SV D1 D2 Rp J1 J2 OB U1 N0 ET F1 F2 qa W (fun i => U i 2%nat) 1 ltac:(ring) Ua Ma SR TU) as (s1 & G1 & V1). rewrite G1.
    destruct (in_view W (fun i => U i 2%nat) s1) eqn:I1.
    + apply (RES qa); try assumption. rewrite TU. apply DPOS. assert (H := proj1 V1 eq_refl). lra.
    + assert (NEG : c0 < 0). { destruct (Rlt_dec 0 c0) as [H|H]; [|lra]. exfalso. assert (T : false = true) by (apply V1; lra). discriminate T. }
      destruct (true_candidate svd K1 K2 p X x x' u c0 SV D1 D2 Rp J1 J2 OB U1 N0 ET F1 F2 qa W (fun i => - U i 2%nat) (-1) ltac:(ring) Ua Ma SR TN) as (s2 & G2 & V2). rewrite G2.
      rewrite (proj2 V2) by lra. apply (RES qa); try assumption. rewrite TN. apply DNEG, NEG.
  - assert (SR : forall Y, qrot qb Y = qrot (rot p) Y) by (apply (same_matrix qb (rot p) Wt); assumption).
    assert (TW : forall Y, qrot qa Y = v3sub (v3scale (2 * dot3 u (qrot (rot p) Y)) u) (qrot (rot p) Y)).
    { intros Y. apply vl_ext. intros i Hi. rewrite (rotated_by qa W Y Ua Ma i Hi).
      assert (T := turned_twist U Vt OU OV). change (meq 3 3 W (mmul 3 (fun i j => 2 * U i 2%nat * U j 2%nat - eye i j) Wt)) in T.
      rewrite (mvec_ext 3 3 W _ (vl Y) (vl Y) T (fun _ _ => eq_refl) i Hi), mvec_mmul.
      rewrite (mvec_arg 3 _ _ (vl (qrot (rot p) Y)) i) by (intros j Hj; symmetry; apply (rotated_by (rot p) Wt Y Rp RW j Hj)).
      set (a := qrot (rot p) Y). destruct a as [a1 a2 a3]. unfold u, mvec, vl, vlist, v3sub, v3scale, dot3, eye. cbn [vx vy vz sum nth].
      destruct i as [|[|[|]]]; [| | |lia]; cbn [nth Nat.eqb]; ring. }
    destruct (twisted_candidate svd K1 K2 p X x x' u c0 SV D1 D2 Rp J1 J2 OB U1 ET F1 F2 qa W (fun i => U i 2%nat) 1 ltac:(ring) Ua Ma TW TU ND) as (s1 & G1 & V1). rewrite G1, V1.
    destruct (twisted_candidate svd K1 K2 p X x x' u c0 SV D1 D2 Rp J1 J2 OB U1 ET F1 F2 qa W (fun i => - U i 2%nat) (-1) ltac:(ring) Ua Ma TW TN ND) as (s2 & G2 & V2). rewrite G2, V2.
    destruct (true_candidate svd K1 K2 p X x x' u c0 SV D1 D2 Rp J1 J2 OB U1 N0 ET F1 F2 qb Wt (fun i => - U i 2%nat) (-1) ltac:(ring) Ub Mb SR TN) as (s3 & G3 & V3). rewrite G3.
    destruct (in_view Wt (fun i => - U i 2%nat) s3) eqn:I3.
    + apply (RES qb); try assumption. rewrite TN. apply DNEG. assert (H := proj1 V3 eq_refl). lra.
    + apply (RES qb); try assumption. rewrite TU. apply DPOS. destruct (Rlt_dec 0 c0) as [H|H]; [exact H|]. exfalso. assert (T : false = true) by (apply V3; lra). discriminate T.
Qed.
(** ** the matrix computed from two poses *)
Theorem essential_of_poses inv4 pin K1 K2 p : rigid p -> det3 K1 <> 0 -> det3 K2 <> 0 ->
  meq 4 4 (mmul 4 (pose_mat pone) (inv4 (pose_mat pone))) eye -> penrose 3 4 (mmul 3 K1 (pose_mat pone)) (pin (mmul 3 K1 (pose_mat pone))) ->
  essential_of (fundamental_from_poses inv4 pin pone p K1 K2) K1 K2 p.
Proof.
  intros Rp D1 D2 HI HP. assert (R1 : rigid pone) by (unfold rigid, pone, unit, qone; cbn; un; ring). set (F := fundamental_from_poses inv4 pin pone p K1 K2).
  exists (det3 K2). split; [exact D2|].
  assert (PO : forall Y, papp pone Y = Y) by (intros Y; destruct Y as [y1 y2 y3]; unfold papp, pone; un; cbn; f_equal; ring).
  assert (C1 : centre pone = v3zero) by (unfold centre, pone; un; f_equal; ring).
  assert (T0 : papp p v3zero = tra p). { unfold papp. rewrite (qrot_mat _ _ Rp). destruct (tra p) as [t1 t2 t3]. unfold mv3, v3add, v3zero. cbn [vx vy vz]. f_equal; ring. }
  assert (KEY : forall X i, (i < 3)%nat -> mvec 3 (mmul 3 (tr K2) (mmul 3 F K1)) (vl X) i = det3 K2 * vl (cross3 (tra p) (qrot (rot p) X)) i).
  { intros X i Hi. rewrite !mvec_mmul.
    rewrite (mvec_arg 3 (tr K2) _ (cross_v (mvec 3 K2 (vl (tra p))) (mvec 3 K2 (vl (papp p X))))).
    - unfold papp. set (a := qrot (rot p) X). destruct a as [a1 a2 a3], (tra p) as [t1 t2 t3]. unfold mvec, cross_v, tr, det3, cross3, vl, vlist, v3add. cbn [vx vy vz]. destruct i as [|[|[|]]]; [| | |lia]; cbn [sum nth]; ring.
    - intros j Hj. rewrite mvec_mmul. assert (L := fundamental_from_poses_line inv4 pin pone p K1 K2 X j Hj R1 Rp D1 HI HP). fold F in L. unfold seen in L. rewrite PO, C1, T0 in L. exact L. }
  assert (COL : forall A j i, (j < 3)%nat -> mvec 3 A (vl (V3 (eye 0%nat j) (eye 1%nat j) (eye 2%nat j))) i = A i j).
  { intros A j i Hj. unfold mvec, vl, vlist, eye. cbn [vx vy vz]. destruct j as [|[|[|]]]; [| | |lia]; cbn [sum nth Nat.eqb]; ring. }
  intros i j Hi Hj. rewrite <- COL by exact Hj. rewrite (KEY _ i Hi). unfold mscale. f_equal. rewrite <- (COL (mmul 3 (skew3 (vl (tra p))) (qmat (rot p))) j i Hj). rewrite mvec_mmul. set (e := V3 _ _ _).
  rewrite (mvec_arg 3 _ _ (vl (qrot (rot p) e)) i) by (intros l Hl; symmetry; apply (rotated_by (rot p) (qmat (rot p)) e Rp (meq_refl _ _ _) l Hl)).
  set (a := qrot (rot p) e). destruct a as [a1 a2 a3], (tra p) as [t1 t2 t3]. unfold mvec, skew3, mlist, cross3, vl, vlist. cbn [vx vy vz]. destruct i as [|[|[|]]]; [| | |lia]; cbn [sum nth]; ring.
Qed.
(** the pose of the second camera comes back from its own fundamental matrix and one pair of image points *)
Corollary pose_fundamental_round_trip svd svd3 inv4 pin K1 K2 p X x x' : let F := fundamental_from_poses inv4 pin pone p K1 K2 in
  (forall rows, length rows = 4%nat -> svd4 svd rows) -> svd3_ok svd3 (essential F K1 K2) ->
  meq 4 4 (mmul 4 (pose_mat pone) (inv4 (pose_mat pone))) eye -> penrose 3 4 (mmul 3 K1 (pose_mat pone)) (pin (mmul 3 K1 (pose_mat pone))) ->
  det3 K1 <> 0 -> det3 K2 <> 0 -> rigid p ->
  projected (seen K1 pone X) x -> projected (seen K2 p X) x' -> vz X < 0 -> vz (papp p X) < 0 ->
  off_baseline pone p X -> dot3 X X <> dot3 (papp p X) (papp p X) ->
  exists r, pose_from_fundamental svd svd3 F x x' K1 K2 = Some r /\ rigid r /\ (forall Y, qrot (rot r) Y = qrot (rot p) Y) /\ tra r = direction (tra p).
Proof. intros F SV S3 HI HP D1 D2 Rp J1 J2 F1 F2 OB ND. apply (essential_pose_exact svd svd3 F K1 K2 p X); try assumption. apply essential_of_poses; assumption. Qed.

(** ** a point as far from the one camera as from the other *)
Definition shift : pose := P qone (V3 1 0 0).
Definition shift_svd : gesvd3 := fun _ => (vlist [1; 1; 0], mlist [[0; 0; 1]; [1; 0; 0]; [0; 1; 0]], mlist [[0; 0; -1]; [0; 1; 0]; [1; 0; 0]]).
Definition shift_F : mat := mlist [[0; 0; 0]; [0; 0; -1]; [0; 1; 0]].
Lemma shift_contract : svd3_ok shift_svd (essential shift_F eye eye) /\ essential_of shift_F eye eye shift.
Proof.
  split.
  - split; [|unfold shift_svd, vlist; cbn; lra]. unfold shift_svd. repeat split; try (intros i j Hi Hj; destruct i as [|[|[|]]]; try lia; destruct j as [|[|[|]]]; try lia; unfold essential, shift_F, mmul, tr, eye, mlist, vlist; cbn; ring).
    intros i Hi. destruct i as [|[|[|]]]; [| | |lia]; unfold vlist; cbn; lra.
  - exists 1. split; [lra|]. intros i j Hi Hj. destruct i as [|[|[|]]]; try lia; destruct j as [|[|[|]]]; try lia; unfold shift, shift_F, mscale, skew3, mmul, tr, vl, vlist, mlist; un; cbn; ring.
Qed.
(** every hypothesis but the last: the first candidate's rays are parallel and the division is by zero *)
Theorem equidistant_point_refuted svd : (forall rows, length rows = 4%nat -> svd4 svd rows) ->
  exists svd3 F p X x x', svd3_ok svd3 (essential F eye eye) /\ rigid p /\ essential_of F eye eye p /\ projected (seen eye pone X) x /\ projected (seen eye p X) x' /\
    vz X < 0 /\ vz (papp p X) < 0 /\ off_baseline pone p X /\ dot3 X X = dot3 (papp p X) (papp p X) /\
    pose_from_fundamental svd svd3 F x x' eye eye = None.
Proof.
  intros SV. exists shift_svd, shift_F, shift, (V3 (-1/2) 0 (-1)), (vlist [1/2; 0]), (vlist [-1/2; 0]). destruct shift_contract as [A B]. split; [exact A|].
  assert (Rs : rigid shift) by (unfold rigid, shift, unit; un; cbn; ring). split; [exact Rs|]. split; [exact B|].
  assert (R1 : rigid pone) by (unfold rigid, pone, unit, qone; cbn; un; ring).
  assert (PX : papp shift (V3 (-1/2) 0 (-1)) = V3 (1/2) 0 (-1)) by (unfold papp, shift; un; cbn; f_equal; field).
  assert (PO : papp pone (V3 (-1/2) 0 (-1)) = V3 (-1/2) 0 (-1)) by (unfold papp, pone; un; cbn; f_equal; field).
  split; [unfold projected, seen; rewrite PO; unfold mvec, eye, vlist; cbn; repeat split; lra|]. split; [unfold projected, seen; rewrite PX; unfold mvec, eye, vlist; cbn; repeat split; lra|].
  rewrite PX. cbn [vz]. split; [lra|]. split; [lra|]. split.
  { apply (baseline_turned shift _ Rs). unfold shift, cross3, v3zero. un. cbn. intros E. apply (f_equal vy) in E. cbn in E. lra. }
  split; [unfold dot3; cbn; field|].
  unfold pose_from_fundamental, shift_svd. set (U := mlist [[0; 0; 1]; [1; 0; 0]; [0; 1; 0]]). set (Vt := mlist [[0; 0; -1]; [0; 1; 0]; [1; 0; 0]]).
  set (W := positive (mmul 3 U (mmul 3 quarter_turn Vt))).
  assert (EW : meq 3 3 W (mlist [[1; 0; 0]; [0; -1; 0]; [0; 0; -1]])).
  { unfold W. rewrite (positive_sign _ 1); [|ring|unfold U, Vt, det3, mmul, quarter_turn, mlist; cbn; ring].
    intros i j Hi Hj. destruct i as [|[|[|]]]; try lia; destruct j as [|[|[|]]]; try lia; unfold mscale, mmul, quarter_turn, U, Vt, mlist; cbn; ring. }
  set (P1 := mmul 3 eye (motion_mat eye (fun _ => 0))). set (P2 := mmul 3 eye (motion_mat W (fun i => U i 2%nat))). set (x := vlist [1/2; 0]). set (x' := vlist [-1/2; 0]).
  set (rows := two_view_system P1 P2 x x'). assert (LD := SV rows eq_refl). unfold svd4 in LD. set (v := fun j => svd (length rows) (rows_mat rows) 3%nat j) in *.
  assert (V1 : forall w i, (i < 3)%nat -> mvec 4 P1 w i = w i). { intros w i Hi. unfold P1. rewrite mvec_mmul, mvec_eye by exact Hi. unfold mvec, motion_mat, eye. destruct i as [|[|[|]]]; [| | |lia]; cbn; ring. }
  assert (V2 : forall w, mvec 4 P2 w 0%nat = w 0%nat + w 3%nat /\ mvec 4 P2 w 1%nat = - w 1%nat /\ mvec 4 P2 w 2%nat = - w 2%nat).
  { intros w. unfold P2. rewrite !mvec_mmul, !mvec_eye by lia. unfold mvec, motion_mat. cbn [sum Nat.eqb]. rewrite !EW by lia. unfold U, mlist. cbn [nth]. repeat split; ring. }
  assert (S : solves 4 rows v).
  { apply rows_solves. apply (least_direction_kernel _ 4 _ v (vlist [1/2; 0; 1; 0]) LD); [exists 2%nat; split; [lia|unfold vlist; cbn; lra]|]. apply rows_solves, two_view_solves.
    unfold agrees. destruct (V2 (vlist [1/2; 0; 1; 0])) as (A0 & A1 & A2). rewrite !V1, A0, A1, A2 by lia. unfold x, x', vlist. cbn [nth]. repeat split; field. }
  apply two_view_solves in S. destruct S as [[S0 S1] [T0 T1]]. destruct (V2 v) as (A0 & A1 & A2). rewrite !V1 in S0, S1 by lia. rewrite A0, A2 in T0. unfold x, x', vlist in S0, T0. cbn [nth] in S0, T0.
  assert (Z : v 3%nat = 0) by lra.
  assert (G : get3d_two svd P1 P2 x x' = None). { unfold get3d_two. cbv zeta. fold rows. change 4%nat with (length rows) at 1. change (dehom v = None). unfold dehom. destruct (Req_EM_T (v 3%nat) 0); [reflexivity|contradiction]. }
  rewrite G. reflexivity.
Qed.
(** the hypotheses of [essential_pose_exact]: a point nearer to the second camera *)
Example essential_pose_case : let X := V3 (-1) 0 (-1) in
  svd3_ok shift_svd (essential shift_F eye eye) /\ rigid shift /\ essential_of shift_F eye eye shift /\ projected (seen eye pone X) (vlist [1; 0]) /\ projected (seen eye shift X) (vlist [0; 0]) /\
  vz X < 0 /\ vz (papp shift X) < 0 /\ off_baseline pone shift X /\ dot3 X X <> dot3 (papp shift X) (papp shift X).
Proof.
  cbv zeta. destruct shift_contract as [A B]. split; [exact A|].
  assert (Rs : rigid shift) by (unfold rigid, shift, unit; un; cbn; ring). split; [exact Rs|]. split; [exact B|].
  assert (PX : papp shift (V3 (-1) 0 (-1)) = V3 0 0 (-1)) by (unfold papp, shift; un; cbn; f_equal; ring).
  assert (PO : papp pone (V3 (-1) 0 (-1)) = V3 (-1) 0 (-1)) by (unfold papp, pone; un; cbn; f_equal; ring).
  split; [unfold projected, seen; rewrite PO; unfold mvec, eye, vlist; cbn; repeat split; lra|]. split; [unfold projected, seen; rewrite PX; unfold mvec, eye, vlist; cbn; repeat split; lra|].
  rewrite PX. cbn [vz]. split; [lra|]. split; [lra|]. split.
  - apply (baseline_turned shift _ Rs). unfold shift, cross3, v3zero. un. cbn. intros E. apply (f_equal vy) in E. cbn in E. lra.
  - unfold dot3. cbn. lra.
Qed.
(** and a decomposition that serves every triangulation *)
Example triangulation_svd_case : exists svd, forall rows, length rows = 4%nat -> svd4 svd rows.
Proof.
  exists (fun m A => epsilon (inhabits eye) (fun Vt => least_direction m 4 A (fun j => Vt 3%nat j))). intros rows HL. unfold svd4.
  apply (epsilon_spec (inhabits eye) (fun Vt => least_direction (length rows) 4 (rows_mat rows) (fun j => Vt 3%nat j))).
  destruct (least_direction_always (length rows) 4 (rows_mat rows) ltac:(lia)) as (v & H). exists (fun _ j => v j). exact H.
Qed.

Print Assumptions essential_pose_exact.
Print Assumptions essential_of_poses.
Print Assumptions pose_fundamental_round_trip.
Print Assumptions equidistant_point_refuted.

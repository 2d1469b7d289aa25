(** Pose representations and relative poses of utAlgorithm/PoseEstimation6D6D (C47, C51, C89). *)
From Coq Require Import Reals Lra Lia List Sorted Arith.
Import ListNotations.
From Verif Require Import Mat Quat QuatProofs RotationCast RotationCastProofs LinAlg HandEye HandEyeProofs.
Open Scope R_scope.

(** * C47: dual quaternions and poses are interchangeable *)
Theorem pose_dual_quaternion_round_trip p : rigid p -> pose_of_dq (dq_of_pose p) = p.
Proof. apply pose_of_dq_of_pose. Qed.
Theorem dual_quaternion_pose_round_trip d : unit (dre d) -> qdot (dre d) (ddu d) = 0 ->
  dq_of_pose (pose_of_dq d) = d.
Proof. intros U O. apply dq_of_pose_of_dq. split; assumption. Qed.
(** orthogonality holds for every pose, also when the rotation is not normalised *)
Theorem dual_part_orthogonal p : qdot (dre (dq_of_pose p)) (ddu (dq_of_pose p)) = 0.
Proof. apply dq_of_pose_orthogonal. Qed.
(** composing poses multiplies dual quaternions: (a + e a')(b + e b') with e e = 0 *)
Theorem dual_quaternion_of_product p q : rigid p ->
  dre (dq_of_pose (pmul p q)) = qmul (dre (dq_of_pose p)) (dre (dq_of_pose q)) /\
  ddu (dq_of_pose (pmul p q)) = qadd (qmul (dre (dq_of_pose p)) (ddu (dq_of_pose q))) (qmul (ddu (dq_of_pose p)) (dre (dq_of_pose q))).
Proof. intros R. rewrite dq_of_pmul by exact R. split; reflexivity. Qed.

Theorem rotation_vector_pose_round_trip p : rigid p -> qw (rot p) <> 1 -> qw (rot p) <> -1 ->
  eps10 <= 2 * acos (qw (rot p)) ->
  exists v, v6_of_pose p = Some v /\ pose_of_v6 v = p.
Proof.
  intros R N1 N2 A. unfold v6_of_pose, cast_quat_vec.
  destruct (cast_quat_aa_ok (rot p) R N1 N2) as (a & E & UA & EQ & AR). rewrite E. cbn [option_map].
  eexists. split; [reflexivity|]. unfold pose_of_v6. cbn [v6rot v6tra].
  assert (AN : eps10 <= Rabs (angle a)).
  { rewrite Rabs_right by lra. unfold cast_quat_aa in E. destruct (Req_EM_T _ 0); [discriminate|].
    assert (H := f_equal (fun o => match o with Some x => angle x | None => 0 end) E). cbn in H. rewrite <- H. exact A. }
  rewrite cast_aa_vec_quat, EQ by assumption. destruct p; reflexivity.
Qed.
(** the 6-vector of a pose without rotation does not exist (0/0), although it has a plain meaning *)
Theorem rotation_vector_identity_refuted t :
  v6_of_pose (P (Q 0 0 0 1) t) = None /\ v6_of_pose (P (Q 0 0 0 (-1)) t) = None /\
  pose_of_v6 (V6 v3zero t) = P (Q 0 0 0 1) t.
Proof.
  unfold v6_of_pose, cast_quat_vec. cbn [rot]. rewrite !cast_quat_aa_undefined by (cbn; auto). repeat split.
  unfold pose_of_v6, cast_vec_quat. cbn. replace (0 * 0 + 0 * 0 + 0 * 0) with 0 by ring. rewrite sqrt_0.
  destruct (Rlt_dec 0 eps10) as [|N]; [reflexivity|]. pose proof eps10_pos. lra.
Qed.

(** the other representations go through the same conversions *)
Theorem pose_vectors_agree p : rigid p -> v6_of_dq (dq_of_pose p) = v6_of_pose p /\
  (qw (rot p) <> 1 -> qw (rot p) <> -1 -> exists a, v7_of_pose p = Some (a, tra p) /\ unit_axis (axis a) /\ 0 < angle a < 2 * PI /\ cast_aa_quat a = rot p /\
    v6_of_pose p = Some (V6 (v3scale (angle a) (axis a)) (tra p))).
Proof.
  intros R. split; [unfold v6_of_dq; rewrite pose_of_dq_of_pose by exact R; reflexivity|]. intros N1 N2.
  destruct (cast_quat_aa_ok (rot p) R N1 N2) as (a & E & UA & EQ & AR). exists a. unfold v7_of_pose, v6_of_pose, cast_quat_vec. rewrite E. cbn [option_map].
  split; [reflexivity|]. split; [exact UA|]. split; [exact AR|]. split; [exact EQ|]. unfold cast_aa_vec. unfold unit_axis in UA. replace (vx (axis a) * vx (axis a) + vy (axis a) * vy (axis a) + vz (axis a) * vz (axis a)) with 1 by (unfold dot3 in *; lra). rewrite sqrt_1.
  destruct (Rlt_dec 1 eps10) as [L|_]; [unfold eps10 in L; lra|]. unfold v3scale. do 2 f_equal. f_equal; field.
Qed.
(** neighbouring poses: one relative pose per step, in order *)
Theorem relative_neighbours_exact inv l : length (relative_neighbours inv l) = (length l - 1)%nat /\
  forall k a b, nth_error l k = Some a -> nth_error l (S k) = Some b -> nth_error (relative_neighbours inv l) k = Some (if inv then pmul (pinv a) b else pmul a (pinv b)).
Proof.
  destruct l as [|p l]; [split; [reflexivity|intros [|k] a b H; discriminate H]|]. cbn [relative_neighbours length]. rewrite Nat.sub_succ, Nat.sub_0_r.
  revert p. induction l as [|q l IH]; intros p; [split; [reflexivity|intros [|[|k]] a b _ H; discriminate H]|].
  destruct (IH q) as (L & H). cbn [relative_adjacent length]. split; [rewrite L; reflexivity|]. intros [|k] a b A B.
  - injection A as <-. injection B as <-. reflexivity.
  - exact (H k a b A B).
Qed.
(** the step from the first to the last pose is the product of the steps between neighbours *)
Theorem relative_neighbours_chain p l : Forall rigid (p :: l) ->
  fold_left pmul (relative_neighbours true (p :: l)) p = last l p.
Proof.
  intros F. cbn [relative_neighbours]. revert p F. induction l as [|q l IH]; intros p F; [reflexivity|]. inversion F as [|? ? RP F']; subst. inversion F' as [|? ? RQ F'']; subst.
  cbn [relative_adjacent fold_left relative]. rewrite pmul_assoc, pmul_inv_r, pmul_one_l by (try assumption; apply rigid_inv; assumption). rewrite IH by exact F'. destruct l as [|r l]; [reflexivity|]. cbn [last]. clear. revert r. induction l as [|s l IH]; intros r; [reflexivity|]. cbn [last] in *. apply IH.
Qed.

(** * C90: bringing rotation vectors into one hemisphere *)
Theorem hemisphere_alignment_short v : norm3 (v6rot v) <= PI -> hemisphere_alignment v = v.
Proof. intros H. unfold hemisphere_alignment. cbv zeta. destruct (Rlt_dec PI _); [lra|reflexivity]. Qed.
Theorem hemisphere_alignment_length v : norm3 (v6rot v) <= 2 * PI ->
  norm3 (v6rot (hemisphere_alignment v)) <= PI /\ v6tra (hemisphere_alignment v) = v6tra v.
Proof.
  intros H. unfold hemisphere_alignment. cbv zeta. destruct (Rlt_dec PI _) as [L|L]; [|split; [lra|reflexivity]].
  split; [|reflexivity]. cbn [v6rot]. pose proof PI_RGT_0. set (n := norm3 (v6rot v)) in *.
  assert (E : v6rot v = v3scale n (V3 (vx (v6rot v) / n) (vy (v6rot v) / n) (vz (v6rot v) / n))).
  { apply vec3_ext; cbn; field; lra. }
  assert (E2 : v3scale ((2 * PI - n) / n) (v6rot v) = v3scale (2 * PI - n) (V3 (vx (v6rot v) / n) (vy (v6rot v) / n) (vz (v6rot v) / n))).
  { rewrite E. apply vec3_ext; cbn; field; lra. }
  rewrite E2, norm3_axis by (apply norm3_div; fold n; lra). rewrite Rabs_right; lra.
Qed.
(** a rotation by more than half a turn comes out as its inverse: the shorter rotation is taken
    about the same axis instead of the opposite one *)
Theorem hemisphere_alignment_inverts v : PI < norm3 (v6rot v) -> norm3 (v6rot v) <= 2 * PI - eps10 ->
  rot (pose_of_v6 (hemisphere_alignment v)) = qopp (qconj (rot (pose_of_v6 v))).
Proof.
  intros L U. unfold hemisphere_alignment. cbv zeta. destruct (Rlt_dec PI _) as [_|]; [|lra].
  pose proof PI_RGT_0. pose proof eps10_pos. set (n := norm3 (v6rot v)) in *.
  set (a := V3 (vx (v6rot v) / n) (vy (v6rot v) / n) (vz (v6rot v) / n)).
  assert (UA : unit_axis a) by (apply norm3_div; fold n; lra).
  unfold pose_of_v6. cbn [rot v6rot].
  assert (E : v6rot v = v3scale n a) by (apply vec3_ext; cbn; field; lra).
  assert (E2 : v3scale ((2 * PI - n) / n) (v6rot v) = v3scale (2 * PI - n) a) by (rewrite E; apply vec3_ext; cbn; field; lra).
  rewrite E2, E.
  assert (G : forall t, eps10 <= t -> cast_vec_quat (v3scale t a) = cast_aa_quat (AA a t)).
  { intros t Ht. transitivity (cast_vec_quat (cast_aa_vec (AA a t))); [rewrite (cast_aa_vec_unit (AA a t) UA); reflexivity|]. apply cast_aa_vec_quat; [exact UA|]. cbn [angle]. rewrite Rabs_right; lra. }
  rewrite !G by lra.
  unfold cast_aa_quat, qopp, qconj. cbn [axis angle qx qy qz qw].
  replace ((2 * PI - n) / 2) with (PI - n / 2) by lra. rewrite Rtrigo_facts.sin_pi_minus, Rtrigo_facts.cos_pi_minus.
  apply quat_ext; cbn [qx qy qz qw]; ring.
Qed.
Theorem hemisphere_alignment_refuted :
  exists v, norm3 (v6rot v) = 3 * PI / 2 /\
  ~ meq 3 3 (qmat (rot (pose_of_v6 (hemisphere_alignment v)))) (qmat (rot (pose_of_v6 v))).
Proof.
  pose proof PI_RGT_0 as HP. pose proof eps10_pos as He.
  assert (U : unit_axis (V3 1 0 0)) by (unfold unit_axis, dot3; cbn; ring).
  assert (ES : eps10 <= 1). { unfold eps10. assert (1 <= 10 ^ 10) by (apply pow_R1_Rle; lra). rewrite <- Rinv_1. apply Rinv_le_contravar; lra. }
  pose proof PI2_3_2 as H32.
  exists (V6 (v3scale (3 * PI / 2) (V3 1 0 0)) v3zero). cbn [v6rot].
  rewrite norm3_axis by exact U. rewrite Rabs_right by lra. split; [reflexivity|].
  rewrite hemisphere_alignment_inverts by (cbn [v6rot]; rewrite norm3_axis by exact U; rewrite Rabs_right; lra).
  unfold pose_of_v6. cbn [rot v6rot].
  assert (G : cast_vec_quat (v3scale (3 * PI / 2) (V3 1 0 0)) = cast_aa_quat (AA (V3 1 0 0) (3 * PI / 2))).
  { transitivity (cast_vec_quat (cast_aa_vec (AA (V3 1 0 0) (3 * PI / 2)))); [rewrite (cast_aa_vec_unit (AA (V3 1 0 0) (3 * PI / 2)) U); reflexivity|]. apply cast_aa_vec_quat; [exact U|]. cbn [angle]. rewrite Rabs_right; lra. }
  rewrite G. intros M. specialize (M 2%nat 1%nat ltac:(lia) ltac:(lia)).
  unfold qmat, mk33, cast_aa_quat, qopp, qconj in M. cbn in M.
  assert (S : 2 * sin (3 * PI / 2 / 2) * cos (3 * PI / 2 / 2) = -1).
  { rewrite <- sin_2a. replace (2 * (3 * PI / 2 / 2)) with (3 * (PI / 2)) by lra. rewrite sin_3PI2. reflexivity. }
  set (s := sin (3 * PI / 2 / 2)) in *. set (c := cos (3 * PI / 2 / 2)) in *. lra.
Qed.

(** * C51: one relative pose per pair *)
(** the pairs i < j < n in lexicographic order *)
Definition pairs (n : nat) : list (nat * nat) := flat_map (fun i => map (pair i) (seq (S i) (n - S i))) (seq 0 n).
Definition lex (a b : nat * nat) : Prop := (fst a < fst b \/ fst a = fst b /\ snd a < snd b)%nat.

Theorem pairs_complete n i j : In (i, j) (pairs n) <-> (i < j < n)%nat.
Proof.
  unfold pairs. rewrite in_flat_map. split.
  - intros (k & Hk & H). apply in_map_iff in H. destruct H as (l & E & Hl). apply in_seq in Hk, Hl. injection E as <- <-. lia.
  - intros H. exists i. split; [apply in_seq; lia|]. apply in_map, in_seq. lia.
Qed.
Theorem pairs_sorted n : StronglySorted lex (pairs n).
Proof.
  unfold pairs. generalize 0%nat as s. generalize n at 2 as len. induction len as [|len IH]; intros s; [constructor|].
  cbn [seq flat_map].
  assert (A : forall (l1 l2 : list (nat * nat)), StronglySorted lex l1 -> StronglySorted lex l2 ->
    (forall x y, In x l1 -> In y l2 -> lex x y) -> StronglySorted lex (l1 ++ l2)).
  { induction l1 as [|x l1 IHl]; intros l2 S1 S2 H; [exact S2|]. inversion S1; subst. cbn [app]. constructor.
    - apply IHl; [assumption|exact S2|]. intros. apply H; [right|]; assumption.
    - apply Forall_app. split; [assumption|]. apply Forall_forall. intros y Hy. apply H; [left; reflexivity|exact Hy]. }
  apply A.
  - generalize (n - S s)%nat as m. generalize (S s) as a. clear. intros a m. revert a. induction m as [|m IH]; intros a; [constructor|].
    cbn [seq map]. constructor; [apply IH|]. apply Forall_forall. intros y Hy. apply in_map_iff in Hy. destruct Hy as (z & <- & Hz).
    apply in_seq in Hz. right. cbn. lia.
  - apply IH.
  - intros x y Hx Hy. apply in_map_iff in Hx. destruct Hx as (z & <- & _). apply in_flat_map in Hy. destruct Hy as (k & Hk & Hy).
    apply in_map_iff in Hy. destruct Hy as (w & <- & _). apply in_seq in Hk. left. cbn. lia.
Qed.
Lemma pairs_S n : pairs (S n) = map (pair 0%nat) (seq 1 n) ++ map (fun ij => (S (fst ij), S (snd ij))) (pairs n).
Proof.
  unfold pairs. cbn [seq flat_map]. rewrite Nat.sub_succ, Nat.sub_0_r. f_equal.
  rewrite <- seq_shift. generalize (seq 0 n) as l. induction l as [|i l IH]; [reflexivity|].
  cbn [map flat_map]. rewrite IH, map_app, map_map. f_equal. rewrite Nat.sub_succ. cbn [fst snd].
  rewrite <- seq_shift, map_map. reflexivity.
Qed.
(** the list the code builds is exactly: for every pair i < j, in that order, the pose of j seen from i *)
Theorem relative_poses_lexicographic inv l :
  relative_all inv l = map (fun ij => relative inv (nth (snd ij) l pone) (nth (fst ij) l pone)) (pairs (length l)).
Proof.
  induction l as [|p t IH]; [reflexivity|]. cbn [relative_all length]. rewrite pairs_S, map_app, !map_map. f_equal.
  - cbn [fst snd nth]. rewrite <- seq_shift, map_map. cbn [nth].
    clear IH. rewrite <- (map_map (fun k => nth k t pone) (fun q => relative inv q p)). f_equal.
    induction t as [|q t IH]; [reflexivity|]. cbn [length seq map nth]. f_equal. rewrite <- seq_shift, map_map. exact IH.
  - rewrite IH. cbn [fst snd nth]. reflexivity.
Qed.
Theorem relative_poses_count inv l : length (relative_all inv l) = (length l * (length l - 1) / 2)%nat.
Proof. pose proof (relative_all_length inv l) as H. apply Nat.div_unique with (r := 0%nat); lia. Qed.
(** what the public function writes: the relative poses are appended as dual quaternions of the
    right length, and reading one back gives the relative pose *)
Theorem generate_relative_correct poses out dir : Forall rigid poses ->
  length (generate_relative poses out dir) = (length out + length poses * (length poses - 1) / 2)%nat /\
  firstn (length out) (generate_relative poses out dir) = out /\
  map pose_of_dq (skipn (length out) (generate_relative poses out dir)) = relative_all dir poses.
Proof.
  intros R. unfold generate_relative. rewrite app_length, map_length, relative_poses_count. split; [reflexivity|].
  split; [rewrite firstn_app, firstn_all, Nat.sub_diag, firstn_O, app_nil_r; reflexivity|].
  rewrite skipn_app, skipn_all, Nat.sub_diag, skipn_O. cbn [app]. rewrite map_map.
  transitivity (map (fun x => x) (relative_all dir poses)); [|apply map_id]. apply map_ext_in. intros p Hp.
  apply pose_of_dq_of_pose. revert p Hp. apply Forall_forall, relative_all_Forall. rewrite Forall_forall in R.
  intros a b Ha Hb. apply relative_rigid; apply R; assumption.
Qed.

Ltac rg := repeat first [assumption|apply rigid_mul|apply rigid_inv].
(** the eye and hand motions of one pair satisfy a X = X b exactly when E X H is the same for both *)
Theorem motion_equation Ej Ek Hj Hk X : rigid Ej -> rigid Ek -> rigid Hj -> rigid Hk -> rigid X ->
  (pmul (relative true Ek Ej) X = pmul X (relative false Hk Hj) <->
   pmul (pmul Ej X) Hj = pmul (pmul Ek X) Hk).
Proof.
  intros REj REk RHj RHk RX. unfold relative.
  assert (A : pmul (pmul Ej (pmul (pmul (pinv Ej) Ek) X)) Hk = pmul (pmul Ek X) Hk).
  { rewrite !pmul_assoc by rg. rewrite pmul_inv_r, pmul_one_l by rg. reflexivity. }
  assert (B : pmul (pmul Ej (pmul X (pmul Hj (pinv Hk)))) Hk = pmul (pmul Ej X) Hj).
  { rewrite <- !pmul_assoc by rg. rewrite pmul_inv_l, pmul_one_r by rg. reflexivity. }
  split; intros E.
  - rewrite <- A, <- B, E. reflexivity.
  - assert (C : forall z w, rigid z -> rigid w -> pmul (pmul Ej z) Hk = pmul (pmul Ej w) Hk -> z = w).
    { intros z w Rz Rw H. assert (H1 := f_equal (fun u => pmul (pmul (pinv Ej) u) (pinv Hk)) H). cbv beta in H1.
      rewrite <- !pmul_assoc in H1 by rg. rewrite pmul_inv_r, !pmul_one_r in H1 by rg.
      rewrite !pmul_assoc, pmul_inv_l, !pmul_one_l in H1 by rg. exact H1. }
    apply C; [rg|rg|]. rewrite A, B. symmetry. exact E.
Qed.

(** the two lists given to the solver: every motion pair satisfies a X = X b exactly when X moves
    all absolute poses to the same place *)
Theorem hand_eye_motions eyes hands X : length eyes = length hands -> Forall rigid eyes -> Forall rigid hands -> rigid X ->
  (Forall2 (fun a b => pmul a X = pmul X b) (relative_all true eyes) (relative_all false hands) <->
   forall j k, (j < k < length eyes)%nat ->
     pmul (pmul (nth j eyes pone) X) (nth j hands pone) = pmul (pmul (nth k eyes pone) X) (nth k hands pone)).
Proof.
  intros L RE RH RX. rewrite (relative_all_Forall2 true false (fun a b => pmul a X = pmul X b)) by exact L.
  rewrite Forall_forall in RE, RH.
  split; intros H j k Hjk; specialize (H j k Hjk); apply motion_equation;
    try exact H; try exact RX; try (apply RE, nth_In; lia); apply RH, nth_In; lia.
Qed.

(** ** the lists HandEyeCalibration keeps between calls *)
Lemma relative_to_old_app inv l1 l2 k : (k < length l1)%nat -> relative_to_old inv (l1 ++ l2) k = relative_to_old inv l1 k.
Proof.
  intros H. unfold relative_to_old. rewrite app_nth1, firstn_app by exact H.
  replace (k - length l1)%nat with 0%nat by lia. rewrite firstn_O, app_nil_r. reflexivity.
Qed.
(** feeding poses in portions gives the same lists as feeding them at once *)
Theorem incremental_update e1 e2 h1 h2 : length e1 = length h1 -> length e2 = length h2 ->
  he_update (e1 ++ e2) (h1 ++ h2) (he_update e1 h1 he_init) = he_update (e1 ++ e2) (h1 ++ h2) he_init.
Proof.
  assert (G : forall inv l1 l2, relative_from inv l1 0 ++ relative_from inv (l1 ++ l2) (length l1) = relative_from inv (l1 ++ l2) 0).
  { intros inv l1 l2. unfold relative_from. rewrite !Nat.sub_0_r, app_length.
    replace (length l1 + length l2 - length l1)%nat with (length l2) by lia.
    rewrite seq_app, flat_map_app. cbn [Nat.add]. f_equal.
    rewrite !flat_map_concat_map. f_equal. apply map_ext_in. intros k Hk. apply in_seq in Hk. symmetry. apply relative_to_old_app. lia. }
  intros L1 L2. unfold he_update, he_init. cbn [last_index rel_hand rel_eye app]. rewrite L1 at 1. rewrite !G. reflexivity.
Qed.
(** any number of calls, each seeing a longer list than the call before *)
Fixpoint he_updates (s : he_state) (e h : list pose) (portions : list (list (pose * pose))) : he_state :=
  match portions with
  | [] => s
  | c :: t => let e' := e ++ map fst c in let h' := h ++ map snd c in he_updates (he_update e' h' s) e' h' t
  end.
Theorem incremental_updates portions c0 :
  he_updates he_init [] [] (c0 :: portions) =
  he_update (map fst (concat (c0 :: portions))) (map snd (concat (c0 :: portions))) he_init.
Proof.
  cbn [he_updates app concat]. set (e := map fst c0). set (h := map snd c0).
  assert (L : length e = length h) by (unfold e, h; rewrite !map_length; reflexivity).
  rewrite !map_app. fold e h. clearbody e h. clear c0. revert e h L. induction portions as [|c t IH]; intros e h L.
  - cbn. rewrite !app_nil_r. reflexivity.
  - cbn [he_updates concat]. rewrite incremental_update by (try exact L; rewrite !map_length; reflexivity).
    rewrite IH by (rewrite !app_length, !map_length, L; reflexivity). rewrite !map_app, !app_assoc. reflexivity.
Qed.
(** their motions solve the same equation for the inverted poses *)
Theorem incremental_motions eyes hands X : length eyes = length hands -> Forall rigid eyes -> Forall rigid hands -> rigid X ->
  (forall j k, (j < k < length eyes)%nat ->
     pmul (pmul (pinv (nth j eyes pone)) X) (pinv (nth j hands pone)) = pmul (pmul (pinv (nth k eyes pone)) X) (pinv (nth k hands pone))) ->
  let s := he_update eyes hands he_init in
  Forall2 (fun a b => pmul a X = pmul X b) (rel_eye s) (rel_hand s).
Proof.
  intros L RE RH RX H. unfold he_update, he_init. cbn [last_index rel_hand rel_eye app]. rewrite Forall_forall in RE, RH.
  unfold relative_from. rewrite <- L, Nat.sub_0_r.
  assert (G : forall ks, (forall k, In k ks -> (k < length eyes)%nat) ->
    Forall2 (fun a b => pmul a X = pmul X b) (flat_map (relative_to_old false eyes) ks) (flat_map (relative_to_old true hands) ks)).
  { induction ks as [|k ks IH]; intros B; [constructor|]. cbn [flat_map]. apply Forall2_app; [|apply IH; intros; apply B; right; assumption].
    assert (Bk : (k < length eyes)%nat) by (apply B; left; reflexivity). unfold relative_to_old.
    assert (F : forall m, (m <= k)%nat -> Forall2 (fun a b => pmul a X = pmul X b)
      (map (fun o => relative false o (nth k eyes pone)) (map (fun i => nth i eyes pone) (seq 0 m)))
      (map (fun o => relative true o (nth k hands pone)) (map (fun i => nth i hands pone) (seq 0 m)))).
    { induction m as [|m IHm]; intros Hm; [constructor|]. rewrite seq_S, !map_app. apply Forall2_app; [apply IHm; lia|].
      cbn [map Nat.add]. constructor; [|constructor]. unfold relative.
      assert (RE1 := RE _ (nth_In eyes pone Bk)). assert (RE2 := RE (nth m eyes pone) ltac:(apply nth_In; lia)).
      assert (RH1 := RH (nth k hands pone) ltac:(apply nth_In; lia)). assert (RH2 := RH (nth m hands pone) ltac:(apply nth_In; lia)).
      assert (M := motion_equation (pinv (nth k eyes pone)) (pinv (nth m eyes pone)) (pinv (nth k hands pone)) (pinv (nth m hands pone)) X
        (rigid_inv _ RE1) (rigid_inv _ RE2) (rigid_inv _ RH1) (rigid_inv _ RH2) RX).
      unfold relative in M. rewrite !pinv_inv in M by assumption. apply M. symmetry. apply H. lia. }
    specialize (F k (le_n _)).
    assert (N : forall (l : list pose), (k <= length l)%nat -> map (fun i => nth i l pone) (seq 0 k) = firstn k l).
    { clear. intros l. revert k. induction l as [|p l IH]; intros k Hk.
      - destruct k; [reflexivity|cbn in Hk; lia].
      - destruct k as [|k]; [reflexivity|]. cbn [seq map firstn nth]. f_equal. rewrite <- seq_shift, map_map. apply IH. cbn in Hk. lia. }
    rewrite !N in F by lia. exact F. }
  apply G. intros k Hk. apply in_seq in Hk. lia.
Qed.

(** ** Examples *)
Definition ex_pose : pose := P (Q (3/5) 0 0 (4/5)) (V3 1 2 3).
Example ex_pose_rigid : rigid ex_pose /\ ddu (dq_of_pose ex_pose) <> Q 0 0 0 0.
Proof.
  split; [unfold rigid, unit, qnorm; cbn; lra|]. intros E. assert (H := f_equal qw E). cbn in H. lra.
Qed.
Example ex_pairs : pairs 4 = [(0,1);(0,2);(0,3);(1,2);(1,3);(2,3)]%nat.
Proof. reflexivity. Qed.
Example ex_incremental : rel_eye (he_updates he_init [] [] [[(ex_pose, pone)]; [(pone, pone); (ex_pose, ex_pose)]]) =
  [relative false ex_pose pone; relative false ex_pose ex_pose; relative false pone ex_pose].
Proof. reflexivity. Qed.

Print Assumptions pose_dual_quaternion_round_trip.
Print Assumptions dual_quaternion_pose_round_trip.
Print Assumptions dual_part_orthogonal.
Print Assumptions dual_quaternion_of_product.
Print Assumptions rotation_vector_pose_round_trip.
Print Assumptions rotation_vector_identity_refuted.
Print Assumptions hemisphere_alignment_refuted.
Print Assumptions hemisphere_alignment_inverts.
Print Assumptions relative_poses_lexicographic.
Print Assumptions generate_relative_correct.
Print Assumptions hand_eye_motions.
Print Assumptions incremental_updates.
Print Assumptions incremental_motions.
Print Assumptions pose_vectors_agree. Print Assumptions relative_neighbours_exact. Print Assumptions relative_neighbours_chain.

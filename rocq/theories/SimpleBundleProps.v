(** Properties of simpleBundleAdjustment. *)
From Coq Require Import Reals List Arith Bool Lra Lia Psatz.
Import ListNotations.
From Coquelicot Require Import Coquelicot.
From Verif Require Import Mat Quat QuatProofs QuatProps Jacobians JacobiansProofs LevMarq LevMarqProofs LevMarqProps SimpleBundle SimpleBundleProofs.
From Verif Require AverageProps.
Open Scope R_scope.

(** ** Specification *)

(** perspective image of a point seen by a camera *)
Definition seen (c : pose) (x : vec3) : R * R := (vx (papp c x) / vz (papp c x), vy (papp c x) / vz (papp c x)).
Definition dist2 (a b : R * R) : R := (fst a - fst b) * (fst a - fst b) + (snd a - snd b) * (snd a - snd b).
Definition nowhere : pose := P qone v3zero.
(** every observation against the image of its own point in its own camera *)
Definition reprojection_error (obs : list (list (R * R))) (cams : list pose) (pts : list vec3) : R :=
  sum (length obs) (fun c => sum (length (nth c obs [])) (fun p =>
    dist2 (nth p (nth c obs []) (0, 0)) (seen (nth c cams nowhere) (nth p pts v3zero)))).
Definition in_view (n : nat) (cams : list pose) (pts : list vec3) : Prop :=
  forall c p, (c < n)%nat -> (p < length pts)%nat -> vz (papp (nth c cams nowhere) (nth p pts v3zero)) <> 0.
Definition n_params (nc np : nat) : nat := (nc * 7 + np * 3)%nat.
Definition cameras_unit (nc : nat) (v : vect) : Prop := forall c, (c < nc)%nat -> unit (rot (bundle_camera v c)).
Definition all_visible (nc np : nat) (v : vect) : Prop :=
  forall c p, (c < nc)%nat -> (p < np)%nat -> vz (papp (bundle_camera v c) (bundle_point nc v p)) <> 0.

(** ** C124: the Jacobian *)
Lemma entries_ok nc np x c p i : (c < nc)%nat -> (p < np)%nat ->
  NoDup (map fst (entries nc x c p i)) /\ forall k v, In (k, v) (entries nc x c p i) -> (k < n_params nc np)%nat.
Proof.
  intros Hc Hp. unfold entries, n_params. destruct (i =? 0)%nat; unfold bundle_rows; cbn [fst snd map]; split.
  1,3: repeat (constructor; [cbn [In]; lia|]); constructor.
  all: intros k v H; cbn [In] in H; repeat (destruct H as [H|H]; [injection H as <- _; lia|]); contradiction.
Qed.
Lemma loops_mvec nc np r x c p i e : (c < nc)%nat -> (p < np)%nat -> (i < 2)%nat ->
  mvec (n_params nc np) (snd (bundle_loops nc np r x)) e (2 * (c * np + p) + i)%nat =
  fold_right (fun cx s => snd cx * e (fst cx) + s) 0 (entries nc x c p i).
Proof.
  intros Hc Hp Hi. unfold mvec. destruct (loops_at nc np r x c p i Hc Hp Hi) as [_ ->].
  destruct (entries_ok nc np x c p i Hc Hp) as [H1 H2].
  rewrite written_sum; [|exact H1|exact H2|reflexivity].
  rewrite sum_zero by (intros; ring). ring.
Qed.

(** along every motion that keeps the quaternions normalised *)
Theorem bundle_jacobian : forall nc np r x, cameras_unit nc x -> all_visible nc np x ->
  derivative_on (cameras_unit nc) (n_params nc np) (2 * (nc * np))
    (fun v => fst (bundle_loops nc np r v)) x (snd (bundle_loops nc np r x)).
Proof.
  intros nc np r x HU HV g e Hg HS k Hk. destruct (row_of nc np k Hk) as (c & p & i & Hc & Hp & Hi & ->).
  rewrite loops_mvec by assumption.
  apply (is_derive_ext (fun h => hom_image nc (at_time g h) c p i)).
  - intros h. destruct (loops_at nc np r (at_time g h) c p i Hc Hp Hi) as [-> _].
    unfold hom_image, image, image_x, image_y. rewrite hom_papp_unit by exact (HS h c Hc). destruct (i =? 0)%nat; reflexivity.
  - apply (image_derivative nc (n_params nc np)); [exact Hc|unfold n_params; nia|exact Hi| |exact Hg].
    rewrite hom_papp_unit by exact (HU c Hc). apply HV; assumption.
Qed.
Print Assumptions bundle_jacobian.

(** the parameters of one camera at the origin and of one point *)
Definition one_one : vect := vlist [0; 0; 0; 1; 0; 0; 1; 1; 0; 1].
Example bundle_jacobian_case : cameras_unit 1 one_one /\ all_visible 1 1 one_one /\
  snd (bundle_loops 1 1 (fun _ => 0) one_one) 0%nat 7%nat = 1 / 2.
Proof.
  split; [|split].
  - intros c Hc. idx c Hc. unfold bundle_camera, unit, qnorm, one_one, vlist. cbn. ring.
  - intros c p Hc Hp. idx c Hc. idx p Hp. unfold one_one, bundle_camera, bundle_point, papp, qrot, v3add, vlist. cbn. lra.
  - unfold bundle_loops, one_one, vlist. cbn. field.
Qed.

(** but the optimizer moves the quaternion off the unit sphere, and there the projection is that of
    a different matrix from the one that was differentiated *)
Theorem bundle_jacobian_refuted : exists nc np x, cameras_unit nc x /\ all_visible nc np x /\
  ~ derivative (n_params nc np) (2 * (nc * np)) (fun v => fst (bundle_loops nc np (fun _ => 0) v)) x
      (snd (bundle_loops nc np (fun _ => 0) x)).
Proof.
  exists 1%nat, 1%nat, one_one. destruct bundle_jacobian_case as (H1 & H2 & _). split; [exact H1|]. split; [exact H2|].
  intros H.
  assert (D : is_derive (fun h => fst (bundle_loops 1 1 (fun _ => 0) (at_time (fun i h => one_one i + h * eye i 3%nat) h)) 0%nat) 0
                (mvec 10 (snd (bundle_loops 1 1 (fun _ => 0) one_one)) (fun i => eye i 3%nat) 0%nat)).
  { apply H; [|intros; exact I|cbn; lia]. intros i Hi. split; [ring|]. auto_derive; [exact I|ring]. }
  apply is_derive_unique in D. revert D. unfold mvec.
  rewrite (is_derive_unique _ _ 1).
  - unfold bundle_loops, one_one, vlist, eye. cbn. lra.
  - apply (is_derive_ext (fun h => (2 * ((1 + h) * (1 + h)) - 1) / (2 * ((1 + h) * (1 + h))))).
    + intros h. unfold bundle_loops, at_time, one_one, vlist, eye. cbn. unfold image_x, papp, qrot, v3add, bundle_camera, bundle_point. cbn.
      f_equal; ring.
    + auto_derive; [lra|]. field.
Qed.
Print Assumptions bundle_jacobian_refuted.

(** ** C125: observations and predictions *)
Theorem predictions_fill_the_rows : forall nc np r v,
  (forall c p i, (c < nc)%nat -> (p < np)%nat -> (i < 2)%nat ->
     fst (bundle_loops nc np r v) (2 * (c * np + p) + i)%nat =
     (if (i =? 0)%nat then fst else snd) (seen (bundle_camera v c) (bundle_point nc v p))) /\
  (forall k, (2 * (nc * np) <= k)%nat -> fst (bundle_loops nc np r v) k = r k).
Proof.
  intros nc np r v. split.
  - intros c p i Hc Hp Hi. destruct (loops_at nc np r v c p i Hc Hp Hi) as [-> _]. unfold image. destruct (i =? 0)%nat; reflexivity.
  - intros k Hk. unfold bundle_loops. destruct (fold_left _ _ _) as [[r1 res'] J'] eqn:E. cbn [fst].
    rewrite <- (length_seq_pairs nc np) in Hk.
    assert (G : forall L r0 res J r1 res' J', fold_left (bundle_step nc v) L (r0, res, J) = (r1, res', J') ->
              forall k, (r0 + 2 * length L <= k)%nat -> res' k = res k).
    { clear. induction L as [|[c p] L IH]; intros r0 res J r1 res' J' E k Hk; cbn [fold_left length] in *.
      - injection E as _ <- _. reflexivity.
      - unfold bundle_step at 2 in E. rewrite (IH _ _ _ _ _ _ E) by lia. unfold set_entry.
        assert (E1 : (k =? r0 + 1)%nat = false) by (apply Nat.eqb_neq; lia).
        assert (E2 : (k =? r0)%nat = false) by (apply Nat.eqb_neq; lia). rewrite E1, E2. reflexivity. }
    apply (G _ _ _ _ _ _ _ E). lia.
Qed.
Print Assumptions predictions_fill_the_rows.

(** packing *)
Lemma pack_camera cams pts nc c : (nc <= length cams)%nat -> (c < nc)%nat ->
  bundle_camera (vlist (pack nc cams pts)) c = nth c cams nowhere.
Proof.
  intros Hn Hc. unfold bundle_camera, vlist, pack.
  assert (L : forall a, length (pack_pose a) = 7%nat) by reflexivity.
  assert (Lc : length (firstn nc cams) = nc) by (rewrite firstn_length; lia).
  assert (F : nth c (firstn nc cams) nowhere = nth c cams nowhere)
    by (rewrite <- (firstn_skipn nc cams) at 2; rewrite app_nth1; [reflexivity|lia]).
  assert (E : forall i, (i < 7)%nat -> nth (c * 7 + i) (flat_map pack_pose (firstn nc cams) ++ flat_map pack_point pts) 0 =
     nth i (pack_pose (nth c cams nowhere)) 0).
  { intros i Hi. rewrite app_nth1 by (rewrite (length_blocks _ 7 _ L), Lc; nia).
    rewrite (nth_blocks pack_pose 7 _ c i nowhere 0 L Hi) by lia. rewrite F. reflexivity. }
  rewrite !E by lia. cbn [nth pack_pose]. destruct (nth c cams nowhere) as [[? ? ? ?] [? ? ?]]. reflexivity.
Qed.
Lemma pack_pt cams pts nc p : (nc <= length cams)%nat -> (p < length pts)%nat ->
  bundle_point nc (vlist (pack nc cams pts)) p = nth p pts v3zero.
Proof.
  intros Hn Hp. unfold bundle_point, vlist, pack.
  assert (L : forall a, length (pack_pose a) = 7%nat) by reflexivity.
  assert (L3 : forall a, length (pack_point a) = 3%nat) by reflexivity.
  assert (Lc : length (firstn nc cams) = nc) by (rewrite firstn_length; lia).
  assert (E : forall i, (i < 3)%nat -> nth (nc * 7 + p * 3 + i) (flat_map pack_pose (firstn nc cams) ++ flat_map pack_point pts) 0 =
     nth i (pack_point (nth p pts v3zero)) 0).
  { intros i Hi. rewrite app_nth2; rewrite (length_blocks _ 7 _ L), Lc; [|lia].
    replace (nc * 7 + p * 3 + i - nc * 7)%nat with (p * 3 + i)%nat by lia.
    apply (nth_blocks pack_point 3 _ p i v3zero 0 L3 Hi Hp). }
  rewrite !E by lia. cbn [nth pack_point]. destruct (nth p pts v3zero). reflexivity.
Qed.
Lemma pack_obs obs np c p i : (forall o, In o obs -> length o = np) -> (c < length obs)%nat -> (p < np)%nat -> (i < 2)%nat ->
  vlist (pack_observations obs) (2 * (c * np + p) + i)%nat =
  (if (i =? 0)%nat then fst else snd) (nth p (nth c obs []) (0, 0)).
Proof.
  intros Ho Hc Hp Hi. unfold vlist, pack_observations. rewrite (Nat.mul_comm 2).
  rewrite (nth_blocks (fun uv : R * R => [fst uv; snd uv]) 2 _ _ i (0, 0) 0); [|reflexivity|exact Hi|].
  - rewrite (nth_concat_equal obs np) by assumption. idx i Hi; reflexivity.
  - rewrite (length_concat_equal obs np Ho). nia.
Qed.

Lemma sum_rows n np (f : nat -> R) :
  sum (2 * (n * np)) f = sum n (fun c => sum np (fun p => f (2 * (c * np + p))%nat + f (2 * (c * np + p) + 1)%nat)).
Proof.
  assert (S2 : forall m g, sum (2 * m) g = sum m (fun k => g (2 * k)%nat + g (2 * k + 1)%nat)).
  { induction m as [|m IH]; intros g; [reflexivity|]. replace (2 * S m)%nat with (S (S (2 * m))) by lia. cbn [sum].
    rewrite IH. replace (S (2 * m)) with (2 * m + 1)%nat by lia. ring. }
  rewrite S2. induction n as [|n IH]; [reflexivity|]. cbn [sum]. rewrite <- IH.
  replace (S n * np)%nat with (n * np + np)%nat by lia. rewrite sum_split. reflexivity.
Qed.
Lemma depths_ok_true nc np v : all_visible nc np v -> depths_ok nc np v = true.
Proof.
  intros HV. unfold depths_ok. apply forallb_forall. intros [c p] Hin. apply in_prod_iff in Hin. destruct Hin as [Hc Hp].
  apply in_seq in Hc, Hp. cbn [fst snd]. unfold depth. destruct (Req_EM_T _ 0) as [E|]; [|reflexivity].
  exfalso. apply (HV c p); [lia|lia|exact E].
Qed.
Lemma depths_ok_visible nc np v : depths_ok nc np v = true -> all_visible nc np v.
Proof.
  unfold depths_ok. rewrite forallb_forall. intros H c p Hc Hp E.
  specialize (H (c, p)). cbn [fst snd] in H. unfold depth in H. destruct (Req_EM_T _ 0) as [_|N]; [|exact (N E)].
  discriminate H. apply in_prod_iff. split; apply in_seq; lia.
Qed.
Lemma sum_of_squares_bundle obs np v : (forall o, In o obs -> length o = np) -> all_visible (length obs) np v ->
  sum_of_squares (2 * (length obs * np)) (bundle_eval (length obs) np) None (vlist (pack_observations obs)) v =
  Some (sum (length obs) (fun c => sum np (fun p =>
    dist2 (nth p (nth c obs []) (0, 0)) (seen (bundle_camera v c) (bundle_point (length obs) v p))))).
Proof.
  intros Ho HV. unfold sum_of_squares, bundle_eval. rewrite depths_ok_true by exact HV.
  destruct (bundle_loops (length obs) np (fun _ => 0) v) as [e J] eqn:E. f_equal. rewrite sum_rows.
  apply sum_ext. intros c Hc. apply sum_ext. intros p Hp.
  destruct (loops_at (length obs) np (fun _ => 0) v c p 0 Hc Hp ltac:(lia)) as [A _].
  destruct (loops_at (length obs) np (fun _ => 0) v c p 1 Hc Hp ltac:(lia)) as [B _].
  rewrite E in A, B. cbn [fst] in A, B. rewrite Nat.add_0_r in A. rewrite A, B.
  pose proof (pack_obs obs np c p 0 Ho Hc Hp ltac:(lia)) as C. rewrite Nat.add_0_r in C.
  rewrite C, (pack_obs obs np c p 1 Ho Hc Hp ltac:(lia)). reflexivity.
Qed.

(** when every camera observes every point, the optimizer minimises the reprojection error *)
Theorem full_visibility_objective : forall obs cams pts,
  (forall o, In o obs -> length o = length pts) -> (length obs <= length cams)%nat -> in_view (length obs) cams pts ->
  sum_of_squares (2 * length (concat obs)) (bundle_eval (length obs) (length pts)) None
    (vlist (pack_observations obs)) (vlist (pack (length obs) cams pts)) =
  Some (reprojection_error obs cams pts).
Proof.
  intros obs cams pts Ho HL HV. rewrite (length_concat_equal obs _ Ho), sum_of_squares_bundle.
  - f_equal. unfold reprojection_error. apply sum_ext. intros c Hc.
    rewrite (Ho (nth c obs [])) by (apply nth_In; exact Hc). apply sum_ext. intros p Hp.
    rewrite pack_camera, pack_pt by assumption. reflexivity.
  - exact Ho.
  - intros c p Hc Hp. rewrite pack_camera, pack_pt by assumption. apply HV; assumption.
Qed.
Print Assumptions full_visibility_objective.

(** two cameras, two points; the first camera misses a point and the second reports one twice *)
Definition cam_a : pose := P qone (V3 0 0 1).
Definition cam_b : pose := P qone (V3 1 0 1).
Definition pt_a : vec3 := V3 0 0 1.
Definition pt_b : vec3 := V3 2 2 1.
Example full_visibility_case :
  reprojection_error [[(0, 0); (1, 1)]; [(1 / 2, 0); (3 / 2, 2)]] [cam_a; cam_b] [pt_a; pt_b] = 1 /\
  in_view 2 [cam_a; cam_b] [pt_a; pt_b].
Proof.
  split.
  - unfold reprojection_error, dist2, seen, papp, qrot, v3add, cam_a, cam_b, pt_a, pt_b, qone. cbn. field.
  - intros c p Hc Hp. cbn in Hp. idx c Hc; idx p Hp; unfold papp, qrot, v3add, cam_a, cam_b, pt_a, pt_b, qone; cbn; lra.
Qed.

(** The comment at BundleAdjustment.cpp:238 allows the number of points to differ from that of the
    observations.  But as soon as one camera does not see one of the points, predictions are written
    behind the end of the result vector, which is as long as the vector of the observations. *)
Lemma concat_short {A} (obs : list (list A)) np : (forall o, In o obs -> (length o <= np)%nat) ->
  (length (concat obs) <= length obs * np)%nat.
Proof.
  induction obs as [|o obs IH]; intros Ho; [cbn; lia|]. cbn [concat length]. rewrite app_length.
  pose proof (Ho o (or_introl eq_refl)). assert (E : (length (concat obs) <= length obs * np)%nat) by (apply IH; intros; apply Ho; right; assumption). lia.
Qed.
Lemma concat_shorter {A} (obs : list (list A)) np : (forall o, In o obs -> (length o <= np)%nat) ->
  (exists o, In o obs /\ (length o < np)%nat) -> (length (concat obs) < length obs * np)%nat.
Proof.
  induction obs as [|o obs IH]; intros Ho (s & Hs & Hl); [contradiction|]. cbn [concat length]. rewrite app_length.
  pose proof (Ho o (or_introl eq_refl)) as H1.
  assert (H2 : (length (concat obs) <= length obs * np)%nat) by (apply concat_short; intros; apply Ho; right; assumption).
  destruct Hs as [->|Hs]; [lia|].
  assert (H3 : (length (concat obs) < length obs * np)%nat) by (apply IH; [intros; apply Ho; right; assumption|exists s; auto]). lia.
Qed.
Theorem partial_visibility_refuted : forall (obs : list (list (R * R))) (cams : list pose) (pts : list vec3),
  (forall o, In o obs -> (length o <= length pts)%nat) -> (exists o, In o obs /\ (length o < length pts)%nat) ->
  (length obs <= length cams)%nat ->
  exists c p, (c < length obs)%nat /\ (p < length pts)%nat /\ (2 * length (concat obs) <= 2 * (c * length pts + p))%nat /\
    forall r, fst (bundle_loops (length obs) (length pts) r (vlist (pack (length obs) cams pts))) (2 * (c * length pts + p))%nat =
              fst (seen (nth c cams nowhere) (nth p pts v3zero)).
Proof.
  intros obs cams pts Ho Hs HL. pose proof (concat_shorter obs _ Ho Hs) as Hc.
  exists (length obs - 1)%nat, (length pts - 1)%nat.
  assert (0 < length obs)%nat by nia. assert (0 < length pts)%nat by nia.
  assert (E : ((length obs - 1) * length pts + (length pts - 1) + 1 = length obs * length pts)%nat) by nia.
  split; [lia|]. split; [lia|]. split; [lia|].
  intros r. destruct (predictions_fill_the_rows (length obs) (length pts) r (vlist (pack (length obs) cams pts))) as [F _].
  specialize (F (length obs - 1)%nat (length pts - 1)%nat 0%nat ltac:(lia) ltac:(lia) ltac:(lia)).
  rewrite Nat.add_0_r in F. rewrite F, pack_camera, pack_pt by lia. reflexivity.
Qed.
Print Assumptions partial_visibility_refuted.
Example partial_visibility_case : simple_bundle (fun _ _ => Failure) [((0, 0) :: nil); [(1 / 2, 0); (3 / 2, 1)]] [cam_a; cam_b] [pt_a; pt_b] = Undefined.
Proof. reflexivity. Qed.

(** ** C126: the poses and points that come back *)
Lemma normalize_unit q : unit q -> qnormalize q = Some q.
Proof.
  unfold unit. intros U. unfold qnormalize. rewrite U, sqrt_1. destruct (Req_EM_T 1 0); [lra|].
  destruct q. cbn. f_equal. f_equal; field.
Qed.
Theorem bundle_roundtrip : forall cams pts nc, (nc <= length cams)%nat -> (forall c, In c cams -> rigid c) ->
  unpack_poses nc (vlist (pack nc cams pts)) = map Some (firstn nc cams) /\
  unpack_points nc (length pts) (vlist (pack nc cams pts)) = pts.
Proof.
  intros cams pts nc Hn HU. split.
  - apply (nth_ext _ _ None None); unfold unpack_poses; rewrite !map_length, seq_length; [rewrite firstn_length; lia|].
    intros c Hc. rewrite (nth_indep _ None (unpack_pose (vlist (pack nc cams pts)) 0)) by (rewrite map_length, seq_length; exact Hc).
    rewrite map_nth, seq_nth by exact Hc. cbn [Nat.add]. unfold unpack_pose. rewrite pack_camera by assumption.
    rewrite normalize_unit by (apply HU, nth_In; lia).
    rewrite (nth_indep _ None (Some nowhere)) by (rewrite map_length, firstn_length; lia). rewrite map_nth.
    assert (F : nth c (firstn nc cams) nowhere = nth c cams nowhere).
    { rewrite <- (firstn_skipn nc cams) at 2. rewrite app_nth1; [reflexivity|]. rewrite firstn_length. lia. }
    rewrite F. destruct (nth c cams nowhere). reflexivity.
  - apply (nth_ext _ _ v3zero v3zero); unfold unpack_points; rewrite !map_length, seq_length; [reflexivity|].
    intros p Hp. rewrite (nth_indep _ v3zero (bundle_point nc (vlist (pack nc cams pts)) 0)) by (rewrite map_length, seq_length; exact Hp).
    rewrite map_nth, seq_nth by exact Hp. apply pack_pt; assumption.
Qed.
Print Assumptions bundle_roundtrip.

Theorem bundle_poses_are_rigid : forall v c p, unpack_pose v c = Some p -> rigid p.
Proof.
  intros v c p. unfold unpack_pose. destruct (qnormalize _) as [q|] eqn:E; [|discriminate]. intros H. injection H as <-.
  exact (AverageProps.qnormalize_unit _ _ E).
Qed.
Print Assumptions bundle_poses_are_rigid.

(** ends within ten iterations, one more when Cholesky is replaced *)
Theorem bundle_terminates : forall lin obs cams pts, simple_bundle lin obs cams pts <> Unfinished.
Proof.
  intros lin obs cams pts. unfold simple_bundle. destruct (_ <? _)%nat; [discriminate|]. destruct (_ =? _)%nat; [|discriminate].
  destruct (levenberg_marquardt _ _ _ _ _ _ _ _ _ _ _ _) eqn:E; try discriminate.
  exfalso. revert E. change 11%nat with (10 + 1)%nat. apply lm_terminates_within_limit. lia.
Qed.
Print Assumptions bundle_terminates.

(** the error the optimizer ends with is that of the parameters it ends with *)
Theorem bundle_final_error : forall lin obs cams pts v e,
  (forall o, In o obs -> length o = length pts) ->
  simple_bundle lin obs cams pts = Finished (Some v) (Some e) ->
  e = sum (length obs) (fun c => sum (length pts) (fun p =>
    dist2 (nth p (nth c obs []) (0, 0)) (seen (bundle_camera v c) (bundle_point (length obs) v p)))).
Proof.
  intros lin obs cams pts v e Ho. unfold simple_bundle. destruct (_ <? _)%nat; [discriminate|]. destruct (_ =? _)%nat; [|discriminate].
  destruct (levenberg_marquardt _ _ _ _ _ _ _ _ _ _ _ _) as [p' e'| |] eqn:E; try discriminate. intros H. injection H as -> ->.
  apply lm_reports_its_residual in E; [|exact I]. rewrite (length_concat_equal obs _ Ho) in E.
  destruct (depths_ok (length obs) (length pts) v) eqn:HD.
  - apply depths_ok_visible in HD. rewrite sum_of_squares_bundle in E by assumption. congruence.
  - unfold sum_of_squares, bundle_eval in E. rewrite HD in E. discriminate.
Qed.
Print Assumptions bundle_final_error.

(** the parameters that are read *)
Lemma camera_local nc np v w c : veq (n_params nc np) v w -> (c < nc)%nat -> bundle_camera v c = bundle_camera w c.
Proof. intros H Hc. unfold n_params in H. unfold bundle_camera. rewrite !H by lia. reflexivity. Qed.
Lemma point_local nc np v w p : veq (n_params nc np) v w -> (p < np)%nat -> bundle_point nc v p = bundle_point nc w p.
Proof. intros H Hp. unfold n_params in H. unfold bundle_point. rewrite !H by lia. reflexivity. Qed.

(** contract of the LAPACK solvers: a solution solves the system *)
Definition solves (n : nat) (lin : solver -> option (mat * vect) -> lapack) : Prop :=
  forall k A b r, lin k (Some (A, b)) = Solution r -> exists x, r = Some x /\ veq n (mvec n A x) b.

Lemma damped_zero m n J d lam x : 0 < lam -> (forall i, (i < m)%nat -> d i = 0) ->
  veq n (mvec n (madd (mmul m (tr J) J) (mscale lam eye)) x) (mvec m (tr J) d) -> forall i, (i < n)%nat -> x i = 0.
Proof.
  intros Hl Hd H i Hi. destruct (Req_dec (x i) 0) as [E|N]; [exact E|]. exfalso.
  assert (X : exists i, (i < n)%nat /\ x i <> 0) by (exists i; auto).
  pose proof (lm_step_decreases_linearisation m n J d x lam H Hl X) as L.
  pose proof (vdot_self_nonneg m (vsub d (mvec n J x))) as P.
  assert (Z : vdot m d d = 0) by (unfold vdot; apply sum_zero; intros k Hk; rewrite Hd by exact Hk; ring). lra.
Qed.

(** the state of the optimizer while the observations are explained exactly *)
Definition stays (nc np : nat) (w : vect) (s : state) : Prop :=
  params s = Some w /\ err_prev s = Some 0 /\ 0 < lambda s /\
  exists d J, lin_prev s = Some (d, J) /\ (forall k, (k < 2 * (nc * np))%nat -> d k = 0).
Lemma exact_rounds lin obs cams pts :
  (forall o, In o obs -> length o = length pts) -> (length obs <= length cams)%nat ->
  in_view (length obs) cams pts -> reprojection_error obs cams pts = 0 ->
  solves (n_params (length obs) (length pts)) lin ->
  let nc := length obs in let np := length pts in let w := vlist (pack nc cams pts) in
  let meas := vlist (pack_observations obs) in
  let round := LevMarq.round (2 * (nc * np)) (bundle_eval nc np) None (fun x => x) lin (opt_terminate 10 (1 / 1000000)) meas 10 in
  stays nc np w (initial (2 * (nc * np)) (bundle_eval nc np) None meas w 1 Cholesky) /\
  (forall s s' b, stays nc np w s -> round s = Some (s', b) -> stays nc np w s') /\
  ((forall k A b, (forall i, b i = 0) -> lin k (Some (A, b)) <> Failure) ->
   (forall s, stays nc np w s -> exists s' b, round s = Some (s', b))).
Proof.
  intros Ho HL HV HZ HS nc np w meas round.
  pose proof (full_visibility_objective obs cams pts Ho HL HV) as HO. rewrite HZ in HO.
  assert (LC := length_concat_equal obs _ Ho). rewrite LC in HO. fold nc np w meas in HO.
  assert (W : all_visible nc np w).
  { intros c p Hc Hp. unfold w. rewrite pack_camera, pack_pt by assumption. apply HV; assumption. }
  unfold sum_of_squares, bundle_eval in HO. rewrite depths_ok_true in HO by exact W.
  assert (D : forall k u, (k < 2 * (nc * np))%nat -> veq (n_params nc np) u w ->
              meas k - fst (bundle_loops nc np (fun _ => 0) u) k = 0).
  { intros k u Hk Hu. destruct (row_of nc np k Hk) as (c & p & i & Hc & Hp & Hi & ->).
    destruct (loops_at nc np (fun _ => 0) u c p i Hc Hp Hi) as [-> _].
    replace (image nc u c p i) with (fst (bundle_loops nc np (fun _ => 0) w) (2 * (c * np + p) + i)%nat).
    2:{ destruct (loops_at nc np (fun _ => 0) w c p i Hc Hp Hi) as [-> _]. unfold image.
        rewrite (camera_local nc np u w c Hu Hc), (point_local nc np u w p Hu Hp). reflexivity. }
    destruct (bundle_loops nc np (fun _ => 0) w) as [est J] eqn:EL. injection HO as HO. cbn [fst].
    assert (Z := sum_nonneg_zero (2 * (nc * np)) (fun k => (meas k - est k) * (meas k - est k))).
    assert (Q := Z ltac:(intros; apply Rle_0_sqr) HO _ Hk). cbv beta in Q.
    destruct (Rmult_integral _ _ Q); assumption. }
  assert (R0 : forall u l, veq (n_params nc np) u w -> linearise (bundle_eval nc np) None meas (Some u) = l ->
     exists d J, l = Some (d, J) /\ (forall k, (k < 2 * (nc * np))%nat -> d k = 0)).
  { intros u l Hu <-. unfold linearise, bundle_eval. rewrite depths_ok_true.
    - destruct (bundle_loops nc np (fun _ => 0) u) as [est J] eqn:EL. exists (vsub meas est), J. split; [reflexivity|].
      intros k Hk. pose proof (D k u Hk Hu) as Q. rewrite EL in Q. exact Q.
    - intros c p Hc Hp. rewrite (camera_local nc np u w c Hu Hc), (point_local nc np u w p Hu Hp). apply W; assumption. }
  assert (RZ : forall d J, (forall k, (k < 2 * (nc * np))%nat -> d k = 0) -> residual (2 * (nc * np)) (Some (d, J)) = Some 0).
  { intros d J Hd. unfold residual. cbn [option_map fst]. f_equal. unfold vdot. apply sum_zero. intros k Hk. rewrite Hd by exact Hk. ring. }
  split; [|split].
  - unfold stays, initial. cbn [params err_prev lambda lin_prev].
    destruct (R0 w _ ltac:(intros i Hi; reflexivity) eq_refl) as (d & J & EQ & Hd). rewrite EQ.
    split; [reflexivity|]. split; [apply RZ; exact Hd|]. split; [lra|]. exists d, J. auto.
  - intros s s' b (I1 & I2 & I3 & d & J & I4 & I5) HR. unfold stays. unfold round, LevMarq.round in HR. rewrite I4 in HR.
    unfold normal_equations in HR. cbn [option_map fst snd] in HR.
    destruct (lin (kind s) _) as [dx|] eqn:EL.
    + destruct (HS _ _ _ _ EL) as (x & -> & Hx). pose proof (damped_zero _ _ _ _ _ _ I3 I5 Hx) as Hx0.
      rewrite I1 in HR. destruct (R0 (vadd w x) _ ltac:(intros i Hi; unfold vadd; rewrite Hx0 by exact Hi; ring) eq_refl) as (d' & J' & EQ & Hd').
      rewrite EQ, RZ in HR by exact Hd'. rewrite I2 in HR. cbv zeta in HR. cbn [ge] in HR.
      destruct (Rle_dec 0 0) as [_|N]; [|exfalso; apply N; lra].
      injection HR as <- _. cbn [params err_prev lambda lin_prev]. repeat split; try lra. exists d, J. auto.
    + destruct (kind s); try discriminate. injection HR as <- _. cbn [params err_prev lambda lin_prev]. repeat split; try assumption. exists d, J. auto.
  - intros HF s (I1 & I2 & I3 & d & J & I4 & I5). unfold round, LevMarq.round. rewrite I4. unfold normal_equations. cbn [option_map fst snd].
    destruct (lin (kind s) _) as [dx|] eqn:EL.
    + cbv zeta. destruct (ge _ _); do 2 eexists; reflexivity.
    + exfalso. revert EL. apply HF. intros i. unfold mvec. apply sum_zero. intros k Hk. rewrite I5 by exact Hk. ring.
Qed.

(** cameras and points that explain the observations exactly are returned as they are *)
Theorem exact_data_unchanged : forall lin obs cams pts v e,
  (forall o, In o obs -> length o = length pts) -> (length obs <= length cams)%nat -> (forall c, In c cams -> rigid c) ->
  in_view (length obs) cams pts -> reprojection_error obs cams pts = 0 ->
  solves (n_params (length obs) (length pts)) lin ->
  simple_bundle lin obs cams pts = Finished v e ->
  e = Some 0 /\ exists w, v = Some w /\ unpack_poses (length obs) w = map Some (firstn (length obs) cams) /\
    unpack_points (length obs) (length pts) w = pts.
Proof.
  intros lin obs cams pts v e Ho HL HU HV HZ HS H.
  destruct (exact_rounds lin obs cams pts Ho HL HV HZ HS) as (I0 & IS & _).
  unfold simple_bundle in H.
  assert (E1 : (length cams <? length obs)%nat = false) by (apply Nat.ltb_ge; exact HL). rewrite E1 in H.
  rewrite (length_concat_equal obs _ Ho), Nat.eqb_refl in H.
  destruct (levenberg_marquardt _ _ _ _ _ _ _ _ _ _ _ _) as [v' e'| |] eqn:E; try discriminate. injection H as -> ->.
  unfold levenberg_marquardt in E.
  destruct (loop_invariant _ _ _ _ _ _ _ _ _ _ (stays (length obs) (length pts) (vlist (pack (length obs) cams pts))) v e IS I0 E)
    as (s & (I1 & I2 & _) & -> & ->).
  split; [exact I2|]. exists (vlist (pack (length obs) cams pts)). split; [exact I1|]. exact (bundle_roundtrip cams pts _ HL HU).
Qed.
Print Assumptions exact_data_unchanged.

(** a solver that can only solve for zero suffices here *)
Definition zero_lin (n : nat) (k : solver) (s : option (mat * vect)) : lapack :=
  match s with
  | Some (_, b) => if forallb (fun i => if Req_EM_T (b i) 0 then true else false) (seq 0 n) then Solution (Some (fun _ => 0)) else Failure
  | None => Failure
  end.
Example exact_data_case :
  let obs := [[(0, 0); (1, 1)]; [(1 / 2, 0); (3 / 2, 1)]] in
  reprojection_error obs [cam_a; cam_b] [pt_a; pt_b] = 0 /\ solves (n_params 2 2) (zero_lin (n_params 2 2)) /\
  exists v e, simple_bundle (zero_lin (n_params 2 2)) obs [cam_a; cam_b] [pt_a; pt_b] = Finished v e.
Proof.
  intros obs.
  assert (R0 : reprojection_error obs [cam_a; cam_b] [pt_a; pt_b] = 0).
  { unfold obs, reprojection_error, dist2, seen, papp, qrot, v3add, cam_a, cam_b, pt_a, pt_b, qone. cbn. field. }
  assert (S0 : solves (n_params 2 2) (zero_lin (n_params 2 2))).
  { intros k A b r H. unfold zero_lin in H. destruct (forallb _ _) eqn:E; [|discriminate]. injection H as <-.
    eexists. split; [reflexivity|]. intros i Hi. rewrite forallb_forall in E. specialize (E i ltac:(apply in_seq; lia)).
    destruct (Req_EM_T (b i) 0) as [->|]; [|discriminate]. unfold mvec. apply sum_zero. intros. ring. }
  split; [exact R0|]. split; [exact S0|].
  assert (Ho : forall o, In o obs -> length o = length [pt_a; pt_b]) by (intros o [<-|[<-|[]]]; reflexivity).
  destruct (exact_rounds (zero_lin (n_params 2 2)) obs [cam_a; cam_b] [pt_a; pt_b] Ho ltac:(cbn; lia) (proj2 full_visibility_case) R0 S0)
    as (I0 & IS & IP).
  specialize (IP ltac:(intros k A b Hb; unfold zero_lin; rewrite (proj2 (forallb_forall _ _)); [discriminate|];
    intros i _; rewrite Hb; destruct (Req_EM_T 0 0); [reflexivity|congruence])).
  pose proof (bundle_terminates (zero_lin (n_params 2 2)) obs [cam_a; cam_b] [pt_a; pt_b]) as T.
  unfold simple_bundle in *. cbn [length obs concat app Nat.ltb Nat.leb Nat.eqb Nat.mul Nat.add] in *.
  destruct (levenberg_marquardt _ _ _ _ _ _ _ _ _ _ _ _) as [v e| |] eqn:E; [exists v, e; reflexivity| |congruence].
  exfalso. unfold levenberg_marquardt in E. revert I0 E. generalize 11%nat.
  match goal with |- forall n, stays _ _ _ ?s -> _ => generalize s end.
  intros s n. revert s. induction n as [|n IH]; intros s I0 E; [discriminate|]. cbn [loop] in E.
  destruct (IP s I0) as (s' & b & HR). cbn [length obs concat app Nat.ltb Nat.leb Nat.eqb Nat.mul Nat.add] in HR. rewrite HR in E. destruct b; [discriminate|].
  exact (IH s' (IS s s' false I0 HR) E).
Qed.

(** The optimizer rates the unnormalised quaternions with the formula for unit quaternions and the
    caller gets the normalised ones: their error is not the one that was minimised. *)
Theorem normalised_error_refuted : exists v pose,
  unpack_pose v 0 = Some pose /\ all_visible 1 1 v /\ seen pose (bundle_point 1 v 0) <> seen (bundle_camera v 0) (bundle_point 1 v 0).
Proof.
  exists (vlist [0; 0; 0; 2; 0; 0; 1; 1; 0; 1]), (P qone (V3 0 0 1)). split; [|split].
  - unfold unpack_pose, bundle_camera, qnormalize, qnorm, vlist. cbn.
    replace (0 * 0 + 0 * 0 + 0 * 0 + 2 * 2) with (2 * 2) by ring. rewrite sqrt_square by lra.
    destruct (Req_EM_T 2 0); [lra|]. unfold qone. f_equal. f_equal. f_equal; field.
  - intros c p Hc Hp. idx c Hc. idx p Hp. unfold bundle_camera, bundle_point, papp, qrot, v3add, vlist. cbn. lra.
  - unfold seen, bundle_camera, bundle_point, papp, qrot, v3add, vlist, qone. cbn. intros E. injection E as E1 _. revert E1.
    match goal with |- ?a / ?b = ?c / ?d -> False => replace (a / b) with (1 / 2) by field; replace (c / d) with (7 / 8) by field end. lra.
Qed.
Print Assumptions normalised_error_refuted.
Theorem normalised_error : forall nc np (obs : list (list (R * R))) v cams, cameras_unit nc v ->
  unpack_poses nc v = map Some cams -> forall c p, (c < nc)%nat -> (p < np)%nat ->
  seen (nth c cams nowhere) (nth p (unpack_points nc np v) v3zero) = seen (bundle_camera v c) (bundle_point nc v p).
Proof.
  intros nc np obs v cams HU HC c p Hc Hp.
  assert (LC : length cams = nc) by (rewrite <- (map_length Some cams), <- HC; unfold unpack_poses; rewrite map_length, seq_length; reflexivity).
  assert (E : Some (nth c cams nowhere) = Some (bundle_camera v c)).
  { rewrite <- (map_nth Some), <- HC. unfold unpack_poses.
    rewrite (nth_indep _ (Some nowhere) (unpack_pose v 0)) by (rewrite map_length, seq_length; exact Hc).
    rewrite map_nth, seq_nth by exact Hc. cbn [Nat.add]. unfold unpack_pose. rewrite normalize_unit by exact (HU c Hc).
    destruct (bundle_camera v c). reflexivity. }
  injection E as ->. unfold unpack_points.
  rewrite (nth_indep _ v3zero (bundle_point nc v 0)) by (rewrite map_length, seq_length; exact Hp).
  rewrite map_nth, seq_nth by exact Hp. reflexivity.
Qed.
Print Assumptions normalised_error.

(** ** C127: the freedom that remains *)
Theorem bundle_gauge : forall obs cams pts g s, rigid g -> s <> 0 -> (forall c, In c cams -> rigid c) ->
  (length obs <= length cams)%nat -> (forall o, In o obs -> (length o <= length pts)%nat) -> in_view (length obs) cams pts ->
  reprojection_error obs (map (fun c => pscale (pmul c (pinv g)) s) cams) (map (fun x => v3scale s (papp g x)) pts) =
  reprojection_error obs cams pts.
Proof.
  intros obs cams pts g s Hg Hs HU HL Ho HV. unfold reprojection_error. apply sum_ext. intros c Hc. apply sum_ext. intros p Hp.
  assert (Hp' : (p < length pts)%nat) by (pose proof (Ho (nth c obs []) ltac:(apply nth_In; exact Hc)); lia).
  rewrite (nth_indep _ nowhere (pscale (pmul nowhere (pinv g)) s)) by (rewrite map_length; lia).
  rewrite (map_nth (fun c => pscale (pmul c (pinv g)) s)).
  rewrite (nth_indep _ v3zero (v3scale s (papp g v3zero))) by (rewrite map_length; lia).
  rewrite (map_nth (fun x => v3scale s (papp g x))).
  specialize (HV c p Hc Hp'). set (C := nth c cams nowhere) in *. set (x := nth p pts v3zero) in *.
  assert (RC : rigid C) by (apply HU, nth_In; lia).
  assert (E : papp (pscale (pmul C (pinv g)) s) (v3scale s (papp g x)) = v3scale s (papp C x)).
  { transitivity (v3scale s (papp (pmul C (pinv g)) (papp g x))).
    - generalize (pmul C (pinv g)) (papp g x). intros [[? ? ? ?] [? ? ?]] [? ? ?].
      unfold papp, pscale, v3scale, qrot, v3add. cbn. f_equal; ring.
    - rewrite pose_action_compose; [|exact RC|apply (pose_rigid_closed g g); assumption].
      destruct (pose_inverse g Hg) as (_ & _ & _ & I & _). rewrite I. reflexivity. }
  unfold seen. rewrite E. unfold v3scale. cbn [vx vy vz]. f_equal. f_equal; field; auto.
Qed.
Print Assumptions bundle_gauge.

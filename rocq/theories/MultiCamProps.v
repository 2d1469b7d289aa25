(** Pose of an object seen by several cameras (C143 - C146). *)
From Coq Require Import Reals Lra Lia List ZArith Arith Bool FunctionalExtensionality.
Import ListNotations.
From Verif Require Import AbsOrientProofs OrthoIterProofs Mat Quat QuatProofs QuatMatProofs QuatTrigProofs QuatProps Jacobians LevMarq LevMarqProofs LevMarqProps AbsOrient NewFunction NewFunctionProofs NewFunctionProps
  Dlt BackProp PlanarPose PlanarPoseProps PlanarInitProps PlanarFitProps MultiCam MultiCamProofs.
Open Scope R_scope.

(** * Specification: the squared distances in the images of all cameras, over the points they see *)
Section spec.
Variables (p3d : list vec3) (p2d : list (list image)) (w : list (list R)) (poses : list pose) (mats : list mat).
Definition weight (c i : nat) : R := nth i (nth c w []) 0.
Definition visible_points (l : list nat) (c : nat) : list nat := filter (fun i => if Req_EM_T (weight c i) 0 then false else true) l.
(** the pose p takes the object to the world, the pose of camera c the world to the camera *)
Definition view (c : nat) (p : pose) (i : nat) : vect := mvec 3 (nth c mats eye) (of3 (papp (nth c poses pone) (papp p (nth i p3d v3zero)))).
Definition view_error (c : nat) (p : pose) (i : nat) : R :=
  let y := view c p i in let uv := nth i (nth c p2d []) (0, 0) in
  (y 0%nat / y 2%nat - fst uv) * (y 0%nat / y 2%nat - fst uv) + (y 1%nat / y 2%nat - snd uv) * (y 1%nat / y 2%nat - snd uv).
Definition total_error (l : list nat) (p : pose) : R := lsum (fun c => lsum (view_error c p) (visible_points l c)) (seq 0 (length w)).
Definition all_in_view (l : list nat) (p : pose) : Prop :=
  forall c i, (c < length w)%nat -> In i l -> weight c i <> 0 -> view c p i 2%nat <> 0.
End spec.

Section theorems.
Variables (svd : gesvd_vt) (svd32 svd33 : gesvd3) (inv : mat -> mat) (lin : solver -> option (mat * vect) -> lapack).
Variables (p3d : list vec3) (p2d : list (list image)) (w : list (list R)) (poses : list pose) (mats : list mat).
Hypothesis OK : check_consistency p3d p2d w poses mats = true.
(** the number of points is an int; there is a camera; poses are rigid motions *)
Hypothesis SMALL : (Z.of_nat (length p3d) < 2 ^ 31)%Z.
Hypothesis CAMERA : (0 < length w)%nat.
Hypothesis RIGID : forall c, In c poses -> rigid c.
Notation est := (estimate_pose svd svd32 svd33 inv lin p3d p2d w poses mats).
Notation vis := (visible_points w).

Lemma rigid_nth c : rigid (nth c poses pone).
Proof.
  destruct (Nat.lt_ge_cases c (length poses)); [apply RIGID, nth_In; assumption|rewrite nth_overflow by assumption].
  unfold rigid, pone, unit, qnorm. cbn. lra.
Qed.
Lemma view_error_observed c p i : rigid p -> view_error p3d p2d poses mats c p i = observed poses mats p (nth i p3d v3zero) c (nth i (nth c p2d []) (0, 0)).
Proof.
  intros U. unfold view_error, view, observed, point_error, cam_matrix. cbv zeta. rewrite papp_mul; [reflexivity|apply rigid_nth|exact U].
Qed.

(** what is collected from the points start, ..., start + n - 1 *)
Lemma collected_range start n : (0 < n)%nat -> (start + n <= length p3d)%nat ->
  exists s, collect p3d p2d w (Z.of_nat start) (Z.of_nat (start + n) - 1) = Some s /\
  let l := seq start n in
  observations s = flat_map (fun c => map (fun i => ((i - start)%nat, c)) (vis l c)) (seq 0 (length w)) /\
  p3d_local s = map (fun i => nth i p3d v3zero) l /\
  (forall c, (c < length w)%nat -> p3d_filtered s c = map (fun i => nth i p3d v3zero) (vis l c) /\
     p2d_local s c = map (fun i => nth i (nth c p2d []) (0, 0)) (vis l c) /\ count s c = length (vis l c)) /\
  (forall c, (length w <= c)%nat -> p3d_filtered s c = [] /\ p2d_local s c = [] /\ count s c = O) /\ total s = length (observations s).
Proof.
  destruct (check_consistency_spec _ _ _ _ _ OK) as (H3 & HL & _ & _ & HC). intros Hn Hs.
  apply (collect_range p3d p2d w HL HC); try assumption. unfold in_int. lia.
Qed.

Lemma measurements_sum start n s p : (0 < n)%nat -> (start + n <= length p3d)%nat ->
  collect p3d p2d w (Z.of_nat start) (Z.of_nat (start + n) - 1) = Some s -> rigid p ->
  length (measurement_list (length w) s) = length (observations s) /\
  lsum (fun om => observed poses mats p (nth (fst (fst om)) (p3d_local s) v3zero) (snd (fst om)) (snd om)) (combine (observations s) (measurement_list (length w) s))
    = total_error p3d p2d w poses mats (seq start n) p /\
  ((forall o, In o (observations s) -> mvec 3 (cam_matrix mats (snd o)) (of3 (papp (pmul (nth (snd o) poses pone) p) (nth (fst o) (p3d_local s) v3zero))) 2%nat <> 0) <->
   all_in_view p3d w poses mats (seq start n) p).
Proof.
  intros Hn Hs E U. destruct (collected_range start n Hn Hs) as (s' & E' & A1 & A2 & A3 & _). rewrite E in E'. injection E'. intros <-. clear E'.
  cbv zeta in A1. set (l := seq start n) in *.
  assert (EM : measurement_list (length w) s = flat_map (fun c => map (fun i => nth i (nth c p2d []) (0, 0)) (vis l c)) (seq 0 (length w))).
  { unfold measurement_list. rewrite !flat_map_concat_map. f_equal. apply map_ext_in. intros c Hc. apply in_seq in Hc. apply A3. lia. }
  assert (LN : forall i, In i l -> nth (i - start) (p3d_local s) v3zero = nth i p3d v3zero).
  { intros i Hi. rewrite A2. unfold l in *. apply in_seq in Hi.
    rewrite (nth_indep _ _ ((fun i => nth i p3d v3zero) 0%nat)) by (rewrite map_length, seq_length; lia).
    rewrite (map_nth (fun i => nth i p3d v3zero)), seq_nth by lia. f_equal. lia. }
  split; [|split].
  - rewrite EM, A1. clear. induction (seq 0 (length w)) as [|c cs IH]; [reflexivity|]. cbn [flat_map]. rewrite !app_length, !map_length, IH. reflexivity.
  - rewrite EM, A1, combine_flat_map by (intros; rewrite !map_length; reflexivity).
    rewrite lsum_flat_map. unfold total_error. apply lsum_ext'. intros c _. rewrite combine_map, lsum_map'. apply lsum_ext'.
    intros i Hi. cbn [fst snd]. unfold visible_points in Hi. apply filter_In in Hi. rewrite LN by tauto. symmetry. apply view_error_observed, U.
  - split.
    + intros H c i Hc Hi HW. specialize (H ((i - start)%nat, c)). cbn [fst snd] in H. rewrite LN in H by exact Hi.
      unfold view. rewrite <- papp_mul by (exact U || apply rigid_nth). apply H. rewrite A1. apply in_flat_map. exists c. split; [apply in_seq; lia|].
      apply in_map_iff. exists i. split; [reflexivity|]. apply filter_In. split; [exact Hi|]. destruct (Req_EM_T _ 0); [contradiction|reflexivity].
    + intros H o Ho. rewrite A1 in Ho. apply in_flat_map in Ho. destruct Ho as (c & Hc & Ho). apply in_map_iff in Ho. destruct Ho as (i & <- & Hi).
      apply filter_In in Hi. destruct Hi as [Hi HW]. apply in_seq in Hc. cbn [fst snd]. rewrite LN by exact Hi. rewrite papp_mul by (exact U || apply rigid_nth).
      apply H; [lia|exact Hi|]. destruct (Req_EM_T _ 0); [discriminate|assumption].
Qed.

(** the last index may be given as -1 when the range reaches to the end of the list *)
Definition last_index (start n : nat) (fin : Z) : Prop :=
  fin = (Z.of_nat (start + n) - 1)%Z \/ fin = (-1)%Z /\ (start + n = length p3d)%nat.
Lemma last_index_value start n fin : (0 < n)%nat -> last_index start n fin ->
  (if (fin =? -1)%Z then (Z.of_nat (length p3d) - 1)%Z else fin) = (Z.of_nat (start + n) - 1)%Z.
Proof. clear. intros Hn [->|[-> <-]]; [|reflexivity]. destruct (Z.eqb_spec (Z.of_nat (start + n) - 1) (-1)); lia. Qed.

(** ** C146: when is a pose estimated *)
Definition enough_points (min_corr : Z) (has_initial : bool) (l : list nat) : Prop :=
  (forall c, (c < length w)%nat -> (min_corr <= Z.of_nat (length (vis l c)))%Z) /\
  (has_initial = true \/ exists c, (c < length w)%nat /\ (4 <= length (vis l c))%nat).

Lemma decision start n s min_corr has_initial : (0 <= min_corr < 2 ^ 31)%Z -> (0 < n)%nat -> (start + n <= length p3d)%nat ->
  collect p3d p2d w (Z.of_nat start) (Z.of_nat (start + n) - 1) = Some s ->
  exists min_obs, minimum (map (count s) (seq 0 (length w))) = Some min_obs /\
   let best := max_index (map (count s) (seq 0 (length w))) in
   (best < length w)%nat /\ (forall c, (c < length w)%nat -> (length (vis (seq start n) c) <= length (vis (seq start n) best))%nat) /\
   (((size_t min_corr <=? Z.of_nat min_obs)%Z && (has_initial || (4 <=? count s best)%nat))%bool = true <-> enough_points min_corr has_initial (seq start n)).
Proof.
  intros HM Hn Hs E. destruct (collected_range start n Hn Hs) as (s' & E' & _ & _ & A3 & _). rewrite E in E'. injection E'. intros <-. clear E'. cbv zeta in A3.
  set (l := seq start n) in *. set (counts := map (count s) (seq 0 (length w))).
  assert (LC : length counts = length w) by (unfold counts; rewrite map_length, seq_length; reflexivity).
  assert (NC : forall c, (c < length w)%nat -> nth c counts 0%nat = length (vis l c)).
  { intros c Hc. unfold counts. rewrite (nth_indep _ _ (count s 0)) by (rewrite map_length, seq_length; exact Hc).
    rewrite map_nth, seq_nth by exact Hc. apply A3, Hc. }
  assert (NE : counts <> []) by (intros Z; rewrite Z in LC; cbn in LC; lia).
  destruct (minimum counts) as [m|] eqn:EM; [|destruct counts; [congruence|discriminate]].
  destruct (minimum_spec _ _ EM) as [M1 M2]. destruct (max_index_spec counts NE) as [X1 X2].
  exists m. split; [reflexivity|]. cbv zeta. set (best := max_index counts) in *. rewrite LC in X1, X2. split; [exact X1|].
  assert (XB : forall c, (c < length w)%nat -> (length (vis l c) <= length (vis l best))%nat) by (intros c Hc; rewrite <- !NC by assumption; apply X2, Hc).
  split; [exact XB|]. destruct (A3 best X1) as (_ & _ & CB). rewrite CB.
  rewrite andb_true_iff, orb_true_iff, Z.leb_le, Nat.leb_le, size_t_int by (unfold in_int; exact HM). unfold enough_points. split.
  - intros [H1 H2]. split.
    + intros c Hc. assert ((m <= length (vis l c))%nat) by (rewrite <- NC by exact Hc; apply M2, nth_In; lia). lia.
    + destruct H2 as [H2|H2]; [left; exact H2|right; exists best; split; assumption].
  - intros [H1 H2]. split.
    + destruct (In_nth _ _ 0%nat M1) as (c & Hc & <-). rewrite LC in Hc. rewrite NC by exact Hc. apply H1, Hc.
    + destruct H2 as [H2|(c & Hc & H2)]; [left; exact H2|right]. specialize (XB c Hc). lia.
Qed.

Theorem too_few_points min_corr has_initial ip start n fin : (0 <= min_corr < 2 ^ 31)%Z -> (0 < n)%nat -> (start + n <= length p3d)%nat -> last_index start n fin ->
  (est min_corr has_initial ip (Z.of_nat start) fin = Too_few <-> ~ enough_points min_corr has_initial (seq start n)).
Proof.
  intros HM Hn Hs HF. unfold estimate_pose. cbv zeta. rewrite (last_index_value start n fin Hn HF).
  destruct (collected_range start n Hn Hs) as (s & E & _). rewrite E.
  destruct (decision start n s min_corr has_initial HM Hn Hs E) as (m & EM & X1 & _ & D). rewrite EM. cbv zeta in D.
  destruct (_ && _)%bool.
  - split; [|intros N; exfalso; apply N, D; reflexivity].
    destruct (first_pose _ _ _ _ _ _ _ _ _ _); try discriminate. destruct (levenberg_marquardt _ _ _ _ _ _ _ _ _ _ _ _) as [[v|] [r|]| |]; discriminate.
  - split; [|reflexivity]. intros _ HE. apply D in HE. discriminate.
Qed.

(** a negative minimum is converted to a huge unsigned number: nothing is estimated *)
Theorem negative_minimum min_corr has_initial ip start n fin : (- 2 ^ 31 <= min_corr < 0)%Z -> (0 < n)%nat -> (start + n <= length p3d)%nat -> last_index start n fin ->
  est min_corr has_initial ip (Z.of_nat start) fin = Too_few.
Proof.
  intros HM Hn Hs HF. unfold estimate_pose. cbv zeta. rewrite (last_index_value start n fin Hn HF).
  destruct (collected_range start n Hn Hs) as (s & E & A). rewrite E.
  destruct (decision start n s 0 has_initial ltac:(lia) Hn Hs E) as (m & EM & _). rewrite EM.
  destruct (minimum_spec _ _ EM) as [M1 _]. apply in_map_iff in M1. destruct M1 as (c & EC & Hc). apply in_seq in Hc. destruct A as (_ & _ & A3 & _).
  destruct (A3 c) as (_ & _ & A); [lia|].
  assert (LM : (m <= n)%nat).
  { rewrite <- EC, A. rewrite <- (seq_length n start) at 2. unfold visible_points. generalize (seq start n). clear. intros l.
    induction l as [|x l IH]; [apply le_n|]. cbn [filter]. destruct (Req_EM_T _ 0); cbn [length]; lia. }
  assert (SZ : size_t min_corr = (min_corr + 2 ^ 64)%Z).
  { unfold size_t. rewrite <- (Z.mod_add _ 1) by lia. rewrite Z.mul_1_l. apply Z.mod_small. assert (2 ^ 31 < 2 ^ 64)%Z by reflexivity. lia. }
  replace (size_t min_corr <=? Z.of_nat m)%Z with false; [reflexivity|]. symmetry. apply Z.leb_gt. rewrite SZ.
  assert (2 ^ 31 + 2 ^ 31 < 2 ^ 64)%Z by reflexivity. lia.
Qed.

(** ** C143: what is returned *)
Theorem estimated_pose min_corr has_initial ip start n fin p cov r : (0 < n)%nat -> (start + n <= length p3d)%nat -> last_index start n fin ->
  est min_corr has_initial ip (Z.of_nat start) fin = Estimate p cov r ->
  rigid p /\ all_in_view p3d w poses mats (seq start n) p /\ r = total_error p3d p2d w poses mats (seq start n) p /\
  forall i j, cov i j = if (i =? j)%nat then r else 0.
Proof.
  intros Hn Hs HF. unfold estimate_pose. cbv zeta. rewrite (last_index_value start n fin Hn HF).
  destruct (collected_range start n Hn Hs) as (s & E & _). rewrite E.
  destruct (minimum _); [|discriminate]. destruct (_ && _)%bool; [|discriminate].
  destruct (first_pose _ _ _ _ _ _ _ _ _ _) as [p0| |]; try discriminate.
  destruct (levenberg_marquardt _ _ _ _ _ _ _ _ _ _ _ _) as [[v|] [res|]| |] eqn:EL; try discriminate.
  intros H. injection H. intros <- <- <-. clear H.
  pose proof (from_log_rigid v) as U. split; [exact U|].
  destruct (measurements_sum start n s (log_pose v) Hn Hs E U) as (LM & SM & VM).
  apply lm_reports_its_residual in EL; [|exact I]. symmetry in EL. apply multi_sum in EL; [|exact RIGID|exact LM]. destruct EL as [V ->].
  split; [apply VM, V|]. split; [exact SM|]. intros i j. unfold mscale, eye. destruct (i =? j)%nat; ring.
Qed.

Lemma log_vector_pose p : rigid p -> eps12 < sqrt (qx (rot p) * qx (rot p) + qy (rot p) * qy (rot p) + qz (rot p) * qz (rot p)) ->
  forall x, papp (log_pose (log_vector p)) x = papp p x.
Proof.
  intros U HL x. destruct (logarithm_roundtrip_partial (rot p) U HL) as [_ SR]. unfold log_pose, log_vector. cbv zeta.
  change (vec_of _ 3) with (V3 (vx (to_log (rot p))) (vy (to_log (rot p))) (vz (to_log (rot p)))).
  change (vec_of _ 0) with (V3 (vx (tra p)) (vy (tra p)) (vz (tra p))).
  replace (V3 (vx (to_log (rot p))) (vy (to_log (rot p))) (vz (to_log (rot p)))) with (to_log (rot p)) by (destruct (to_log (rot p)); reflexivity).
  replace (V3 (vx (tra p)) (vy (tra p)) (vz (tra p))) with (tra p) by (destruct (tra p); reflexivity).
  unfold papp. cbn [rot tra]. rewrite SR. reflexivity.
Qed.
Lemma total_error_motion l p q : (forall x, papp p x = papp q x) ->
  total_error p3d p2d w poses mats l p = total_error p3d p2d w poses mats l q /\ (all_in_view p3d w poses mats l p <-> all_in_view p3d w poses mats l q).
Proof.
  intros H. split.
  - unfold total_error. apply lsum_ext'. intros c _. apply lsum_ext'. intros i _. unfold view_error, view. cbv zeta. rewrite H. reflexivity.
  - unfold all_in_view, view. split; intros V c i Hc Hi HW; specialize (V c i Hc Hi HW); rewrite H in * || rewrite <- H in *; exact V.
Qed.

(** no worse than the given pose; a rotation by less than about 2e-12 is taken for none, which is why it is
    left out here *)
Theorem estimate_no_worse min_corr ip start n fin p cov r : nan_stays lin -> rigid ip ->
  eps12 < sqrt (qx (rot ip) * qx (rot ip) + qy (rot ip) * qy (rot ip) + qz (rot ip) * qz (rot ip)) ->
  (0 < n)%nat -> (start + n <= length p3d)%nat -> last_index start n fin ->
  est min_corr true ip (Z.of_nat start) fin = Estimate p cov r ->
  all_in_view p3d w poses mats (seq start n) ip /\
  total_error p3d p2d w poses mats (seq start n) p <= total_error p3d p2d w poses mats (seq start n) ip.
Proof.
  intros NS UI HL Hn Hs HF HE. destruct (estimated_pose _ _ _ _ _ _ _ _ _ Hn Hs HF HE) as (_ & _ & ER & _). revert HE.
  unfold estimate_pose. cbv zeta. rewrite (last_index_value start n fin Hn HF).
  destruct (collected_range start n Hn Hs) as (s & E & _). rewrite E.
  destruct (minimum _); [|discriminate]. destruct (_ && _)%bool; [|discriminate]. cbn [first_pose].
  destruct (levenberg_marquardt _ _ _ _ _ _ _ _ _ _ _ _) as [[v|] [res|]| |] eqn:EL; try discriminate.
  intros H. injection H. intros Er _ _. clear H.
  apply lm_no_worse in EL; [|exact NS]. destruct EL as (_ & r0 & E0 & Hle).
  pose proof (from_log_rigid (log_vector ip)) as U.
  destruct (measurements_sum start n s (log_pose (log_vector ip)) Hn Hs E U) as (LM & SM & VM).
  apply multi_sum in E0; [|exact RIGID|exact LM]. destruct E0 as [V E0]. rewrite SM in E0.
  destruct (total_error_motion (seq start n) _ _ (log_vector_pose ip UI HL)) as [T1 T2]. rewrite T1 in E0.
  split; [apply T2, VM, V|]. rewrite <- ER, <- Er, <- E0. exact Hle.
Qed.

(** it always returns: only an error code of LAPACK's gesvd ends in an exception *)
Lemma loop_throws m eval ev norm term meas factor fuel : (forall sys, lin SVD sys <> Failure) -> forall s, kind s <> QR ->
  loop m eval ev norm lin term meas factor fuel s <> Throw.
Proof.
  intros HS. induction fuel as [|fuel IH]; intros s HK; [discriminate|]. cbn [loop]. unfold round. cbv zeta.
  destruct (lin _ _) as [dx|] eqn:EL.
  - destruct (ge _ _); destruct (term _ _ _); try discriminate; apply IH; exact HK.
  - destruct (kind s) eqn:EK; [apply IH; discriminate|congruence|]. exfalso. apply (HS _ EL).
Qed.
Theorem estimate_returns min_corr ip start n fin : (forall sys, lin SVD sys <> Failure) ->
  (0 < n)%nat -> (start + n <= length p3d)%nat -> last_index start n fin ->
  match est min_corr true ip (Z.of_nat start) fin with Failed | Undefined_ => False | _ => True end.
Proof.
  intros HS Hn Hs HF. unfold estimate_pose. cbv zeta. rewrite (last_index_value start n fin Hn HF).
  destruct (collected_range start n Hn Hs) as (s & E & _). rewrite E.
  destruct (decision start n s 0 true ltac:(lia) Hn Hs E) as (m & EM & _). rewrite EM.
  destruct (_ && _)%bool; [|exact I]. cbn [first_pose].
  destruct (levenberg_marquardt _ _ _ _ _ _ _ _ _ _ _ _) as [[v|] [res|]| |] eqn:EL; try exact I.
  - unfold levenberg_marquardt in EL. revert EL. apply loop_throws; [exact HS|discriminate].
  - change 11%nat with (10 + 1)%nat in EL. revert EL. apply lm_terminates_within_limit. lia.
Qed.

(** ** C144: the start of the optimization when no pose is given *)
Theorem start_from_camera start n s best q P cm : (0 < n)%nat -> (start + n <= length p3d)%nat ->
  collect p3d p2d w (Z.of_nat start) (Z.of_nat (start + n) - 1) = Some s ->
  (best < length w)%nat -> rigid P ->
  nth_error mats best = Some cm ->
  (* the pose in the coordinates of the camera is exact *)
  init_pose svd svd32 svd33 inv false (map (fun i => nth i (nth best p2d []) (0, 0)) (vis (seq start n) best)) (map (fun i => nth i p3d v3zero) (vis (seq start n) best)) cm = Got q ->
  same_motion (pmul (nth best poses pone) P) q ->
  exists p0, first_pose svd svd32 svd33 inv poses mats best false pone s = Got p0 /\ rigid p0 /\
   (forall x, papp p0 x = papp (nth best poses pone) (papp (nth best poses pone) (papp P x))) /\
   (same_motion P p0 <-> forall y, papp (nth best poses pone) (papp (nth best poses pone) y) = y).
Proof.
  intros Hn Hs E Hb UP HC HI [Uq SM]. destruct (collected_range start n Hn Hs) as (s' & E' & _ & _ & A3 & _). rewrite E in E'. injection E'. intros <-. clear E'. cbv zeta in A3.
  destruct (A3 best Hb) as (F1 & F2 & _).
  destruct (check_consistency_spec _ _ _ _ _ OK) as (_ & _ & LP & LMt & _).
  pose proof (rigid_nth best) as Ub.
  exists (pmul (nth best poses pone) q). unfold first_pose. rewrite (nth_error_nth' poses pone) by lia. rewrite HC, F1, F2, HI.
  split; [reflexivity|]. assert (U0 : rigid (pmul (nth best poses pone) q)) by (apply rigid_mul; assumption). split; [exact U0|].
  assert (A : forall x, papp (pmul (nth best poses pone) q) x = papp (nth best poses pone) (papp (nth best poses pone) (papp P x))).
  { intros x. rewrite papp_mul by assumption. rewrite SM, papp_mul by assumption. reflexivity. }
  split; [exact A|]. split.
  - intros [_ H] y. specialize (H (papp (pinv P) y)). rewrite A in H.
    assert (EY : papp P (papp (pinv P) y) = y) by (rewrite <- papp_mul, pmul_inv_r by (assumption || apply rigid_inv; assumption); apply papp_one).
    rewrite EY in H. exact H.
  - intros H. split; [exact U0|]. intros x. rewrite A. apply H.
Qed.
End theorems.

(** ** C145: bundles *)
Definition slice {A} (start n : nat) (l : list A) : list A := firstn n (skipn start l).
Lemma slice_length {A} start n (l : list A) : (start + n <= length l)%nat -> length (slice start n l) = n.
Proof. intros H. unfold slice. rewrite firstn_length, skipn_length. lia. Qed.
Lemma slice_nth {A} start n (l : list A) d i : (i < n)%nat -> nth i (slice start n l) d = nth (start + i) l d.
Proof.
  intros H. unfold slice. revert l. induction start as [|k IH]; intros l; cbn [Nat.add].
  - rewrite skipn_O. revert l i H. induction n as [|n IHn]; intros l i H; [lia|]. destruct l as [|a l]; [destruct i; reflexivity|].
    cbn [firstn]. destruct i; [reflexivity|]. cbn [nth]. apply IHn. lia.
  - destruct l as [|a l]; [|apply IH]. cbn [skipn]. rewrite firstn_nil. destruct i; reflexivity.
Qed.
Lemma slice_map {A B} (f : A -> B) start n l : slice start n (map f l) = map f (slice start n l).
Proof. unfold slice. rewrite skipn_map, firstn_map. reflexivity. Qed.

Section bundles.
Variables (svd : gesvd_vt) (svd32 svd33 : gesvd3) (inv : mat -> mat) (lin : solver -> option (mat * vect) -> lapack).
Variables (p3d : list vec3) (p2d : list (list image)) (w : list (list R)) (poses : list pose) (mats : list mat).
Hypothesis OK : check_consistency p3d p2d w poses mats = true.
Hypothesis SMALL : (Z.of_nat (length p3d) < 2 ^ 31)%Z.
Hypothesis CAMERA : (0 < length w)%nat.

Lemma seq_shift_filter start n (f g : nat -> bool) : (forall i, (i < n)%nat -> f i = g (start + i)%nat) ->
  filter g (seq start n) = map (fun i => (start + i)%nat) (filter f (seq 0 n)).
Proof.
  intros H. assert (E : seq start n = map (fun i => (start + i)%nat) (seq 0 n)).
  { clear. revert start. induction n as [|n IH]; intros start; [reflexivity|]. cbn [seq map]. rewrite Nat.add_0_r. f_equal.
    rewrite IH, <- (seq_shift n 0), map_map. apply map_ext. intros. lia. }
  rewrite E. assert (HI : forall i, In i (seq 0 n) -> f i = g (start + i)%nat) by (intros i Hi; apply in_seq in Hi; apply H; lia).
  revert HI. generalize (seq 0 n). clear. induction l as [|x l IH]; intros H; [reflexivity|]. cbn [map filter]. rewrite <- (H x) by (left; reflexivity).
  rewrite IH by (intros; apply H; right; assumption). destruct (f x); reflexivity.
Qed.
Lemma collect_slice start n : (0 < n)%nat -> (start + n <= length p3d)%nat ->
  collect p3d p2d w (Z.of_nat start) (Z.of_nat (start + n) - 1) =
  collect (slice start n p3d) (map (slice start n) p2d) (map (slice start n) w) 0 (Z.of_nat n - 1).
Proof.
  intros Hn Hs. destruct (check_consistency_spec _ _ _ _ _ OK) as (_ & HL & _ & _ & HC).
  destruct (collected_range p3d p2d w poses mats OK SMALL CAMERA start n Hn Hs) as ([o1 l1 f1 q1 t1 c1] & E1 & A1 & A2 & A3 & A4 & A5). rewrite E1.
  assert (SN : forall {A} (l : list (list A)) c, nth c (map (slice start n) l) [] = slice start n (nth c l [])).
  { intros A l c. replace (nth c (map (slice start n) l) []) with (nth c (map (slice start n) l) (slice start n [])); [apply map_nth|]. f_equal. unfold slice. rewrite skipn_nil, firstn_nil. reflexivity. }
  assert (LS : length (slice start n p3d) = n) by (apply slice_length, Hs).
  assert (HL' : length (map (slice start n) p2d) = length (map (slice start n) w)) by (rewrite !map_length; exact HL).
  assert (HC' : forall c, (c < length (map (slice start n) w))%nat -> length (nth c (map (slice start n) w) []) = length (slice start n p3d) /\ length (nth c (map (slice start n) p2d) []) = length (slice start n p3d)).
  { intros c Hc. rewrite map_length in Hc. destruct (HC c Hc) as [H1 H2]. rewrite !SN, LS. split; apply slice_length; lia. }
  destruct (collect_range _ _ _ HL' HC' 0 n) as ([o2 l2 f2 q2 t2 c2] & E2 & B1 & B2 & B3 & B4 & B5); try assumption; try (unfold in_int; lia); try (rewrite map_length; exact CAMERA).
  cbn [Z.of_nat Nat.add] in E2. rewrite E2. f_equal.
  cbv zeta in A1, A2, A3, B1, B2, B3. cbn [observations p3d_local p3d_filtered p2d_local total count] in *. rewrite map_length in *.
  assert (VS : forall c, visible_points w (seq start n) c = map (fun i => (start + i)%nat) (seen (map (slice start n) w) (seq 0 n) c)).
  { intros c. unfold visible_points, seen. apply seq_shift_filter. intros i Hi. unfold wt, weight, nonzero. rewrite SN, slice_nth by exact Hi. reflexivity. }
  assert (EO : o1 = o2).
  { rewrite A1, B1. rewrite !flat_map_concat_map. f_equal. apply map_ext. intros c. rewrite VS, map_map. apply map_ext. intros i. f_equal. lia. }
  assert (PT : forall c i, In i (seen (map (slice start n) w) (seq 0 n) c) -> (i < n)%nat) by (intros c i Hi; apply filter_In in Hi; destruct Hi as [Hi _]; apply in_seq in Hi; lia).
  f_equal.
  - exact EO.
  - rewrite A2, B2. rewrite <- (Nat.add_0_r start) at 1. clear -Hs. assert (E : seq (start + 0) n = map (fun i => (start + i)%nat) (seq 0 n)).
    { rewrite Nat.add_0_r. clear. revert start. induction n as [|n IH]; intros start; [reflexivity|]. cbn [seq map]. rewrite Nat.add_0_r. f_equal. rewrite IH, <- (seq_shift n 0), map_map. apply map_ext. intros. lia. }
    rewrite E, map_map. apply map_ext_in. intros i Hi. apply in_seq in Hi. unfold pt. rewrite slice_nth by lia. reflexivity.
  - extensionality c. destruct (Nat.lt_ge_cases c (length w)) as [Hc|Hc].
    + destruct (A3 c Hc) as (-> & _). destruct (B3 c Hc) as (-> & _). rewrite VS, map_map. apply map_ext_in. intros i Hi. unfold pt. rewrite slice_nth by exact (PT c i Hi). reflexivity.
    + destruct (A4 c Hc) as (-> & _). destruct (B4 c Hc) as (-> & _). reflexivity.
  - extensionality c. destruct (Nat.lt_ge_cases c (length w)) as [Hc|Hc].
    + destruct (A3 c Hc) as (_ & -> & _). destruct (B3 c Hc) as (_ & -> & _). rewrite VS, map_map. apply map_ext_in. intros i Hi. unfold im. rewrite SN, slice_nth by exact (PT c i Hi). reflexivity.
    + destruct (A4 c Hc) as (_ & -> & _). destruct (B4 c Hc) as (_ & -> & _). reflexivity.
  - rewrite A5, B5, EO. reflexivity.
  - extensionality c. destruct (Nat.lt_ge_cases c (length w)) as [Hc|Hc].
    + destruct (A3 c Hc) as (_ & _ & ->). destruct (B3 c Hc) as (_ & _ & ->). rewrite VS, map_length. reflexivity.
    + destruct (A4 c Hc) as (_ & _ & ->). destruct (B4 c Hc) as (_ & _ & ->). reflexivity.
Qed.

(** the estimate for a part of the points is the estimate from these points alone *)
Theorem estimate_local min_corr has_initial ip start n : (0 < n)%nat -> (start + n <= length p3d)%nat ->
  estimate_pose svd svd32 svd33 inv lin p3d p2d w poses mats min_corr has_initial ip (Z.of_nat start) (Z.of_nat start + Z.of_nat n - 1) =
  estimate_pose svd svd32 svd33 inv lin (slice start n p3d) (map (slice start n) p2d) (map (slice start n) w) poses mats min_corr has_initial ip 0 (-1).
Proof.
  intros Hn Hs. unfold estimate_pose. cbv zeta. replace (Z.of_nat start + Z.of_nat n - 1 =? -1)%Z with false by (symmetry; apply Z.eqb_neq; lia).
  cbn [Z.eqb Pos.eqb]. rewrite slice_length, !map_length by exact Hs.
  replace (Z.of_nat start + Z.of_nat n - 1)%Z with (Z.of_nat (start + n) - 1)%Z by lia. rewrite collect_slice by assumption. reflexivity.
Qed.

Definition returned (e : estimate) : bool := match e with Failed | Undefined_ => false | _ => true end.
Definition alone (min_corr : Z) (start n : nat) : estimate :=
  estimate_pose svd svd32 svd33 inv lin (slice start n p3d) (map (slice start n) p2d) (map (slice start n) w) poses mats min_corr false pone 0 (-1).
Fixpoint offsets (start : nat) (sizes : list nat) : list (nat * nat) := match sizes with [] => [] | n :: sizes => (start, n) :: offsets (start + n) sizes end.

(** one result for each bundle, from its points alone; after an exception there are no further results *)
Theorem bundles_independent min_corr sizes : (forall n, In n sizes -> (0 < n)%nat) -> (fold_right Nat.add 0 sizes <= length p3d)%nat ->
  exists l, local_bundles svd svd32 svd33 inv lin p3d p2d w poses mats min_corr (map Z.of_nat sizes) = Some l /\
  (forall k e, nth_error l k = Some e -> exists start n, nth_error (offsets 0 sizes) k = Some (start, n) /\ e = alone min_corr start n) /\
  ((length l = length sizes /\ forall e, In e (removelast l) -> returned e = true) \/
   ((length l < length sizes)%nat /\ l <> [] /\ returned (last l Too_few) = false /\ forall e, In e (removelast l) -> returned e = true)).
Proof.
  intros HP HT. unfold local_bundles. rewrite OK.
  assert (G : forall sizes start, (forall n, In n sizes -> (0 < n)%nat) -> (start + fold_right Nat.add 0 sizes <= length p3d)%nat ->
    let l := bundles_from svd svd32 svd33 inv lin p3d p2d w poses mats min_corr (Z.of_nat start) (map Z.of_nat sizes) in
    (forall k e, nth_error l k = Some e -> exists a n, nth_error (offsets start sizes) k = Some (a, n) /\ e = alone min_corr a n) /\
    ((length l = length sizes /\ forall e, In e (removelast l) -> returned e = true) \/
     ((length l < length sizes)%nat /\ l <> [] /\ returned (last l Too_few) = false /\ forall e, In e (removelast l) -> returned e = true))).
  { clear sizes HP HT. induction sizes as [|n sizes IH]; intros start HP HT; cbn [map bundles_from offsets fold_right] in *; cbv zeta.
    - split; [intros [|k] e H; discriminate|]. left. split; [reflexivity|]. intros e [].
    - rewrite estimate_local by (try (apply HP; left; reflexivity); lia). fold (alone min_corr start n).
      replace (Z.of_nat start + Z.of_nat n)%Z with (Z.of_nat (start + n)) by lia.
      specialize (IH (start + n)%nat (fun m Hm => HP m (or_intror Hm)) ltac:(lia)). cbv zeta in IH.
      set (l := bundles_from _ _ _ _ _ _ _ _ _ _ _ _ _) in *. clearbody l. destruct IH as [IH1 IH2].
      assert (ST : forall e, e = alone min_corr start n -> forall l', (l' = l \/ l' = []) -> forall k e', nth_error (e :: l') k = Some e' -> exists a m, nth_error ((start, n) :: offsets (start + n) sizes) k = Some (a, m) /\ e' = alone min_corr a m).
      { intros e -> l' Hl [|k] e' H; cbn [nth_error] in *; [injection H; intros <-; exists start, n; auto|]. destruct Hl as [->| ->]; [apply IH1, H|destruct k; discriminate]. }
      destruct (returned (alone min_corr start n)) eqn:RE.
      + replace (match alone min_corr start n with Failed | Undefined_ => [alone min_corr start n] | _ => alone min_corr start n :: l end) with (alone min_corr start n :: l)
          by (destruct (alone min_corr start n); try reflexivity; discriminate).
        split; [apply ST; auto|]. cbn [length].
        assert (RL : (forall e, In e (removelast l) -> returned e = true) -> forall e, In e (removelast (alone min_corr start n :: l)) -> returned e = true).
        { intros H e He. destruct l as [|x l]; [destruct He|]. cbn [removelast] in He. destruct He as [<-|He]; [exact RE|apply H, He]. }
        destruct IH2 as [[H1 H2]|(H1 & H2 & H3 & H4)]; [left; split; [lia|apply RL, H2]|right].
        split; [lia|]. split; [discriminate|]. split; [|apply RL, H4]. destruct l; [congruence|exact H3].
      + replace (match alone min_corr start n with Failed | Undefined_ => [alone min_corr start n] | _ => alone min_corr start n :: l end) with [alone min_corr start n]
          by (destruct (alone min_corr start n); try reflexivity; discriminate).
        split; [apply ST; auto|]. cbn [length removelast last In].
        destruct sizes; [left; split; [reflexivity|tauto]|right]. cbn [length]. split; [lia|]. split; [discriminate|]. split; [exact RE|tauto]. }
  eexists. split; [reflexivity|]. apply (G sizes 0%nat HP HT).
Qed.

(** an empty bundle has no pose, unless it comes first: then all points are used *)
Theorem empty_bundle min_corr offset : (0 < offset)%nat -> (offset <= length p3d)%nat ->
  estimate_pose svd svd32 svd33 inv lin p3d p2d w poses mats min_corr false pone (Z.of_nat offset) (Z.of_nat offset + 0 - 1) = Too_few.
Proof.
  intros H1 H2. unfold estimate_pose. cbv zeta. replace (Z.of_nat offset + 0 - 1 =? -1)%Z with false by (symmetry; apply Z.eqb_neq; lia).
  unfold collect. rewrite !size_t_int by (unfold in_int; lia). rewrite (proj2 (Z.leb_gt _ _)) by lia.
  cbn [count nothing]. destruct w as [|w0 ws] eqn:EW; [cbn in CAMERA; lia|]. cbn [length seq map minimum].
  replace (4 <=? 0)%nat with false by reflexivity. rewrite andb_false_r. reflexivity.
Qed.
Theorem empty_first_bundle_refuted min_corr :
  local_bundles svd svd32 svd33 inv lin p3d p2d w poses mats min_corr [0%Z] =
  Some [estimate_pose svd svd32 svd33 inv lin p3d p2d w poses mats min_corr false pone 0 (-1)].
Proof. unfold local_bundles. rewrite OK. cbn [bundles_from]. change (0 + 0 - 1)%Z with (-1)%Z. destruct (estimate_pose _ _ _ _ _ _ _ _ _ _ _ _ _ _); reflexivity. Qed.

(** a bundle beyond the last point: an index out of range *)
Theorem bundle_beyond min_corr has_initial ip start n : (Z.of_nat start + Z.of_nat n <= 2 ^ 31)%Z -> (0 < n)%nat -> (length p3d < start + n)%nat ->
  estimate_pose svd svd32 svd33 inv lin p3d p2d w poses mats min_corr has_initial ip (Z.of_nat start) (Z.of_nat start + Z.of_nat n - 1) = Undefined_.
Proof.
  intros HI H1 H2. unfold estimate_pose. cbv zeta. replace (Z.of_nat start + Z.of_nat n - 1 =? -1)%Z with false by (symmetry; apply Z.eqb_neq; lia).
  unfold collect. rewrite !size_t_int by (unfold in_int; lia). rewrite (proj2 (Z.leb_le _ _)) by lia. rewrite (proj2 (Z.ltb_ge _ _)) by lia.
  destruct w; [cbn in CAMERA; lia|reflexivity].
Qed.
End bundles.
(** the call without a range uses all the points, from the first to the last *)
Theorem multi_camera_all svd svd32 svd33 inv lin p3d p2d w poses mats min_corr has_initial ip : check_consistency p3d p2d w poses mats = true ->
  multi_camera_pose svd svd32 svd33 inv lin p3d p2d w poses mats min_corr has_initial ip =
  Some (estimate_pose svd svd32 svd33 inv lin p3d p2d w poses mats min_corr has_initial ip 0 (Z.of_nat (length p3d) - 1)).
Proof.
  intros C. unfold multi_camera_pose. rewrite C. f_equal. unfold estimate_pose. cbv zeta. cbn [Z.eqb Pos.eqb].
  destruct (Z.eqb_spec (Z.of_nat (length p3d) - 1) (-1)) as [E|]; reflexivity.
Qed.
(** without cameras the check passes *)
Theorem no_camera svd svd32 svd33 inv lin p3d min_corr has_initial ip : (3 <= length p3d)%nat ->
  multi_camera_pose svd svd32 svd33 inv lin p3d [] [] [] [] min_corr has_initial ip = Some Undefined_.
Proof.
  intros H. unfold multi_camera_pose, check_consistency. cbn [length seq forallb]. rewrite (proj2 (Nat.leb_le _ _)) by exact H. cbn [Nat.eqb andb].
  unfold estimate_pose. cbv zeta. destruct (collect _ _ _ _ _); reflexivity.
Qed.

(** * A case: a square seen by one camera *)
Definition square3 : list vec3 := [V3 1 1 0; V3 1 (-1) 0; V3 (-1) 1 0; V3 (-1) (-1) 0].
Definition square2 : list image := [(1, 1); (1, -1); (-1, 1); (-1, -1)].
Definition beside : pose := P qone (V3 1 0 0).
Definition square_pose : pose := P qone (V3 (-1) 0 (-1)).
Lemma square_consistent : check_consistency square3 [square2] [[1; 1; 1; 1]] [beside] [flip] = true.
Proof. reflexivity. Qed.
Lemma square_rigid : forall c, In c [beside] -> rigid c.
Proof. intros c [<-|[]]. unfold beside, rigid, unit, qnorm, qone. cbn. lra. Qed.
Lemma square_visible : visible_points [[1; 1; 1; 1]] (seq 0 4) 0 = [0; 1; 2; 3]%nat.
Proof. unfold visible_points, weight. cbn. destruct (Req_EM_T 1 0); [lra|reflexivity]. Qed.

Lemma square_total p : total_error square3 [square2] [[1; 1; 1; 1]] [beside] [flip] (seq 0 4) p = lsum (view_error square3 [square2] [beside] [flip] 0 p) [0; 1; 2; 3]%nat.
Proof.
  unfold total_error. change (length [[1; 1; 1; 1]]) with 1%nat. change (seq 0 1) with [0%nat].
  transitivity (lsum (view_error square3 [square2] [beside] [flip] 0 p) (visible_points [[1; 1; 1; 1]] (seq 0 4) 0) + 0); [reflexivity|]. rewrite square_visible. ring.
Qed.

Lemma square_view p i : view square3 [beside] [flip] 0 p i 0%nat = vx (papp p (nth i square3 v3zero)) + 1 /\
  view square3 [beside] [flip] 0 p i 1%nat = vy (papp p (nth i square3 v3zero)) /\ view square3 [beside] [flip] 0 p i 2%nat = - vz (papp p (nth i square3 v3zero)).
Proof.
  unfold view. change (nth 0 [beside] pone) with beside. change (nth 0 [flip] eye) with flip. destruct (papp p (nth i square3 v3zero)) as [a b c].
  unfold mvec, flip, mk33, of3, vlist, papp, beside, qrot, qone. cbn. repeat split; ring.
Qed.
Lemma square_error p a b c i : papp p (nth i square3 v3zero) = V3 a b c -> c <> 0 ->
  view_error square3 [square2] [beside] [flip] 0 p i = ((a + 1) / - c - fst (nth i square2 (0, 0))) * ((a + 1) / - c - fst (nth i square2 (0, 0))) + (b / - c - snd (nth i square2 (0, 0))) * (b / - c - snd (nth i square2 (0, 0))).
Proof. intros E N. destruct (square_view p i) as (V0 & V1 & V2). unfold view_error. cbv zeta. rewrite V0, V1, V2, E. cbn [nth vx vy vz]. reflexivity. Qed.
Lemma square_at d i : papp (P qone d) (nth i square3 v3zero) = v3add (nth i square3 v3zero) d.
Proof. destruct (nth i square3 v3zero) as [a b c], d as [d0 d1 d2]. unfold papp, qrot, qone. apply v3_ext; cbn; ring. Qed.

(** C144: the pose in the camera is found exactly, the start of the optimization is somewhere else *)
Theorem start_from_camera_refuted : exists svd svd32 svd33 inv p3d p2d w poses mats P s p0,
  check_consistency p3d p2d w poses mats = true /\ (forall c, In c poses -> rigid c) /\ rigid P /\
  all_in_view p3d w poses mats (seq 0 (length p3d)) P /\ total_error p3d p2d w poses mats (seq 0 (length p3d)) P = 0 /\
  collect p3d p2d w 0 (Z.of_nat (length p3d) - 1) = Some s /\
  first_pose svd svd32 svd33 inv poses mats 0 false pone s = Got p0 /\ total_error p3d p2d w poses mats (seq 0 (length p3d)) p0 = 16.
Proof.
  exists some_svd, frame_svd, frame_svd, (fun _ => flip), square3, [square2], [[1; 1; 1; 1]], [beside], [flip], square_pose.
  assert (UP : rigid square_pose) by (unfold square_pose, rigid, unit, qnorm, qone; cbn; lra).
  assert (UB : rigid beside) by (apply square_rigid; left; reflexivity).
  destruct (collected_range square3 [square2] [[1; 1; 1; 1]] [beside] [flip] square_consistent ltac:(cbn; lia) ltac:(cbn; lia) 0 4 ltac:(lia) ltac:(cbn; lia)) as (s & E & _).
  destruct square_seen as (q & EI & SMq).
  assert (SM : same_motion (pmul (nth 0 [beside] pone) square_pose) q).
  { destruct SMq as [U1 U2]. split; [exact U1|]. intros x. rewrite U2. cbn [nth]. rewrite papp_mul by assumption. destruct x as [a b c]. unfold papp, square_pose, beside, qrot, qone. apply v3_ext; cbn; ring. }
  destruct (start_from_camera some_svd frame_svd frame_svd (fun _ => flip) square3 [square2] [[1; 1; 1; 1]] [beside] [flip] square_consistent ltac:(cbn; lia) ltac:(cbn; lia) square_rigid
     0 4 s 0 q square_pose flip ltac:(lia) ltac:(cbn; lia) E ltac:(cbn; lia) UP eq_refl) as (p0 & EF & U0 & A0 & _); [rewrite square_visible; exact EI|exact SM|].
  exists s, p0. split; [exact square_consistent|]. split; [exact square_rigid|]. split; [exact UP|]. cbn [length square3].
  split; [|split; [|split; [exact E|split; [exact EF|]]]].
  - intros c i Hc Hi HW. cbn [length] in Hc. assert (c = 0%nat) by lia. subst c. apply in_seq in Hi. destruct (square_view square_pose i) as (_ & _ & ->).
    unfold square_pose. rewrite square_at. assert (HI : (i = 0 \/ i = 1 \/ i = 2 \/ i = 3)%nat) by lia. destruct HI as [->|[->|[->| ->]]]; cbn; lra.
  - rewrite square_total. unfold lsum. cbn [fold_right].
    rewrite (square_error _ 0 1 (-1) 0), (square_error _ 0 (-1) (-1) 1), (square_error _ (-2) 1 (-1) 2), (square_error _ (-2) (-1) (-1) 3); try lra; try (unfold square_pose; rewrite square_at; apply v3_ext; cbn; ring).
    cbn [nth square2 fst snd]. field.
  - assert (A1 : forall i, papp p0 (nth i square3 v3zero) = v3add (nth i square3 v3zero) (V3 1 0 (-1))).
    { intros i. rewrite A0. unfold square_pose. rewrite square_at. destruct (nth i square3 v3zero) as [a b c]. cbn [nth]. unfold beside, papp, qrot, qone. apply v3_ext; cbn; ring. }
    rewrite square_total. unfold lsum. cbn [fold_right].
    rewrite (square_error _ 2 1 (-1) 0), (square_error _ 2 (-1) (-1) 1), (square_error _ 0 1 (-1) 2), (square_error _ 0 (-1) (-1) 3); try lra; try (rewrite A1; apply v3_ext; cbn; ring).
    cbn [nth square2 fst snd]. field.
Qed.

(** the hypotheses of C143: a solver that stays where it is *)
Definition stay : solver -> option (mat * vect) -> lapack := fun _ sys => Solution (match sys with Some _ => Some (fun _ => 0) | None => None end).
Lemma stay_nan : nan_stays stay.
Proof. intros k x H. discriminate. Qed.
Lemma lm_stay n eval term meas fuel p0 ss k r0 : sum_of_squares n eval None meas p0 = Some r0 ->
  levenberg_marquardt n eval None (fun v => v) stay term meas 10 fuel p0 ss k = Done (Some p0) (Some r0) \/
  exists s, levenberg_marquardt n eval None (fun v => v) stay term meas 10 fuel p0 ss k = Running s.
Proof.
  intros E. unfold levenberg_marquardt.
  assert (RE : residual n (linearise eval None meas (Some p0)) = Some r0) by (rewrite residual_sos by exact I; exact E).
  assert (G : forall fuel s, params s = Some p0 -> err_prev s = Some r0 -> lin_prev s = linearise eval None meas (Some p0) ->
    loop n eval None (fun v => v) stay term meas 10 fuel s = Done (Some p0) (Some r0) \/ exists s', loop n eval None (fun v => v) stay term meas 10 fuel s = Running s').
  { clear fuel. induction fuel as [|fuel IH]; intros s E1 E2 E3; [right; exists s; reflexivity|]. cbn [loop]. unfold round. cbv zeta. rewrite E1, E2, E3.
    destruct (linearise eval None meas (Some p0)) as [l|] eqn:EL; [|discriminate RE].
    destruct l as [la lb]. unfold normal_equations, stay. cbn [option_map].
    replace (vadd p0 (fun _ => 0)) with p0 by (extensionality i; unfold vadd; ring). rewrite EL, RE.
    cbn [ge]. destruct (Rle_dec r0 r0) as [_|N]; [|exfalso; lra].
    destruct (term _ _ _); [left; reflexivity|]. apply IH; reflexivity. }
  apply G; [reflexivity|exact RE|reflexivity].
Qed.
Definition turned : pose := P (Q 0 0 1 0) (V3 (-1) 0 (-1)).
Example estimate_case : exists p cov r,
  estimate_pose some_svd frame_svd frame_svd (fun _ => flip) stay square3 [square2] [[1; 1; 1; 1]] [beside] [flip] 4 true turned 0 (-1) = Estimate p cov r /\
  nan_stays stay /\ rigid turned /\ eps12 < sqrt (qx (rot turned) * qx (rot turned) + qy (rot turned) * qy (rot turned) + qz (rot turned) * qz (rot turned)) /\
  last_index square3 0 4 (-1) /\ (forall sys, stay SVD sys <> Failure) /\ enough_points [[1; 1; 1; 1]] 4 true (seq 0 4).
Proof.
  assert (UT : rigid turned) by (unfold turned, rigid, unit, qnorm; cbn; lra).
  assert (HT : eps12 < sqrt (qx (rot turned) * qx (rot turned) + qy (rot turned) * qy (rot turned) + qz (rot turned) * qz (rot turned))).
  { unfold turned. cbn [rot qx qy qz]. replace (0 * 0 + 0 * 0 + 1 * 1) with 1 by ring. rewrite sqrt_1. pose proof eps12_small. lra. }
  assert (LI : last_index square3 0 4 (-1)) by (right; split; reflexivity).
  assert (EP : enough_points [[1; 1; 1; 1]] 4 true (seq 0 4)).
  { split; [|left; reflexivity]. intros c Hc. cbn [length] in Hc. assert (c = 0%nat) by lia. subst c. rewrite square_visible. cbn. lia. }
  assert (SML : (Z.of_nat (length square3) < 2 ^ 31)%Z) by (cbn; lia).
  assert (CAM : (0 < length [[1; 1; 1; 1]])%nat) by (cbn; lia).
  destruct (collected_range square3 [square2] [[1; 1; 1; 1]] [beside] [flip] square_consistent SML CAM 0 4 ltac:(lia) ltac:(cbn; lia)) as (s & E & _).
  destruct (decision square3 [square2] [[1; 1; 1; 1]] [beside] [flip] square_consistent SML CAM 0 4 s 4 true ltac:(lia) ltac:(lia) ltac:(cbn; lia) E) as (m & EM & _ & _ & D).
  set (p1 := log_pose (log_vector turned)).
  destruct (measurements_sum square3 [square2] [[1; 1; 1; 1]] [beside] [flip] square_consistent SML CAM square_rigid 0 4 s p1 ltac:(lia) ltac:(cbn; lia) E (from_log_rigid _)) as (LM & SM & VM).
  assert (V : all_in_view square3 [[1; 1; 1; 1]] [beside] [flip] (seq 0 4) p1).
  { apply (total_error_motion square3 [square2] [[1; 1; 1; 1]] [beside] [flip] (seq 0 4) p1 turned); [exact (log_vector_pose turned UT HT)|].
    intros c i Hc Hi HW. cbn [length] in Hc. assert (c = 0%nat) by lia. subst c. apply in_seq in Hi. destruct (square_view turned i) as (_ & _ & ->). unfold papp, turned, qrot. cbn [rot tra].
    assert (HI : (i = 0 \/ i = 1 \/ i = 2 \/ i = 3)%nat) by lia. destruct HI as [->|[->|[->| ->]]]; cbn; lra. }
  pose proof (proj2 (multi_sum [beside] [flip] (p3d_local s) (observations s) (measurement_list 1 s) (log_vector turned) _ square_rigid LM) (conj (proj2 VM V) eq_refl)) as SS.
  set (r := lsum _ _) in SS.
  exists p1, (mscale r eye), r. split; [|split; [exact stay_nan|split; [exact UT|split; [exact HT|split; [exact LI|split; [discriminate|exact EP]]]]]].
  unfold estimate_pose. cbv zeta. rewrite (last_index_value square3 0 4 (-1) ltac:(lia) LI). change 0%Z with (Z.of_nat 0) at 1. rewrite E.
  rewrite EM. cbv zeta in D. rewrite (proj2 D EP). cbn [first_pose length].
  destruct (lm_stay _ _ (opt_terminate 10 (1 / 1000000)) _ 11 _ 1 Cholesky r SS) as [EL|[st EL]].
  - rewrite EL. reflexivity.
  - exfalso. revert EL. change 11%nat with (10 + 1)%nat. apply lm_terminates_within_limit. lia.
Qed.
(** two bundles of two points *)
Example bundles_case : check_consistency square3 [square2] [[1; 1; 1; 1]] [beside] [flip] = true /\ (forall n, In n [2; 2]%nat -> (0 < n)%nat) /\
  (fold_right Nat.add 0 [2; 2]%nat <= length square3)%nat /\ ~ enough_points [[1; 1; 1; 1]] 2 false (seq 2 2).
Proof.
  split; [reflexivity|]. split; [intros n [<-|[<-|[]]]; lia|]. split; [cbn; lia|]. intros [_ [H|(c & Hc & H)]]; [discriminate|].
  revert H. apply Nat.lt_nge. unfold visible_points. cbn [seq filter]. repeat destruct (Req_EM_T _ 0); cbn; lia.
Qed.
Print Assumptions estimated_pose.
Print Assumptions estimate_no_worse.
Print Assumptions estimate_returns.
Print Assumptions start_from_camera.
Print Assumptions start_from_camera_refuted.
Print Assumptions bundles_independent.
Print Assumptions too_few_points.

(** Lemmas for MultiCamProps.v *)
From Coq Require Import Reals Lra Lia List ZArith Arith Bool Permutation.
Import ListNotations.
From Verif Require Import OrthoIterProofs Mat Quat QuatProofs QuatMatProofs QuatTrigProofs Jacobians LevMarq LevMarqProofs LevMarqProps AbsOrient NewFunction NewFunctionProofs NewFunctionProps
  PlanarPose PlanarFitProps MultiCam.
Open Scope R_scope.

(** ** The optimizer: what it returns is no worse than where it started, NaN included *)
Lemma lm_no_worse n eval normalize lin term meas factor fuel p0 ss k p r : nan_stays lin ->
  levenberg_marquardt n eval None normalize lin term meas factor fuel p0 ss k = Done (Some p) (Some r) ->
  sum_of_squares n eval None meas p = Some r /\ exists r0, sum_of_squares n eval None meas p0 = Some r0 /\ r <= r0.
Proof.
  intros NS E. split.
  { symmetry. apply (lm_reports_its_residual n eval None normalize lin term meas factor fuel p0 ss k p (Some r) I E). }
  unfold levenberg_marquardt in E.
  set (Inv := fun s : state => match err_prev s with Some e => exists r0, sum_of_squares n eval None meas p0 = Some r0 /\ e <= r0 | None => True end /\ (err_prev s = None -> lin_prev s = None)).
  assert (IS : forall s s' b, Inv s -> round n eval None normalize lin term meas factor s = Some (s', b) -> Inv s').
  { unfold Inv. intros s s' b (HI & HN) HR'. unfold round in HR'. cbv zeta in HR'. destruct (err_prev s) as [e0|] eqn:EE.
    + destruct (lin _ _) as [dx|].
      * set (np := match params s with Some _ => _ | None => _ end) in HR'. set (l := linearise _ _ _ np) in *.
        destruct (residual _ l) as [e1|] eqn:E1.
        -- cbn [ge] in HR'. destruct (Rle_dec e0 e1); injection HR'; intros _ <-; cbn [err_prev lin_prev]; (split; [|discriminate]).
           ++ exact HI.
           ++ destruct HI as (r0 & H0 & H1). exists r0. split; [exact H0|lra].
        -- cbn [ge] in HR'. injection HR'; intros _ <-; cbn [err_prev lin_prev]. split; [exact I|]. intros _. destruct l; [discriminate|reflexivity].
      * destruct (kind s); try discriminate. injection HR'; intros _ <-. cbn [err_prev lin_prev]. split; [exact HI|discriminate].
    + rewrite (HN eq_refl) in HR'. cbn [normal_equations option_map] in HR'. specialize (NS (kind s)). destruct (lin (kind s) None) as [[dx|]|].
      * exfalso. exact (NS dx eq_refl).
      * replace (match params s with Some _ | _ => None end) with (@None vect) in HR' by (destruct (params s); reflexivity).
        cbn in HR'. injection HR'; intros _ <-. cbn [err_prev lin_prev]. split; [exact I|reflexivity].
      * destruct (kind s); try discriminate. injection HR'; intros _ <-. cbn [err_prev lin_prev]. split; [exact I|reflexivity]. }
  assert (I0 : Inv (initial n eval None meas p0 ss k)).
  { unfold Inv, initial. cbn [err_prev lin_prev]. destruct (residual _ _) as [r0|] eqn:R0.
    + split; [|discriminate]. rewrite residual_sos in R0 by exact I. exists r0. split; [exact R0|lra].
    + split; [exact I|]. intros _. destruct (linearise _ _ _ _); [discriminate|reflexivity]. }
  destruct (loop_invariant _ _ _ _ _ _ _ _ _ _ Inv (Some p) (Some r) IS I0 E) as (s & [HI _] & _ & Es).
  rewrite <- Es in HI. exact HI.
Qed.

(** ** Collecting the observations *)
Definition in_int (z : Z) : Prop := (0 <= z < 2 ^ 31)%Z.
Lemma size_t_int z : in_int z -> size_t z = z.
Proof. unfold in_int, size_t. intros H. apply Z.mod_small. split; [lia|]. assert (2 ^ 31 < 2 ^ 64)%Z by reflexivity. lia. Qed.
Section collect.
Variables (p3d : list vec3) (p2d : list (list image)) (w : list (list R)).
Definition pt (i : nat) : vec3 := nth i p3d v3zero.
Definition im (c i : nat) : image := nth i (nth c p2d []) (0, 0).
Definition wt (c i : nat) : R := nth i (nth c w []) 0.
Definition seen (l : list nat) (c : nat) : list nat := filter (fun i => nonzero (wt c i)) l.
Hypothesis HL : length p2d = length w.
Hypothesis HC : forall c, (c < length w)%nat -> length (nth c w []) = length p3d /\ length (nth c p2d []) = length p3d.

Lemma look_some {A} (l : list (list A)) d c i : (c < length l)%nat -> (i < length (nth c l []))%nat -> look l c i = Some (nth i (nth c l []) d).
Proof.
  intros H1 H2. unfold look. rewrite (nth_error_nth' l [] H1). apply nth_error_nth', H2.
Qed.

Lemma visit_all start cam l s : (cam < length w)%nat -> (forall i, In i l -> (i < length p3d)%nat) ->
  exists s', fold_left (visit p3d p2d w start cam) l (Some s) = Some s' /\
  observations s' = observations s ++ map (fun i => ((i - start)%nat, cam)) (seen l cam) /\
  p3d_local s' = (if (cam =? 0)%nat then p3d_local s ++ map pt l else p3d_local s) /\
  (forall c, p3d_filtered s' c = if (c =? cam)%nat then p3d_filtered s cam ++ map pt (seen l cam) else p3d_filtered s c) /\
  (forall c, p2d_local s' c = if (c =? cam)%nat then p2d_local s cam ++ map (im cam) (seen l cam) else p2d_local s c) /\
  total s' = (total s + length (seen l cam))%nat /\
  (forall c, count s' c = if (c =? cam)%nat then (count s cam + length (seen l cam))%nat else count s c).
Proof.
  intros Hc. revert s. induction l as [|i l IH]; intros s Hl.
  - exists s. cbn [fold_left seen filter map]. rewrite !app_nil_r. split; [reflexivity|]. split; [reflexivity|].
    split; [destruct (cam =? 0)%nat; reflexivity|].
    split; [intros c; destruct (Nat.eqb_spec c cam) as [->|]; rewrite ?app_nil_r; reflexivity|].
    split; [intros c; destruct (Nat.eqb_spec c cam) as [->|]; rewrite ?app_nil_r; reflexivity|].
    split; [cbn; lia|]. intros c. destruct (Nat.eqb_spec c cam) as [->|]; cbn; lia.
  - assert (Hi : (i < length p3d)%nat) by (apply Hl; left; reflexivity).
    destruct (HC cam Hc) as [L1 L2].
    cbn [fold_left]. unfold visit at 2. rewrite (look_some w 0 cam i Hc) by lia. fold (wt cam i).
    rewrite (look_some p2d (0, 0) cam i) by lia. rewrite (nth_error_nth' p3d v3zero Hi). fold (pt i) (im cam i).
    cbn [seen filter]. fold (seen l cam).
    destruct (nonzero (wt cam i)) eqn:NZ; destruct (Nat.eqb_spec cam 0) as [Z|Z]; cbv iota zeta;
    match goal with |- exists s', fold_left _ _ (Some ?t) = _ /\ _ => destruct (IH t (fun j Hj => Hl j (or_intror Hj))) as (s' & E & A1 & A2 & A3 & A4 & A5 & A6) end;
    exists s'; (split; [exact E|]); cbn [observations p3d_local p3d_filtered p2d_local total count] in *; cbn [map length].
    + replace (cam =? 0)%nat with true in A2 by (rewrite Z; reflexivity).
      rewrite A1, A2, A5, <- !app_assoc. split; [reflexivity|]. split; [reflexivity|]. split; [|split; [|split]].
      * intros c. rewrite A3. unfold at_camera. rewrite Nat.eqb_refl. destruct (c =? cam)%nat; [rewrite <- app_assoc|]; reflexivity.
      * intros c. rewrite A4. unfold at_camera. rewrite Nat.eqb_refl. destruct (c =? cam)%nat; [rewrite <- app_assoc|]; reflexivity.
      * lia.
      * intros c. rewrite A6. unfold at_camera. rewrite Nat.eqb_refl. destruct (c =? cam)%nat; lia.
    + replace (cam =? 0)%nat with false in A2 by (symmetry; apply Nat.eqb_neq, Z).
      rewrite A1, A2, A5, <- !app_assoc. split; [reflexivity|]. split; [reflexivity|]. split; [|split; [|split]].
      * intros c. rewrite A3. unfold at_camera. rewrite Nat.eqb_refl. destruct (c =? cam)%nat; [rewrite <- app_assoc|]; reflexivity.
      * intros c. rewrite A4. unfold at_camera. rewrite Nat.eqb_refl. destruct (c =? cam)%nat; [rewrite <- app_assoc|]; reflexivity.
      * lia.
      * intros c. rewrite A6. unfold at_camera. rewrite Nat.eqb_refl. destruct (c =? cam)%nat; lia.
    + replace (cam =? 0)%nat with true in A2 by (rewrite Z; reflexivity). rewrite A2, <- app_assoc. repeat (split; [assumption || reflexivity|]). assumption.
    + replace (cam =? 0)%nat with false in A2 by (symmetry; apply Nat.eqb_neq, Z). repeat (split; [assumption || reflexivity|]). assumption.
Qed.

Lemma collect_all start l : (forall i, In i l -> (i < length p3d)%nat) -> forall m, (m <= length w)%nat ->
  exists s, fold_left (fun acc cam => fold_left (visit p3d p2d w start cam) l acc) (seq 0 m) (Some nothing) = Some s /\
  observations s = flat_map (fun c => map (fun i => ((i - start)%nat, c)) (seen l c)) (seq 0 m) /\
  p3d_local s = (if (m =? 0)%nat then [] else map pt l) /\
  (forall c, (c < m)%nat -> p3d_filtered s c = map pt (seen l c) /\ p2d_local s c = map (im c) (seen l c) /\ count s c = length (seen l c)) /\
  (forall c, (m <= c)%nat -> p3d_filtered s c = [] /\ p2d_local s c = [] /\ count s c = O) /\ total s = length (observations s).
Proof.
  intros Hl m. induction m as [|m IH]; intros Hm.
  - exists nothing. cbn. repeat split; try reflexivity; lia.
  - destruct IH as (s & E & A1 & A2 & A3 & A4 & A5); [lia|].
    rewrite seq_S, fold_left_app, E. cbn [fold_left Nat.add].
    destruct (visit_all start m l s) as (s' & E' & B1 & B2 & B3 & B4 & B5 & B6); [lia|exact Hl|].
    exists s'. split; [exact E'|]. split; [rewrite B1, A1, flat_map_app; cbn [flat_map]; rewrite app_nil_r; reflexivity|].
    split.
    { rewrite B2, A2. destruct m; reflexivity. }
    destruct (A4 m (le_n m)) as (F1 & F2 & F3). split; [|split].
    + intros c Hc. rewrite B3, B4, B6. destruct (Nat.eqb_spec c m) as [->|N]; [rewrite F1, F2, F3; repeat split; reflexivity|]. apply A3. lia.
    + intros c Hc. rewrite B3, B4, B6. destruct (Nat.eqb_spec c m) as [->|N]; [lia|]. apply A4. lia.
    + rewrite B5, B1, A5, app_length, map_length. reflexivity.
Qed.

Lemma collect_range start n : in_int (Z.of_nat (start + n)) -> (0 < n)%nat -> (start + n <= length p3d)%nat -> (0 < length w)%nat ->
  exists s, collect p3d p2d w (Z.of_nat start) (Z.of_nat (start + n) - 1) = Some s /\
  let l := seq start n in
  observations s = flat_map (fun c => map (fun i => ((i - start)%nat, c)) (seen l c)) (seq 0 (length w)) /\
  p3d_local s = map pt l /\
  (forall c, (c < length w)%nat -> p3d_filtered s c = map pt (seen l c) /\ p2d_local s c = map (im c) (seen l c) /\ count s c = length (seen l c)) /\
  (forall c, (length w <= c)%nat -> p3d_filtered s c = [] /\ p2d_local s c = [] /\ count s c = O) /\ total s = length (observations s).
Proof.
  intros HI Hn Hs Hw. unfold collect. unfold in_int in HI.
  rewrite (size_t_int (Z.of_nat start)) by (unfold in_int; lia). rewrite (size_t_int (Z.of_nat (start + n) - 1)) by (unfold in_int; lia).
  rewrite (proj2 (Z.leb_le _ _)) by lia. rewrite (proj2 (Z.ltb_lt _ _)) by lia.
  replace (Z.to_nat (Z.of_nat start)) with start by lia. replace (Z.to_nat (Z.of_nat (start + n) - 1 - Z.of_nat start + 1)) with n by lia.
  destruct (collect_all start (seq start n)) with (m := length w) as (s & E & A1 & A2 & A3 & A4); [intros i Hi; apply in_seq in Hi; lia|lia|].
  exists s. split; [exact E|]. cbv zeta. split; [exact A1|]. split; [|split; [exact A3|exact A4]]. rewrite A2. rewrite (proj2 (Nat.eqb_neq _ _)) by lia. reflexivity.
Qed.
End collect.

Lemma check_consistency_spec p3d p2d w poses mats : check_consistency p3d p2d w poses mats = true ->
  (3 <= length p3d)%nat /\ length p2d = length w /\ length poses = length w /\ length mats = length w /\
  forall c, (c < length w)%nat -> length (nth c w []) = length p3d /\ length (nth c p2d []) = length p3d.
Proof.
  unfold check_consistency. rewrite !andb_true_iff. intros ((((A & B) & C) & D) & E).
  apply Nat.leb_le in A. apply Nat.eqb_eq in B, C, D. repeat split; try lia.
  - rewrite forallb_forall in E. specialize (E c). rewrite andb_true_iff, !Nat.eqb_eq in E. destruct E as [E1 _]; [apply in_seq; lia|lia].
  - rewrite forallb_forall in E. specialize (E c). rewrite andb_true_iff, !Nat.eqb_eq in E. destruct E as [_ E2]; [apply in_seq; lia|lia].
Qed.

(** ** The objective function *)
Lemma expression_value junk R t K x input j i : fst (fst (evaluate_with_jacobian junk (camera_expression R t K x) input j)) i = camera_image R t K x input i.
Proof.
  set (g := camera_expression R t K x). destruct (calls_independent junk g g input j eq_refl) as (_ & _ & _ & E). rewrite E. cbn [fst].
  rewrite evaluate_composes. unfold g. cbn. unfold camera_image, arg. cbn. unfold Rdiv. rewrite Rmult_1_l. reflexivity.
Qed.
Lemma objective_before junk pts Rs ts Ks vis : forall i0 input result J k, (k < 2 * i0)%nat -> fst (objective_from junk pts Rs ts Ks vis i0 input result J) k = result k.
Proof.
  induction vis as [|[a b] vis IH]; intros i0 input result J k Hk; [reflexivity|]. cbn [objective_from].
  destruct (evaluate_with_jacobian _ _ _ _) as [rS g]. rewrite IH by lia. unfold write_rows.
  pose proof (Nat.div_mod k 2 ltac:(lia)) as KD. destruct (Nat.eqb_spec (k / 2) i0); [lia|reflexivity].
Qed.
Definition observed (poses : list pose) (mats : list mat) (p : pose) (x : vec3) (cam : nat) (uv : image) : R :=
  point_error (cam_matrix mats cam) (pmul (nth cam poses pone) p) uv x.
Lemma from_log_rigid v : rigid (log_pose v).
Proof. apply from_log_unit. Qed.
Lemma of3_mat q x i : unit q -> (i < 3)%nat -> mvec 3 (qmat q) (of3 x) i = of3 (qrot q x) i.
Proof. intros U Hi. rewrite <- (mv3_qmat _ x U). unfold mvec, of3, vlist, mv3. cbn [sum nth]. idx i Hi; cbn; ring. Qed.
Lemma camera_point poses x v cam i : (forall c, In c poses -> rigid c) -> (i < 3)%nat ->
  vadd (cam_translation poses cam) (mvec 3 (cam_rotation poses cam) (vadd v (lie_rotate (of3 x) (fun i => v (3 + i)%nat)))) i = of3 (papp (pmul (nth cam poses pone) (log_pose v)) x) i.
Proof.
  intros HP Hi.
  assert (U : rigid (nth cam poses pone)).
  { destruct (Nat.lt_ge_cases cam (length poses)); [apply HP, nth_In; assumption|rewrite nth_overflow by assumption]. unfold rigid, pone, unit, qnorm. cbn. lra. }
  pose proof (from_log_rigid v) as UL. rewrite papp_mul by assumption. unfold vadd at 1, cam_translation, cam_rotation.
  transitivity (of3 (tra (nth cam poses pone)) i + mvec 3 (qmat (rot (nth cam poses pone))) (of3 (papp (log_pose v) x)) i).
  - f_equal. unfold mvec. apply sum_ext. intros j Hj. f_equal. unfold vadd.
    rewrite lie_rotate_matrix by exact Hj. rewrite of3_mat by (exact UL || exact Hj).
    change (vec_of (fun i0 => v (3 + i0)%nat) 0) with (vec_of v 3). unfold papp, log_pose. cbn [rot tra].
    unfold of3, vlist, v3add, vec_of. idx j Hj; cbn; ring.
  - rewrite of3_mat by (exact U || exact Hi). unfold papp. unfold of3, vlist, v3add. idx i Hi; cbn; ring.
Qed.
Lemma camera_row K poses x v cam k : (forall c, In c poses -> rigid c) ->
  mvec 3 K (vadd (cam_translation poses cam) (mvec 3 (cam_rotation poses cam) (vadd v (lie_rotate (of3 x) (fun i => v (3 + i)%nat))))) k
  = mvec 3 K (of3 (papp (pmul (nth cam poses pone) (log_pose v)) x)) k.
Proof. intros HP. apply (sum_ext 3). intros j Hj. cbv beta. f_equal. apply camera_point; assumption. Qed.

Lemma objective_sum junk poses mats p3l v : (forall c, In c poses -> rigid c) -> forall obs ms i0 result J, length ms = length obs ->
  sum (2 * length obs) (fun k => let e := measured ms k - fst (objective_from junk (points p3l) (cam_rotation poses) (cam_translation poses) (cam_matrix mats) obs i0 v result J) (2 * i0 + k)%nat in e * e)
  = lsum (fun om => observed poses mats (log_pose v) (nth (fst (fst om)) p3l v3zero) (snd (fst om)) (snd om)) (combine obs ms).
Proof.
  intros HP. induction obs as [|[a cam] obs IH]; intros [|uv ms] i0 result J L; try discriminate; [reflexivity|].
  cbn [length]. rewrite sum_pairs. cbn [combine lsum fold_right fst snd objective_from].
  pose proof (expression_value junk (cam_rotation poses cam) (cam_translation poses cam) (cam_matrix mats cam) (points p3l a) v (rows_of i0 J)) as EV.
  destruct (evaluate_with_jacobian _ _ _ _) as [rS g]. cbn [fst] in EV.
  f_equal.
  - cbv zeta. rewrite !objective_before by lia. unfold write_rows.
    replace ((2 * i0 + 0) / 2)%nat with i0 by (rewrite Nat.mul_comm, Nat.div_add_l by lia; cbn; lia).
    replace ((2 * i0 + 1) / 2)%nat with i0 by (rewrite Nat.mul_comm, Nat.div_add_l by lia; cbn; lia).
    replace ((2 * i0 + 0) mod 2)%nat with 0%nat by (rewrite Nat.add_comm, (Nat.mul_comm 2), Nat.mod_add by lia; reflexivity).
    replace ((2 * i0 + 1) mod 2)%nat with 1%nat by (rewrite Nat.add_comm, (Nat.mul_comm 2), Nat.mod_add by lia; reflexivity).
    rewrite Nat.eqb_refl, !EV. unfold camera_image, points. cbv zeta. rewrite !camera_row by exact HP.
    unfold observed, point_error, measured, vlist. cbn [flat_map app nth]. fold v3zero. unfold v3zero. unfold Rdiv. ring.
  - change (fold_right _ 0 (combine obs ms)) with (lsum (fun om : nat * nat * image => observed poses mats (log_pose v) (nth (fst (fst om)) p3l v3zero) (snd (fst om)) (snd om)) (combine obs ms)).
    rewrite <- (IH ms (S i0) (write_rows i0 (fst rS) result) (write_block i0 (snd rS) J)) by (injection L; auto).
    apply sum_ext. intros k Hk. cbv zeta. replace (2 * S i0 + k)%nat with (2 * i0 + (2 + k))%nat by lia. reflexivity.
Qed.

Lemma multi_sum poses mats p3l obs ms v r : (forall c, In c poses -> rigid c) -> length ms = length obs ->
  (sum_of_squares (2 * length obs) (multi_eval poses mats p3l obs) None (measured ms) v = Some r <->
   (forall o, In o obs -> mvec 3 (cam_matrix mats (snd o)) (of3 (papp (pmul (nth (snd o) poses pone) (log_pose v)) (nth (fst o) p3l v3zero))) 2%nat <> 0) /\
   r = lsum (fun om => observed poses mats (log_pose v) (nth (fst (fst om)) p3l v3zero) (snd (fst om)) (snd om)) (combine obs ms)).
Proof.
  intros HP L. unfold sum_of_squares, multi_eval.
  assert (HD : forall o, depth poses mats p3l v o = mvec 3 (cam_matrix mats (snd o)) (of3 (papp (pmul (nth (snd o) poses pone) (log_pose v)) (nth (fst o) p3l v3zero))) 2%nat).
  { intros o. unfold depth, points. rewrite camera_row by exact HP. reflexivity. }
  assert (HF : forallb (fun o => nonzero (depth poses mats p3l v o)) obs = true <->
    forall o, In o obs -> mvec 3 (cam_matrix mats (snd o)) (of3 (papp (pmul (nth (snd o) poses pone) (log_pose v)) (nth (fst o) p3l v3zero))) 2%nat <> 0).
  { rewrite forallb_forall. split; intros H o Ho; specialize (H o Ho); rewrite HD in * || rewrite <- HD in *; unfold nonzero in *; destruct (Req_EM_T _ 0); try discriminate; tauto. }
  destruct (forallb _ obs).
  - pose proof (objective_sum (fun _ _ => 0) poses mats p3l v HP obs ms 0 (fun _ => 0) (fun _ _ => 0) L) as OS. cbv zeta in OS.
    assert (E : sum (2 * length obs) (fun k => (measured ms k - fst (objective (fun _ _ => 0) (points p3l) (cam_rotation poses) (cam_translation poses) (cam_matrix mats) obs v (fun _ => 0) (fun _ _ => 0)) k) *
       (measured ms k - fst (objective (fun _ _ => 0) (points p3l) (cam_rotation poses) (cam_translation poses) (cam_matrix mats) obs v (fun _ => 0) (fun _ _ => 0)) k)) =
       lsum (fun om => observed poses mats (log_pose v) (nth (fst (fst om)) p3l v3zero) (snd (fst om)) (snd om)) (combine obs ms)).
    { rewrite <- OS. apply sum_ext. intros k Hk. reflexivity. }
    destruct (objective _ _ _ _ _ _ _ _ _) as [res J]. cbn [fst] in E.
    rewrite E. split; [intros H; split; [apply HF; reflexivity|injection H; auto]|intros [_ ->]; reflexivity].
  - split; [discriminate|]. intros [V _]. apply HF in V. discriminate.
Qed.

(** ** Lists *)
Lemma combine_flat_map {A B C} (f : A -> list B) (g : A -> list C) l : (forall x, In x l -> length (f x) = length (g x)) ->
  combine (flat_map f l) (flat_map g l) = flat_map (fun x => combine (f x) (g x)) l.
Proof.
  induction l as [|x l IH]; intros H; [reflexivity|]. cbn [flat_map]. rewrite <- IH by (intros; apply H; right; assumption).
  specialize (H x (or_introl eq_refl)). revert H. generalize (f x) (g x) (flat_map f l) (flat_map g l). clear.
  induction l as [|a l IH]; intros [|b m] u v L; try discriminate; [reflexivity|]. cbn. f_equal. apply IH. injection L. auto.
Qed.
Lemma combine_map {A B C} (f : A -> B) (g : A -> C) l : combine (map f l) (map g l) = map (fun x => (f x, g x)) l.
Proof. induction l as [|x l IH]; [reflexivity|]. cbn. rewrite IH. reflexivity. Qed.
Lemma lsum_app {A} (f : A -> R) l m : lsum f (l ++ m) = lsum f l + lsum f m.
Proof. unfold lsum. induction l as [|x l IH]; cbn [app fold_right]; [symmetry; apply Rplus_0_l|]. rewrite IH. symmetry. apply Rplus_assoc. Qed.
Lemma lsum_flat_map {A B} (f : B -> R) (g : A -> list B) l : lsum f (flat_map g l) = lsum (fun x => lsum f (g x)) l.
Proof. induction l as [|x l IH]; [reflexivity|]. cbn [flat_map]. rewrite lsum_app, IH. reflexivity. Qed.
Lemma lsum_map' {A B} (f : B -> R) (h : A -> B) l : lsum f (map h l) = lsum (fun x => f (h x)) l.
Proof. induction l as [|x l IH]; [reflexivity|]. cbn. unfold lsum in *. rewrite IH. reflexivity. Qed.
Lemma lsum_ext' {A} (f g : A -> R) l : (forall x, In x l -> f x = g x) -> lsum f l = lsum g l.
Proof. induction l as [|x l IH]; intros H; [reflexivity|]. cbn. unfold lsum in *. rewrite H by (left; reflexivity). rewrite IH; [reflexivity|]. intros; apply H; right; assumption. Qed.

Lemma fold_min l : forall x, (fold_left Nat.min l x <= x)%nat /\ (forall y, In y l -> (fold_left Nat.min l x <= y)%nat) /\ (fold_left Nat.min l x = x \/ In (fold_left Nat.min l x) l).
Proof.
  induction l as [|a l IH]; intros x; cbn [fold_left]; [repeat split; [lia|intros y []|left; reflexivity]|].
  destruct (IH (Nat.min x a)) as (H1 & H2 & H3). split; [lia|]. split.
  - intros y [<-|Hy]; [lia|apply H2, Hy].
  - destruct H3 as [H3|H3]; [|right; right; exact H3]. destruct (Nat.min_spec x a) as [[_ E]|[_ E]]; rewrite E in H3; [left; rewrite E; exact H3|right; left; rewrite E; auto].
Qed.
Lemma minimum_spec l m : minimum l = Some m -> In m l /\ forall y, In y l -> (m <= y)%nat.
Proof.
  destruct l as [|x l]; [discriminate|]. cbn [minimum]. intros H. injection H. intros <-. destruct (fold_min l x) as (H1 & H2 & H3). split.
  - destruct H3 as [->|H3]; [left; reflexivity|right; exact H3].
  - intros y [<-|Hy]; [exact H1|apply H2, Hy].
Qed.
Lemma max_index_spec_from l : forall pre best bv, (best < length pre)%nat -> nth best pre 0%nat = bv -> (forall j, (j < length pre)%nat -> (nth j pre 0 <= bv)%nat) ->
  let r := max_index_from l (length pre) best bv in (r < length (pre ++ l))%nat /\ forall j, (j < length (pre ++ l))%nat -> (nth j (pre ++ l) 0 <= nth r (pre ++ l) 0)%nat.
Proof.
  induction l as [|x l IH]; intros pre best bv Hb Hv HM; cbn [max_index_from]; cbv zeta.
  - rewrite app_nil_r. split; [exact Hb|]. intros j Hj. rewrite Hv. apply HM, Hj.
  - assert (EL : S (length pre) = length (pre ++ [x])) by (rewrite app_length; cbn; lia).
    replace (pre ++ x :: l) with ((pre ++ [x]) ++ l) by (rewrite <- app_assoc; reflexivity). rewrite EL.
    destruct (Nat.ltb_spec bv x) as [H|H]; apply IH.
    + rewrite app_length. cbn. lia.
    + rewrite app_nth2, Nat.sub_diag by lia. reflexivity.
    + intros j Hj. rewrite app_length in Hj. cbn in Hj. destruct (Nat.lt_ge_cases j (length pre)).
      * rewrite app_nth1 by assumption. specialize (HM j H0). lia.
      * replace j with (length pre) by lia. rewrite app_nth2, Nat.sub_diag by lia. cbn. lia.
    + rewrite app_length. cbn. lia.
    + rewrite app_nth1 by assumption. exact Hv.
    + intros j Hj. rewrite app_length in Hj. cbn in Hj. destruct (Nat.lt_ge_cases j (length pre)).
      * rewrite app_nth1 by assumption. apply HM. assumption.
      * replace j with (length pre) by lia. rewrite app_nth2, Nat.sub_diag by lia. cbn. exact H.
Qed.
Lemma max_index_spec l : l <> [] -> (max_index l < length l)%nat /\ forall j, (j < length l)%nat -> (nth j l 0 <= nth (max_index l) l 0)%nat.
Proof.
  destruct l as [|x l]; [congruence|]. intros _. cbn [max_index].
  apply (max_index_spec_from l [x] 0 x); [cbn; lia|reflexivity|]. intros [|j] Hj; [cbn; lia|cbn in Hj; lia].
Qed.

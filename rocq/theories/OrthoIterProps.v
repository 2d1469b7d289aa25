(** Pose from 2D-3D correspondences by orthogonal iteration (C128-C131). *)
From Coq Require Import Reals List Arith Bool Lra Lia Psatz.
Import ListNotations.
From Verif Require Import Mat Quat QuatProofs QuatProps AbsOrient AbsOrientProofs AbsOrientProps AverageProps OrthoIter OrthoIterProofs.
Open Scope R_scope.

(** * Specification *)
(** [d] is the squared distance of [y] from the line through the origin and (u, v, 1) *)
Definition ray (uv : R * R) (c : R) : vec3 := V3 (c * fst uv) (c * snd uv) c.
Definition line_distance2 (uv : R * R) (y : vec3) (d : R) : Prop :=
  (exists c, d = sq3 (v3sub y (ray uv c))) /\ forall c, d <= sq3 (v3sub y (ray uv c)).
(** [e] is the sum of the squared distances of the object points, moved by the pose, from the lines
    of sight of their images *)
Inductive object_error (p : pose) : list (R * R) -> list vec3 -> R -> Prop :=
| oe_nil : object_error p [] [] 0
| oe_cons uv x images object d e : line_distance2 uv (papp p x) d -> object_error p images object e ->
    object_error p (uv :: images) (x :: object) (d + e).

(** contracts of the LAPACK routines *)
Definition eigen_ok (syev : syev4_oracle) : Prop := forall left right lc rc, syev_correct syev (horn_of left right lc rc).
Definition inverse_ok (inv : mat -> mat) (images : list (R * R)) : Prop :=
  meq 3 3 (mmul 3 (spread_matrix images) (inv (spread_matrix images))) eye.

(** ** The error is a function of the pose *)
Definition pose_error (p : pose) (images : list (R * R)) (object : list vec3) : R :=
  lsum (fun vx => gap (fst vx) (papp p (snd vx))) (combine (homogeneous images) object).
Lemma hom_ray uv : dot3 (V3 (fst uv) (snd uv) 1) (V3 (fst uv) (snd uv) 1) <> 0.
Proof. unfold dot3. cbn. pose proof (Rle_0_sqr (fst uv)). pose proof (Rle_0_sqr (snd uv)). unfold Rsqr in *. lra. Qed.
Lemma gap_distance uv y : line_distance2 uv y (gap (V3 (fst uv) (snd uv) 1) y).
Proof.
  set (v := V3 (fst uv) (snd uv) 1). pose proof (hom_ray uv) as N. fold v in N. split.
  - exists (dot3 v y / dot3 v v). unfold gap, onto, v, ray, v3scale. cbn [vx vy vz]. rewrite Rmult_1_r. reflexivity.
  - intros c. assert (E : ray uv c = onto v (v3scale c v)).
    { unfold onto. replace (dot3 v (v3scale c v) / dot3 v v) with c.
      - unfold ray, v3scale, v. cbn. rewrite Rmult_1_r. reflexivity.
      - replace (dot3 v (v3scale c v)) with (c * dot3 v v) by (unfold dot3; cbn; ring). field. exact N. }
    rewrite E. apply off_least. exact N.
Qed.
Lemma line_distance_unique uv y d e : line_distance2 uv y d -> line_distance2 uv y e -> d = e.
Proof.
  intros [[c ->] A] [[c' ->] B]. apply Rle_antisym; auto.
Qed.
Lemma object_error_pose p images object : length images = length object -> forall e,
  object_error p images object e <-> e = pose_error p images object.
Proof.
  unfold pose_error. revert object. induction images as [|uv l IH]; intros [|x m] HL e; try discriminate.
  - cbn. split; [intros H; inversion H; reflexivity|intros ->; constructor].
  - cbn [homogeneous map combine lsum fold_right fst snd]. fold (homogeneous l). injection HL as HL. split.
    + intros H. inversion H as [|? ? ? ? d e' D H']; subst. rewrite (line_distance_unique _ _ _ _ D (gap_distance uv (papp p x))).
      apply IH in H'; [|exact HL]. rewrite H'. reflexivity.
    + intros ->. apply (oe_cons p uv x l m); [apply gap_distance|]. apply IH; [exact HL|]. reflexivity.
Qed.
Lemma pose_error_centred images object q t : length images = length object -> unit q ->
  total_error (sights images) (map (fun x => v3add (mv3 (qmat q) x) t) (p3d object)) =
  pose_error (P q (v3sub t (mv3 (qmat q) (center object)))) images object.
Proof.
  intros HL U. rewrite error_lsum. unfold pose_error, p3d, shift_to_center. fold (center object).
  rewrite combine_map_r, lsum_map. apply lsum_ext. intros [v x] _. cbn [fst snd]. f_equal. unfold papp. cbn [rot tra].
  rewrite !mv3_qmat by exact U.
  replace (v3sub x (center object)) with (v3add x (v3opp (center object))) by (apply v3_ext; cbn; ring).
  rewrite qrot_add, qrot_opp. apply v3_ext; cbn [v3add v3opp v3sub vx vy vz]; ring.
Qed.

Section OI.
Variable syev : syev4_oracle.
Variable inv : mat -> mat.
Variable big : R.
Variable images : list (R * R).
Variable object : list vec3.
Hypothesis Hlen : length images = length object.
Hypothesis Hne : object <> [].
Hypothesis HS : eigen_ok syev.
Hypothesis HI : inverse_ok inv images.

Notation step := (oi_step syev inv images object).
Notation X := (p3d object).
Notation T := (translation images object inv).
Let placed q t := map (fun x => v3add (mv3 (qmat q) x) t) X.

Lemma left_of (g : vec3 -> vec3) : zip_with mv3 (sights images) (map g X) = map (fun vx => onto (fst vx) (g (snd vx))) (combine (homogeneous images) X).
Proof. unfold zip_with, sights. rewrite combine_map_l, combine_map_r, !map_map. apply map_ext. intros [v x]. apply los_onto. Qed.
Lemma combine_over {A B C} (f : A * B -> C) (l : list A) (m : list B) : combine (map f (combine l m)) m = map (fun ab => (f ab, snd ab)) (combine l m).
Proof. revert m. induction l as [|a l IH]; intros [|c m]; cbn; [reflexivity..|]. rewrite IH. reflexivity. Qed.

Lemma step_shape pts q t pts' e : length pts = length images -> step pts = Some (q, t, pts', e) ->
  unit q /\ t = T (qmat q) /\ pts' = placed q t /\ e = total_error (sights images) pts' /\
  forall r, unit r -> rotation_cost q v3zero v3zero (shift_to_center (zip_with mv3 (sights images) pts)) X <=
    rotation_cost r v3zero v3zero (shift_to_center (zip_with mv3 (sights images) pts)) X.
Proof.
  intros HP. unfold oi_step. set (a := zip_with mv3 (sights images) pts).
  assert (LA : length a = length images).
  { unfold a. rewrite zip_length; [unfold sights, homogeneous; rewrite !map_length; reflexivity|].
    unfold sights, homogeneous. rewrite !map_length. symmetry. exact HP. }
  assert (NA : a <> []) by (intros E; rewrite E in LA; cbn in LA; destruct object; [congruence|rewrite Hlen in LA; discriminate]).
  rewrite (centered_centroid a NA). unfold p3d at 2. rewrite (centered_centroid object Hne). fold X.
  destruct (estimate_rotation syev (shift_to_center a) X v3zero v3zero) as [q0|] eqn:ER; [|discriminate].
  intros E. injection E as <- <- <- <-.
  assert (LS : length (shift_to_center a) = length X).
  { unfold shift_to_center. rewrite map_length, LA. symmetry. apply p3d_length. exact Hlen. }
  destruct (rotation_optimal syev _ _ _ _ q0 LS (HS _ _ _ _) ER) as [U O]. repeat split; auto.
Qed.

(** ** C128 *)
(** the translation of a step is the best one for its rotation *)
Lemma step_translation pts q t pts' e t' : length pts = length images -> step pts = Some (q, t, pts', e) ->
  e <= total_error (sights images) (placed q t').
Proof.
  intros HP E. destruct (step_shape _ _ _ _ _ HP E) as (U & -> & -> & -> & _).
  unfold placed. apply (translation_least images object Hlen Hne inv (qmat q) t' HI).
Qed.

(** ** C129 *)
Lemma step_descends q0 t0 q t pts' e : unit q0 -> step (placed q0 t0) = Some (q, t, pts', e) ->
  e <= total_error (sights images) (placed q0 t0).
Proof.
  intros U0 E. assert (LP : length (placed q0 t0) = length images) by (unfold placed; rewrite map_length; apply p3d_length; exact Hlen).
  destruct (step_shape _ _ _ _ _ LP E) as (U & _ & _ & _ & O). specialize (O q0 U0).
  set (g := fun x => v3add (mv3 (qmat q0) x) t0) in *.
  set (L := combine (homogeneous images) X) in *.
  set (f := fun vx : vec3 * vec3 => onto (fst vx) (g (snd vx))) in *.
  assert (EA : zip_with mv3 (sights images) (placed q0 t0) = map f L) by apply (left_of g).
  rewrite EA in O. set (c := centroid (length (map f L)) (map f L)).
  assert (RC : forall r, unit r -> rotation_cost r v3zero v3zero (shift_to_center (map f L)) X =
    lsum (fun vx => sq3 (v3sub (v3add (mv3 (qmat r) (snd vx)) c) (f vx))) L).
  { intros r Ur. unfold rotation_cost, shift_to_center. fold c. rewrite map_map. unfold L at 1. rewrite combine_over, lsum_map. fold L.
    apply lsum_ext. intros [v x] _. cbn [fst snd]. rewrite mv3_qmat by exact Ur.
    replace (v3sub x v3zero) with x by (destruct x; apply v3_ext; cbn; ring).
    generalize (f (v, x)) (qrot r x). intros a b. unfold sq3, dot3. cbn. ring. }
  rewrite !RC in O by assumption.
  apply Rle_trans with (total_error (sights images) (placed q c)); [exact (step_translation _ _ _ _ _ c LP E)|].
  unfold placed at 1. rewrite error_lsum. fold L.
  apply Rle_trans with (lsum (fun vx => sq3 (v3sub (v3add (mv3 (qmat q) (snd vx)) c) (f vx))) L).
  { apply lsum_le. intros [v x] Hin. cbn [fst snd]. unfold gap, f. cbn [fst snd]. apply off_least. exact (L_sees images object v x Hin). }
  apply Rle_trans with (1 := O). unfold placed. rewrite error_lsum. fold L.
  (* the centroid is the best common shift *)
  set (d := v3sub t0 c).
  assert (S1 : lsum (fun vx => gap (fst vx) (v3add (mv3 (qmat q0) (snd vx)) t0)) L =
    lsum (fun vx => sq3 (v3sub (v3add (mv3 (qmat q0) (snd vx)) c) (f vx))) L +
    (2 * lsum (fun vx => dot3 d (v3sub (v3add (mv3 (qmat q0) (snd vx)) c) (f vx))) L + lsum (fun _ => sq3 d) L)).
  { rewrite <- lsum_scale, <- !lsum_plus. apply lsum_ext. intros [v x] _. unfold gap. cbn [fst snd].
    change (onto v (v3add (mv3 (qmat q0) x) t0)) with (f (v, x)).
    replace (v3add (mv3 (qmat q0) x) t0) with (v3add (v3add (mv3 (qmat q0) x) c) d) by (unfold d; apply v3_ext; cbn; ring).
    generalize (f (v, x)) (v3add (mv3 (qmat q0) x) c). intros a b. unfold sq3, dot3. cbn. ring. }
  rewrite S1.
  assert (Z : lsum (fun vx => dot3 d (v3sub (v3add (mv3 (qmat q0) (snd vx)) c) (f vx))) L = 0).
  { pose proof (sum_X images object Hlen Hne (qmat q0)) as SX. fold L in SX. rewrite v3sum_map in SX.
    pose proof (f_equal vx SX) as X1. pose proof (f_equal vy SX) as X2. pose proof (f_equal vz SX) as X3. cbn [vx vy vz v3zero] in X1, X2, X3.
    assert (NL : INR (length L) <> 0) by (unfold L; rewrite (L_length images object Hlen); apply Rgt_not_eq; apply (n_pos images object Hlen Hne)).
    assert (C1 : forall k, (k = vx \/ k = vy \/ k = vz) -> INR (length L) * k c = lsum (fun a => k (f a)) L).
    { intros k Hk. unfold c, centroid. rewrite map_length, v3sum_map. destruct Hk as [-> |[-> | ->]]; cbn [v3scale vx vy vz]; field; exact NL. }
    pose proof (C1 vx ltac:(auto)) as K1. pose proof (C1 vy ltac:(auto)) as K2. pose proof (C1 vz ltac:(auto)) as K3.
    rewrite (lsum_ext _ (fun a => (vx d * vx (mv3 (qmat q0) (snd a)) + (vx d * vx c + (- vx d) * vx (f a))) +
      ((vy d * vy (mv3 (qmat q0) (snd a)) + (vy d * vy c + (- vy d) * vy (f a))) +
       (vz d * vz (mv3 (qmat q0) (snd a)) + (vz d * vz c + (- vz d) * vz (f a)))))) by (intros a _; unfold dot3; cbn [v3sub v3add vx vy vz]; ring).
    rewrite !lsum_plus, !lsum_scale, !lsum_const, X1, X2, X3.
    rewrite <- K1, <- K2, <- K3. ring. }
  rewrite Z, lsum_const. pose proof (sq3_nonneg d). pose proof (pos_INR (length L)). nra.
Qed.

(** ** The loop *)
Notation loop := (oi_loop syev inv images object).
Notation run := (estimate_pose_2d3d syev inv big images object).

Lemma total_error_nonneg q t : 0 <= total_error (sights images) (placed q t).
Proof. unfold placed. rewrite error_lsum. apply lsum_nonneg. intros. apply sq3_nonneg. Qed.
Lemma hom_len : length (homogeneous images) = length images.
Proof. apply map_length. Qed.
Lemma placed_len q t : length (placed q t) = length images.
Proof. unfold placed. rewrite map_length. apply p3d_length. exact Hlen. Qed.

Lemma loop_found delta f k pts e0 : length pts = length images ->
  let r := loop delta f k pts e0 in
  (oi_flag r = true -> exists pts0 q t pts' e, length pts0 = length images /\ step pts0 = Some (q, t, pts', e) /\
      oi_out r = Some (oi_pose object q t) /\ oi_error r = e) /\
  (oi_flag r = false -> oi_out r = None).
Proof.
  revert k pts e0. induction f as [|f IH]; intros k pts e0 HP; cbn [oi_loop]; [split; [discriminate|reflexivity]|].
  destruct (step pts) as [[[[q t] pts'] e]|] eqn:E; [|split; [discriminate|reflexivity]].
  destruct (Rle_dec _ _).
  - split; [|discriminate]. intros _. exists pts, q, t, pts', e. auto.
  - apply IH. destruct (step_shape _ _ _ _ _ HP E) as (_ & _ & -> & _). apply placed_len.
Qed.
Lemma oi_pose_rigid q t : unit q -> exists q', unit q' /\ (forall x, qrot q' x = qrot q x) /\
  oi_pose object q t = Some (P q' (v3sub t (mv3 (qmat q) (center object)))).
Proof.
  intros U. destruct (quaternion_matrix_roundtrip q U) as (q' & E & D).
  assert (U' : unit q') by (destruct D as [-> | ->]; [exact U|apply unit_opp; exact U]).
  assert (N : qnormalize q' = Some q').
  { unfold qnormalize. unfold unit in U'. rewrite U', sqrt_1. destruct (Req_EM_T 1 0); [lra|]. destruct q'. f_equal. f_equal; cbn; field. }
  exists q'. split; [exact U'|]. split; [intros x; destruct D as [-> | ->]; [reflexivity|apply qrot_qopp]|].
  unfold oi_pose. rewrite E, N. reflexivity.
Qed.

Lemma loop_below delta f k q t : unit q ->
  oi_error (loop delta f k (placed q t) (total_error (sights images) (placed q t))) <= total_error (sights images) (placed q t).
Proof.
  revert k q t. induction f as [|f IH]; intros k q t U; cbn [oi_loop]; [cbn; lra|].
  destruct (step (placed q t)) as [[[[q1 t1] pts'] e]|] eqn:E; [|cbn; lra].
  pose proof (step_descends _ _ _ _ _ _ U E) as D.
  destruct (step_shape _ _ _ _ _ (placed_len q t) E) as (U1 & _ & -> & -> & _).
  destruct (Rle_dec _ _); [exact D|]. apply Rle_trans with (2 := D). apply IH. exact U1.
Qed.
Lemma loop_mono delta delta' f f' k k' pts e : delta' <= delta -> (f <= f')%nat -> length pts = length images ->
  (f = 0%nat -> exists q t, unit q /\ pts = placed q t /\ e = total_error (sights images) (placed q t)) ->
  oi_error (loop delta' f' k' pts e) <= oi_error (loop delta f k pts e).
Proof.
  intros HD. revert f' k k' pts e. induction f as [|f IH]; intros f' k k' pts e HF HP H0.
  - destruct (H0 eq_refl) as (q & t & U & -> & ->). cbn [oi_loop oi_error]. apply loop_below. exact U.
  - destruct f' as [|f']; [lia|]. cbn [oi_loop]. destruct (step pts) as [[[[q1 t1] pts'] e1]|] eqn:E; [|cbn; lra].
    destruct (step_shape _ _ _ _ _ HP E) as (U1 & _ & -> & -> & _).
    destruct (Rle_dec _ delta) as [C|C]; destruct (Rle_dec _ delta') as [C'|C']; cbn [oi_error].
    + lra.
    + apply loop_below. exact U1.
    + exfalso. lra.
    + apply IH; [lia|apply placed_len|]. intros _. exists q1, t1. auto.
Qed.

Lemma loop_ends delta N q t : 0 < delta -> unit q -> total_error (sights images) (placed q t) < INR N * delta ->
  forall f k, (N <= f)%nat ->
  let r := loop delta f k (placed q t) (total_error (sights images) (placed q t)) in
  (oi_iter r < k + N)%nat /\ (oi_flag r = true \/ exists pts, length pts = length images /\ step pts = None) /\
  r = loop delta N k (placed q t) (total_error (sights images) (placed q t)).
Proof.
  intros HD. revert q t. induction N as [|N IH]; intros q t U B f k HF.
  - exfalso. cbn in B. pose proof (total_error_nonneg q t). lra.
  - destruct f as [|f]; [lia|]. cbn [oi_loop]. cbv zeta. destruct (step (placed q t)) as [[[[q1 t1] pts'] e]|] eqn:E.
    + pose proof (step_descends _ _ _ _ _ _ U E) as D.
      destruct (step_shape _ _ _ _ _ (placed_len q t) E) as (U1 & _ & -> & -> & _).
      destruct (Rle_dec _ _) as [C|C]; cbn [oi_iter oi_flag].
      * split; [lia|]. split; [left; reflexivity|reflexivity].
      * rewrite Rabs_pos_eq in C by lra. rewrite S_INR in B.
        destruct (IH q1 t1 U1 ltac:(lra) f (S k) ltac:(lia)) as (I1 & I2 & I3). split; [lia|]. split; assumption.
    + cbn [oi_iter oi_flag]. split; [lia|]. split; [right; exists (placed q t); split; [apply placed_len|exact E]|reflexivity].
Qed.

(** C128: a pose that is returned is a rigid motion, the reported error is the sum of the squared
    distances of the moved object points from the lines of sight, and no other translation with the
    same rotation has a smaller one *)
Theorem oi_pose_optimal_translation max_iter delta : oi_flag (run max_iter delta) = true ->
  exists p, oi_out (run max_iter delta) = Some (Some p) /\ rigid p /\
    object_error p images object (oi_error (run max_iter delta)) /\
    forall t e, object_error (P (rot p) t) images object e -> oi_error (run max_iter delta) <= e.
Proof.
  intros F. destruct (loop_found delta max_iter 0 (homogeneous images) big hom_len) as [Y _].
  destruct (Y F) as (pts0 & q & t & pts' & e & HP & E & O & Er). unfold estimate_pose_2d3d. rewrite O, Er.
  destruct (step_shape _ _ _ _ _ HP E) as (U & _ & -> & Ee & _). destruct (oi_pose_rigid q t U) as (q' & U' & Rq & ->).
  exists (P q' (v3sub t (mv3 (qmat q) (center object)))). split; [reflexivity|]. split; [exact U'|].
  assert (Same : forall t', pose_error (P q' t') images object = pose_error (P q t') images object).
  { intros t'. unfold pose_error. apply lsum_ext. intros [v x] _. unfold papp. cbn [rot tra fst snd]. rewrite Rq. reflexivity. }
  split.
  - apply object_error_pose; [exact Hlen|]. rewrite Same, <- pose_error_centred by assumption. exact Ee.
  - intros t' e' H. cbn [rot] in H. apply object_error_pose in H; [|exact Hlen]. rewrite H, Same.
    pose proof (step_translation _ _ _ _ _ (v3add t' (mv3 (qmat q) (center object))) HP E) as S.
    unfold placed in S. rewrite pose_error_centred in S by assumption.
    replace (v3sub (v3add t' (mv3 (qmat q) (center object))) (mv3 (qmat q) (center object))) with t' in S by (apply v3_ext; cbn; ring).
    exact S.
Qed.
(** otherwise the pose is left alone *)
Theorem oi_failure_writes_nothing max_iter delta : oi_flag (run max_iter delta) = false -> oi_out (run max_iter delta) = None.
Proof. apply (loop_found delta max_iter 0 (homogeneous images) big hom_len). Qed.

(** C129: more rounds or a finer threshold never report a larger error *)
Theorem oi_error_monotone m m' delta delta' : (1 <= m)%nat -> (m <= m')%nat -> delta' <= delta ->
  oi_error (run m' delta') <= oi_error (run m delta).
Proof. intros H1 H2 HD. apply loop_mono; [exact HD|exact H2|apply hom_len|lia]. Qed.

(** C130: the number of rounds is bounded, whatever the limit: beyond it, the limit does not matter,
    and the call fails only if a rotation cannot be estimated *)
Theorem oi_terminates delta : 0 < delta -> exists N, forall m, (N <= m)%nat ->
  (oi_iter (run m delta) < N)%nat /\ run m delta = run N delta /\
  (oi_flag (run m delta) = true \/ exists pts, length pts = length images /\ step pts = None).
Proof.
  intros HD. unfold estimate_pose_2d3d. destruct (step (homogeneous images)) as [[[[q t] pts'] e]|] eqn:E.
  - destruct (step_shape _ _ _ _ _ hom_len E) as (U & _ & -> & -> & _). set (e := total_error (sights images) (placed q t)) in *.
    destruct (archimed (e / delta)) as [A _]. pose proof (total_error_nonneg q t) as NN. fold e in NN.
    assert (P0 : 0 <= e / delta) by (apply Rmult_le_pos; [exact NN|left; apply Rinv_0_lt_compat; exact HD]).
    set (N := Z.to_nat (up (e / delta))).
    assert (B : e < INR N * delta).
    { unfold N. rewrite INR_IZR_INZ, Z2Nat.id; [|apply le_IZR; lra].
      apply (Rmult_lt_compat_r delta) in A; [|exact HD]. replace (e / delta * delta) with e in A by (field; lra). exact A. }
    exists (S N). intros m HM. destruct m as [|m]; [lia|]. cbn [oi_loop]. rewrite E. fold e.
    destruct (Rle_dec _ _) as [C|C]; cbn [oi_iter oi_flag].
    + split; [lia|]. split; [reflexivity|left; reflexivity].
    + destruct (loop_ends delta N q t HD U B m 1%nat ltac:(lia)) as (I1 & I2 & I3). fold e in I1, I2, I3. split; [lia|]. split; [exact I3|exact I2].
  - exists 1%nat. intros m HM. destruct m as [|m]; [lia|]. cbn [oi_loop]. rewrite E. cbn [oi_iter oi_flag].
    split; [lia|]. split; [reflexivity|]. right. exists (homogeneous images). split; [apply hom_len|exact E].
Qed.
End OI.
Print Assumptions oi_pose_optimal_translation.
Print Assumptions oi_failure_writes_nothing.
Print Assumptions oi_error_monotone.
Print Assumptions oi_terminates.

(** C131: a pose without error reprojects every object point with non-zero depth onto its image *)
Theorem exact_fit_reprojects p images object : object_error p images object 0 ->
  forall uv x, In (uv, x) (combine images object) -> vz (papp p x) <> 0 ->
  fst uv = vx (papp p x) / vz (papp p x) /\ snd uv = vy (papp p x) / vz (papp p x).
Proof.
  assert (G : forall e, object_error p images object e -> 0 <= e /\ (e = 0 -> forall uv x, In (uv, x) (combine images object) ->
    exists c, papp p x = ray uv c)).
  { intros e H. induction H as [|uv x l m d e D H (IH0 & IH1)]; [split; [lra|intros _ ? ? []]|].
    destruct D as [[c ->] _]. pose proof (sq3_nonneg (v3sub (papp p x) (ray uv c))) as P0. split; [lra|].
    intros Z uv' x' [K|K]; [|apply IH1; [lra|exact K]]. injection K as <- <-. exists c.
    assert (S : sq3 (v3sub (papp p x) (ray uv c)) = 0) by lra. apply sq3_zero in S.
    pose proof (f_equal vx S) as A. pose proof (f_equal vy S) as B. pose proof (f_equal vz S) as C. cbn [v3sub v3zero vx vy vz] in A, B, C.
    apply v3_ext; lra. }
  intros H uv x Hin N. destruct (G 0 H) as [_ G0]. destruct (G0 eq_refl uv x Hin) as [c E]. rewrite E in N |- *. cbn [ray vx vy vz] in *.
  split; field; exact N.
Qed.
Print Assumptions exact_fit_reprojects.
(** conversely a pose under which every point projects onto its image has error zero *)
Theorem reprojection_is_exact_fit p images object : length images = length object ->
  (forall uv x, In (uv, x) (combine images object) -> vz (papp p x) <> 0 /\
     fst uv = vx (papp p x) / vz (papp p x) /\ snd uv = vy (papp p x) / vz (papp p x)) ->
  object_error p images object 0.
Proof.
  revert object. induction images as [|uv l IH]; intros [|x m] HL H; try discriminate; [constructor|].
  replace 0 with (0 + 0) by ring. constructor.
  - destruct (H uv x) as (N & A & B); [left; reflexivity|]. split.
    + exists (vz (papp p x)). unfold ray. rewrite A, B. unfold sq3, dot3. cbn [v3sub vx vy vz]. field. exact N.
    + intros c. apply sq3_nonneg.
  - apply IH; [injection HL as HL; exact HL|]. intros uv' x' Hin. apply H. right. exact Hin.
Qed.
Print Assumptions reprojection_is_exact_fit.
(** the error does not see the sign of the depth: for an object in the plane z = 0 the pose turned
    half a turn about the object's z axis with the opposite translation has the same error, and
    every moved point is on the other side of the camera *)
Definition mirrored (p : pose) : pose := P (qmul (rot p) (Q 0 0 1 0)) (v3opp (tra p)).
Theorem behind_the_camera_same_error p images object e : rigid p -> (forall x, In x object -> vz x = 0) ->
  object_error p images object e ->
  rigid (mirrored p) /\ object_error (mirrored p) images object e /\
  forall x, In x object -> papp (mirrored p) x = v3opp (papp p x).
Proof.
  intros U HZ H.
  assert (M : forall x, vz x = 0 -> papp (mirrored p) x = v3opp (papp p x)).
  { intros [x y z] E. cbn in E. subst z. destruct p as [[a b c d] t]. unfold papp, mirrored. cbn [rot tra].
    unfold rigid, unit, qnorm in U. cbn [rot qx qy qz qw] in U.
    assert (E : d * d = 1 - a * a - b * b - c * c) by lra.
    unfold qrot, qmul. cbn [qx qy qz qw vx vy vz]. apply v3_ext; cbn [v3add v3opp vx vy vz]; ring [E]. }
  split; [|split].
  - destruct p as [[a b c d] t]. unfold rigid, unit, qnorm, mirrored, qmul in *. cbn [rot qx qy qz qw] in *. lra.
  - induction H as [|uv x l m d e D H IH]; [constructor|]. constructor.
    + rewrite M by (apply HZ; left; reflexivity). destruct D as [[c E] D]. split.
      * exists (- c). rewrite E. unfold sq3, dot3, ray. cbn. ring.
      * intros c'. specialize (D (- c')). replace (sq3 (v3sub (v3opp (papp p x)) (ray uv c'))) with (sq3 (v3sub (papp p x) (ray uv (- c')))); [exact D|].
        unfold sq3, dot3, ray. cbn. ring.
    + apply IH. intros y Hy. apply HZ. right. exact Hy.
  - intros x Hx. apply M. apply HZ. exact Hx.
Qed.
Print Assumptions behind_the_camera_same_error.

(** a concrete run: four points of a square seen from the front are fitted exactly in two rounds *)
Definition matrix_is (A B : mat) : bool :=
  forallb (fun ij => if Req_EM_T (A (fst ij) (snd ij)) (B (fst ij) (snd ij)) then true else false) (list_prod (seq 0 4) (seq 0 4)).
Lemma matrix_is_meq A B : matrix_is A B = true -> meq 4 4 A B.
Proof.
  unfold matrix_is. rewrite forallb_forall. intros H i j Hi Hj. specialize (H (i, j)). cbn [fst snd] in H.
  destruct (Req_EM_T (A i j) (B i j)); [assumption|]. exfalso. assert (false = true); [|discriminate]. apply H. apply in_prod; apply in_seq; lia.
Qed.
Lemma meq_matrix_is A B : meq 4 4 A B -> matrix_is A B = true.
Proof.
  intros H. unfold matrix_is. rewrite forallb_forall. intros [i j] Hin. apply in_prod_iff in Hin. rewrite !in_seq in Hin. cbn [fst snd].
  destruct (Req_EM_T (A i j) (B i j)) as [|N]; [reflexivity|]. exfalso. apply N. apply H; lia.
Qed.
Definition square_horn : mat := mlist [[4; 0; 0; 0]; [0; 0; 0; 0]; [0; 0; 0; 0]; [0; 0; 0; -4]].
Definition square_vectors : mat := mlist [[0; 0; 0; 1]; [0; 1; 0; 0]; [0; 0; 1; 0]; [1; 0; 0; 0]].
Definition square_syev : syev4_oracle := fun N => if matrix_is N square_horn then Some (vlist [-4; 0; 0; 4], square_vectors) else None.
Definition square_inv : mat -> mat := fun _ => mlist [[4/3; 0; 0]; [0; 4/3; 0]; [0; 0; 2]].
Definition square_images : list (R * R) := [(1, 0); (-1, 0); (0, 1); (0, -1)].
Definition square_object : list vec3 := [V3 1 0 0; V3 (-1) 0 0; V3 0 1 0; V3 0 (-1) 0].

Example square_eigen : eigen_ok square_syev.
Proof.
  intros l r lc rc w v. unfold square_syev. destruct (matrix_is _ _) eqn:E; [|discriminate]. apply matrix_is_meq in E.
  intros H. injection H as <- <-. split; [|split; [|split]].
  - intros i j Hi Hj. rewrite E by assumption. idx i Hi; idx j Hj; unfold square_horn, square_vectors, mlist, vlist; cbn; ring.
  - intros i j Hi Hj. idx i Hi; idx j Hj; unfold mmul, tr, square_vectors, mlist, eye; cbn; ring.
  - intros i j Hi Hj. idx i Hi; idx j Hj; unfold mmul, tr, square_vectors, mlist, eye; cbn; ring.
  - intros i j Hij. assert (Hi : (i < 4)%nat) by lia. assert (Hj : (j < 4)%nat) by lia. idx i Hi; idx j Hj; unfold vlist; cbn; try lra; lia.
Qed.
Example square_inverse : inverse_ok square_inv square_images.
Proof.
  intros i j Hi Hj. idx i Hi; idx j Hj; unfold mmul, spread_matrix, square_inv, msub, mscale, eye, sights, homogeneous, square_images, msum, madd, mzero, los, mlist, v3nth, dot3;
    cbn; field.
Qed.
Example square_step : forall pts, pts = homogeneous square_images ->
  oi_step square_syev square_inv square_images square_object pts = Some (qone, V3 0 0 1, homogeneous square_images, 0).
Proof.
  intros pts ->. unfold oi_step.
  assert (EP : p3d square_object = square_object).
  { unfold p3d, shift_to_center, square_object, centroid. cbn. repeat (apply f_equal2; [apply v3_ext; cbn; field|]). reflexivity. }
  assert (EZ : zip_with mv3 (sights square_images) (homogeneous square_images) = homogeneous square_images).
  { unfold zip_with, sights, homogeneous, square_images, los, mv3, v3nth, dot3. cbn. repeat (apply f_equal2; [apply v3_ext; cbn; field|]). reflexivity. }
  assert (EL : shift_to_center (homogeneous square_images) = square_object).
  { unfold homogeneous, square_images, shift_to_center, square_object, centroid. cbn. repeat (apply f_equal2; [apply v3_ext; cbn; field|]). reflexivity. }
  assert (EC : forall n, centroid n square_object = v3zero).
  { intros n. unfold centroid, square_object. apply v3_ext; cbn; ring. }
  rewrite EZ, EL, EP, !EC.
  assert (ER : estimate_rotation square_syev square_object square_object v3zero v3zero = Some qone).
  { unfold estimate_rotation, square_syev. rewrite meq_matrix_is.
    - unfold vlist. cbn. destruct (Rle_dec 4 0); [lra|]. reflexivity.
    - intros i j Hi Hj. idx i Hi; idx j Hj; unfold horn_n, horn_m, square_object, square_horn, lsum, v3nth, mlist; cbn; ring. }
  rewrite ER. cbv zeta.
  assert (ET : estimate_translation (sights square_images) (qmat qone) square_object (t_factor square_inv (sights square_images)) = V3 0 0 1).
  { unfold estimate_translation, t_factor, square_inv, zip_with, sights, homogeneous, square_images, square_object, los, mv3, v3nth, dot3, qmat, mk33, mscale, mlist.
    cbn. apply v3_ext; cbn; field. }
  rewrite ET.
  assert (EQ : map (fun x => v3add (mv3 (qmat qone) x) (V3 0 0 1)) square_object = homogeneous square_images).
  { unfold square_object, homogeneous, square_images, qmat, mk33, mv3. cbn. repeat (apply f_equal2; [apply v3_ext; cbn; ring|]). reflexivity. }
  rewrite EQ. do 2 f_equal.
  unfold total_error, zip_with, sights, homogeneous, square_images, object_space_error, los, mv3, msub, eye, v3nth, dot3. cbn. field.
Qed.
Example square_run : forall delta m, 0 <= delta -> (2 <= m)%nat ->
  let r := estimate_pose_2d3d square_syev square_inv (delta + 1) square_images square_object m delta in
  oi_flag r = true /\ oi_error r = 0 /\ oi_iter r = 1%nat.
Proof.
  intros delta m HD HM. destruct m as [|[|m]]; [lia..|]. unfold estimate_pose_2d3d. cbn [oi_loop]. rewrite (square_step _ eq_refl).
  destruct (Rle_dec _ _) as [C|C]; [rewrite Rabs_pos_eq in C; lra|]. cbn [oi_loop].
  rewrite (square_step _ eq_refl). destruct (Rle_dec _ _) as [C'|C']; [auto|]. exfalso. apply C'. rewrite Rabs_pos_eq; lra.
Qed.

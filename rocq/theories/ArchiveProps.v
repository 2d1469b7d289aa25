(** C39 and C80: boost-archive serialisation of the data types. *)
Require Import List ZArith Bool Lia PeanoNat.
From Verif Require Import Msgpack MsgpackProps Archive.
Import ListNotations.

Section Lemmas.
Variable D : Type.

Lemma load_into_ok ds : forall i v rest,
  (i + length ds <= length v)%nat ->
  load_into D i (length ds) v (map AD ds ++ rest) =
  Got (firstn i v ++ ds ++ skipn (i + length ds) v) rest.
Proof.
  induction ds as [|d ds IH]; intros i v rest Hl.
  - simpl. rewrite Nat.add_0_r, firstn_skipn. reflexivity.
  - cbn [length map app load_into load_d obind] in *.
    rewrite set_nth_ok by lia. rewrite IH.
    + f_equal. assert (L : length (firstn i v) = i) by (rewrite firstn_length; lia).
      assert (E1 : firstn (S i) (firstn i v ++ d :: skipn (S i) v) = firstn i v ++ [d]).
      { rewrite firstn_app, L. rewrite firstn_all2 by lia.
        replace (S i - i)%nat with 1%nat by lia. reflexivity. }
      assert (E2 : skipn (S i + length ds) (firstn i v ++ d :: skipn (S i) v)
                   = skipn (i + S (length ds)) v).
      { rewrite skipn_app, L. rewrite skipn_all2 by lia.
        replace (S i + length ds - i)%nat with (S (length ds)) by lia.
        rewrite app_nil_l. change (skipn (S (length ds)) (d :: skipn (S i) v))
          with (skipn (length ds) (skipn (S i) v)).
        rewrite skipn_twice. f_equal. lia. }
      rewrite E1, E2, <- app_assoc. reflexivity.
    + rewrite app_length, firstn_length. cbn [length]. rewrite skipn_length. lia.
Qed.

Lemma load_vec_ok N v old rest :
  length v = N -> length old = N ->
  load_vec D N old (save_vec D v ++ rest) = Got v rest.
Proof.
  intros Hv Ho. unfold load_vec, save_vec, save_list. rewrite <- Hv at 1.
  rewrite load_into_ok by lia. simpl. rewrite skipn_all2 by lia. rewrite app_nil_r. reflexivity.
Qed.

Lemma load_cells_ok f : forall cs A rest,
  NoDup cs ->
  exists B, load_cells D cs A (map (fun c => AD (f (fst c) (snd c))) cs ++ rest) = Got B rest /\
    forall i j, B i j = if in_dec cell_dec (i, j) cs then f i j else A i j.
Proof.
  induction cs as [|[i j] cs IH]; intros A rest Hn.
  - exists A. split; reflexivity.
  - cbn [map app load_cells load_d obind fst snd].
    inversion Hn as [|? ? Hni Hnd]; subst.
    destruct (IH (upd D A i j (f i j)) rest Hnd) as (B & E & HB).
    exists B. split; [exact E|]. intros i' j'. rewrite HB.
    destruct (in_dec _ (i', j') cs) as [L|L].
    + destruct (in_dec _ (i', j') ((i, j) :: cs)) as [K|K]; [reflexivity|].
      exfalso. apply K. right. exact L.
    + unfold upd. destruct (Nat.eqb_spec i' i); [destruct (Nat.eqb_spec j' j)|]; cbn [andb].
      * subst. destruct (in_dec _ (i, j) ((i, j) :: cs)) as [K|K]; [reflexivity|].
        exfalso. apply K. left. reflexivity.
      * destruct (in_dec _ (i', j') ((i, j) :: cs)) as [K|K]; [|reflexivity].
        exfalso. destruct K as [K|K]; [congruence|contradiction].
      * destruct (in_dec _ (i', j') ((i, j) :: cs)) as [K|K]; [|reflexivity].
        exfalso. destruct K as [K|K]; [congruence|contradiction].
Qed.

Lemma load_mat_ok M N A dest rest :
  exists B, load_mat D M N dest (save_mat D M N A ++ rest) = Got B rest /\
    forall i j, (i < M)%nat -> (j < N)%nat -> B i j = A i j.
Proof.
  destruct (load_cells_ok A (cells M N) dest rest (nodup_cells M N)) as (B & E & HB).
  exists B. split; [exact E|]. intros i j Hi Hj. rewrite HB.
  destruct (in_dec _ (i, j) (cells M N)) as [K|K]; [reflexivity|].
  exfalso. apply K, in_cells. auto.
Qed.

Lemma load_quat_ok q rest : load_quat D (save_quat D q ++ rest) = Got q rest.
Proof. destruct q. reflexivity. Qed.

Lemma load_k_ok f : forall n k A rest,
  exists B, load_k D k n A (map (fun k => AD (f (k / 3)%nat (k mod 3)%nat)) (seq k n) ++ rest)
            = Got B rest /\
    forall i j, (j < 3)%nat ->
      B i j = if ((k <=? i * 3 + j) && (i * 3 + j <? k + n))%nat then f i j else A i j.
Proof.
  induction n as [|n IH]; intros k A rest.
  - exists A. split; [reflexivity|]. intros i j Hj.
    destruct (Nat.leb_spec k (i * 3 + j)); destruct (Nat.ltb_spec (i * 3 + j) (k + 0));
      cbn [andb]; try reflexivity; lia.
  - cbn [seq map app load_k load_d obind].
    destruct (IH (S k) (upd D A (k / 3) (k mod 3) (f (k / 3)%nat (k mod 3)%nat)) rest) as (B & E & HB).
    exists B. split; [exact E|]. intros i j Hj. rewrite HB by exact Hj.
    pose proof (Nat.div_mod k 3 ltac:(lia)) as Hk. pose proof (Nat.mod_upper_bound k 3 ltac:(lia)) as Hm.
    destruct (Nat.leb_spec (S k) (i * 3 + j)); destruct (Nat.ltb_spec (i * 3 + j) (S k + n));
      destruct (Nat.leb_spec k (i * 3 + j)); destruct (Nat.ltb_spec (i * 3 + j) (k + S n));
      cbn [andb]; try reflexivity; try lia;
      unfold upd; destruct (Nat.eqb_spec i (k / 3)); destruct (Nat.eqb_spec j (k mod 3));
      cbn [andb]; subst; try reflexivity; nia.
Qed.

End Lemmas.

Section Props.
Variable D : Type.

(** *** C80: vectors, matrices, rotations, poses and measurements *)

Theorem archive_vector_round_trip N (v old : list D) rest :
  length v = N -> length old = N ->
  load_vec D N old (save_vec D v ++ rest) = Got v rest.
Proof. apply load_vec_ok. Qed.

(** All shapes, unlike msgpack. *)
Theorem archive_matrix_round_trip M N (A dest : fmat D) rest :
  exists B, load_mat D M N dest (save_mat D M N A ++ rest) = Got B rest /\
    forall i j, (i < M)%nat -> (j < N)%nat -> B i j = A i j.
Proof. apply load_mat_ok. Qed.

Theorem archive_pose_round_trip (p old : pose D) rest :
  length (tra D p) = 3%nat -> length (tra D old) = 3%nat ->
  load_pose D old (save_pose D p ++ rest) = Got p rest.
Proof.
  intros Hp Ho. unfold load_pose, save_pose. rewrite <- app_assoc, load_quat_ok. cbn [obind].
  rewrite load_vec_ok by assumption. destruct p. reflexivity.
Qed.

Theorem archive_error_pose_round_trip (p old : epose D) rest :
  length (etra D p) = 3%nat -> length (etra D old) = 3%nat ->
  exists w, load_epose D old (save_epose D p ++ rest) = Got w rest /\
    erot D w = erot D p /\ etra D w = etra D p /\
    forall i j, (i < 6)%nat -> (j < 6)%nat -> ecov D w i j = ecov D p i j.
Proof.
  intros Hp Ho. destruct (load_mat_ok D 6 6 (ecov D p) (ecov D old) rest) as (B & E & HB).
  exists (EP D (erot D p) (etra D p) B). split; [|split; [reflexivity|split; [reflexivity|exact HB]]].
  unfold load_epose, save_epose. rewrite <- app_assoc.
  rewrite archive_pose_round_trip by assumption. cbn [obind]. rewrite E. reflexivity.
Qed.

Theorem archive_error_vector_round_trip N (v old : evec D) rest :
  length (value D v) = N -> length (value D old) = N ->
  exists w, load_evec D N old (save_evec D N v ++ rest) = Got w rest /\
    value D w = value D v /\
    forall i j, (i < N)%nat -> (j < N)%nat -> cov D w i j = cov D v i j.
Proof.
  intros Hv Ho. destruct (load_mat_ok D N N (cov D v) (cov D old) rest) as (B & E & HB).
  exists (EV D (value D v) B). split; [|split; [reflexivity|exact HB]].
  unfold load_evec, save_evec. rewrite <- app_assoc, load_vec_ok by assumption. cbn [obind].
  rewrite E. reflexivity.
Qed.

(** A measurement is restored into one that already owns a payload. *)
Theorem archive_measurement_round_trip A (saveA : A -> list (item D)) (loadA : A -> list (item D) -> out D A) t a t0 a0 rest :
  (forall x old r, loadA old (saveA x ++ r) = Got x r) ->
  exists ts, save_meas D saveA (Meas t (Some a)) = Some ts /\
    load_meas D loadA (Meas t0 (Some a0)) (ts ++ rest) = Got (Meas t (Some a)) rest.
Proof.
  intros H. eexists. split; [reflexivity|]. unfold load_meas. cbn [app load_n obind payload].
  rewrite H. reflexivity.
Qed.

(** Saving an empty measurement, or loading any archive into an empty (for
    instance default constructed) one, dereferences a null pointer. *)
Theorem archive_measurement_refuted A (saveA : A -> list (item D)) (loadA : A -> list (item D) -> out D A) t (a : A) t0 rest :
  save_meas D saveA (Meas t0 None) = None /\
  exists ts, save_meas D saveA (Meas t (Some a)) = Some ts /\
    load_meas D loadA (Meas t0 None) (ts ++ rest) = Undef.
Proof. split; [reflexivity|]. eexists. split; reflexivity. Qed.

(** *** C39: camera intrinsics *)

(** the numbers of the calibration types, CameraIntrinsics.h *)
Lemma calib_of_number n old : (0 <= n <= 6)%Z ->
  calib_of n old = nth (Z.to_nat n) [old; old; 1; 2; 4; old; 3]%Z 0%Z.
Proof.
  intros H. assert (E : (n = 0 \/ n = 1 \/ n = 2 \/ n = 3 \/ n = 4 \/ n = 5 \/ n = 6)%Z) by lia.
  destruct E as [->|[->|[->|[->|[->|[->| ->]]]]]]; reflexivity.
Qed.

(** What survives for any camera: everything up to the recorded number of
    radial coefficients; the others keep the values of the destination, and
    the calibration type is recomputed from the count. *)
Theorem archive_camera_round_trip (c c0 : camera D) rest :
  (0 <= rsize D c <= 6)%Z ->
  length (dim D c) = 2%nat -> length (rad D c) = 6%nat -> length (tan D c) = 2%nat ->
  length (rad D c0) = 6%nat -> length (tan D c0) = 2%nat ->
  exists ts w,
    fst (save_camera D c) = Some ts /\
    load_camera D c0 (ts ++ rest) = Got w rest /\
    dim D w = dim D c /\ rsize D w = rsize D c /\ tan D w = tan D c /\
    rad D w = firstn (Z.to_nat (rsize D c)) (rad D c) ++ skipn (Z.to_nat (rsize D c)) (rad D c0) /\
    calib D w = nth (Z.to_nat (rsize D c)) [calib D c0; calib D c0; 1; 2; 4; calib D c0; 3]%Z 0%Z /\
    forall i j, (i < 3)%nat -> (j < 3)%nat -> kmat D w i j = kmat D c i j.
Proof.
  intros Hn Hd Hr Ht Hr0 Ht0.
  set (n := Z.to_nat (rsize D c)).
  assert (Hn6 : (n <= 6)%nat) by (unfold n; lia).
  unfold save_camera. cbn [fst]. fold n.
  destruct (Nat.leb_spec n (length (rad D c))); [|lia].
  destruct (dim D c) as [|w [|h [|? ?]]] eqn:Ed; try discriminate Hd.
  eexists.
  destruct (load_k_ok D (kmat D c) 9 0 (kmat D c0)
     (map AN [w; h] ++ AN (rsize D c) :: map AD (firstn n (rad D c)) ++
      AN 2 :: map AD (tan D c) ++ rest)) as (K & EK & HK).
  exists (reset D (Cam D (calib D c0) [w; h] K (rsize D c)
                      (firstn n (rad D c) ++ skipn n (rad D c0)) (tan D c))).
  split; [reflexivity|]. cbn [reset dim rsize tan rad calib kmat].
  split; [|split; [reflexivity|split; [reflexivity|split; [reflexivity|
           split; [reflexivity|split; [apply calib_of_number; exact Hn|]]]]]].
  - rewrite <- !app_assoc. cbn [app]. rewrite <- !app_assoc. cbn [app].
    unfold load_camera. cbn [map app] in EK |- *.
    match goal with |- obind _ (load_k D 0 9 _ ?ts) _ = _ =>
      replace (load_k D 0 9 (kmat D c0) ts) with
        (@Got D (fmat D) K (AN w :: AN h :: AN (rsize D c) :: map AD (firstn n (rad D c)) ++
      AN 2 :: map AD (tan D c) ++ rest)) by (symmetry; exact EK) end.
    cbn [obind load_n]. fold n.
    assert (Lf : length (firstn n (rad D c)) = n) by (rewrite firstn_length; lia).
    rewrite <- Lf at 1. rewrite load_into_ok by lia. cbn [obind load_n firstn app].
    rewrite Lf. cbn [Nat.add].
    change (map AD (tan D c)) with (save_vec D (tan D c)).
    rewrite (load_vec_ok D 2 (tan D c) (tan D c0) rest Ht Ht0). reflexivity.
  - intros i j Hi Hj. rewrite HK by exact Hj.
    destruct (Nat.leb_spec 0 (i * 3 + j)); [|lia].
    destruct (Nat.ltb_spec (i * 3 + j) (0 + 9)); [reflexivity|lia].
Qed.

(** Cameras built with two, six or four (fish-eye) coefficients come back with
    all of them and their type, into a default constructed object. *)
Theorem archive_camera_constructors zero one (K : fmat D) w h r0 r1 r2 r3 r4 r5 t0 t1 u0 u1 rest :
  let fresh := cam_default D zero one in
  let same (k : nat) (c v : camera D) :=
    dim D v = [w; h] /\ tan D v = tan D c /\ calib D v = calib D c /\
    firstn k (rad D v) = firstn k (rad D c) /\
    forall i j, (i < 3)%nat -> (j < 3)%nat -> kmat D v i j = K i j in
  (forall k c, In (k, c) [(2%nat, cam2 D zero K r0 r1 t0 t1 w h);
                          (6%nat, cam6 D K r0 r1 r2 r3 r4 r5 t0 t1 w h);
                          (4%nat, cam_fisheye D zero K r0 r1 r2 r3 w h u0 u1)] ->
   exists ts v, fst (save_camera D c) = Some ts /\
     load_camera D fresh (ts ++ rest) = Got v rest /\ same k c v).
Proof.
  intros fresh same k c Hin.
  destruct Hin as [E|[E|[E|[]]]]; injection E as <- <-.
  - destruct (archive_camera_round_trip (cam2 D zero K r0 r1 t0 t1 w h) fresh rest)
      as (ts & v & H1 & H2 & H3 & H4 & H5 & H6 & H7 & H8); try reflexivity; [cbn; lia|].
    exists ts, v. split; [exact H1|]. split; [exact H2|]. unfold same.
    split; [exact H3|]. split; [exact H5|]. split; [exact H7|]. split; [|exact H8].
    rewrite H6. reflexivity.
  - destruct (archive_camera_round_trip (cam6 D K r0 r1 r2 r3 r4 r5 t0 t1 w h) fresh rest)
      as (ts & v & H1 & H2 & H3 & H4 & H5 & H6 & H7 & H8); try reflexivity; [cbn; lia|].
    exists ts, v. split; [exact H1|]. split; [exact H2|]. unfold same.
    split; [exact H3|]. split; [exact H5|]. split; [exact H7|]. split; [|exact H8].
    rewrite H6. reflexivity.
  - destruct (archive_camera_round_trip (cam_fisheye D zero K r0 r1 r2 r3 w h u0 u1) fresh rest)
      as (ts & v & H1 & H2 & H3 & H4 & H5 & H6 & H7 & H8); try reflexivity; [cbn; lia|].
    exists ts, v. split; [exact H1|]. split; [exact H2|]. unfold same.
    split; [exact H3|]. split; [exact H5|]. split; [exact H7|]. split; [|exact H8].
    rewrite H6. reflexivity.
Qed.

(** The constructor for three coefficients records a count of two: the third
    coefficient is lost and the type changes, already in the saved object. *)
Theorem archive_camera3_refuted zero one (K : fmat D) r0 r1 r2 t0 t1 w h rest :
  r2 <> zero ->
  exists ts v, fst (save_camera D (cam3 D zero K r0 r1 r2 t0 t1 w h)) = Some ts /\
    load_camera D (cam_default D zero one) (ts ++ rest) = Got v rest /\
    nth 2 (rad D v) r2 = zero /\ nth 2 (rad D v) r2 <> r2 /\
    calib D v = 1%Z /\
    calib D (cam3 D zero K r0 r1 r2 t0 t1 w h) = 2%Z /\
    calib D (snd (save_camera D (cam3 D zero K r0 r1 r2 t0 t1 w h))) = 1%Z.
Proof.
  intros Hr.
  destruct (archive_camera_round_trip (cam3 D zero K r0 r1 r2 t0 t1 w h)
              (cam_default D zero one) rest)
    as (ts & v & H1 & H2 & H3 & H4 & H5 & H6 & H7 & H8); try reflexivity; [cbn; lia|].
  exists ts, v. split; [exact H1|]. split; [exact H2|].
  assert (E : nth 2 (rad D v) r2 = zero) by (rewrite H6; reflexivity).
  split; [exact E|]. split; [congruence|]. split; [exact H7|]. split; reflexivity.
Qed.

(** An archive announcing more than six coefficients is written behind the
    coefficient array. *)
Theorem archive_camera_hostile_count_refuted (c0 : camera D) (K : fmat D) w h (extra : list D) rest :
  length (rad D c0) = 6%nat -> (6 < length extra)%nat ->
  load_camera D c0
    (map (fun k => AD (K (k / 3)%nat (k mod 3)%nat)) (seq 0 9) ++
     AN w :: AN h :: AN (Z.of_nat (length extra)) :: map AD extra ++ rest) = Undef.
Proof.
  intros H6 Hl. unfold load_camera.
  destruct (load_k_ok D K 9 0 (kmat D c0)
     (AN w :: AN h :: AN (Z.of_nat (length extra)) :: map AD extra ++ rest)) as (K' & EK & _).
  rewrite EK. cbn [obind load_n]. rewrite Nat2Z.id.
  assert (G : forall ds i v rest, (length v < i + length ds)%nat -> (i <= length v)%nat ->
            load_into D i (length ds) v (map AD ds ++ rest) = Undef).
  { clear. induction ds as [|d ds IH]; intros i v rest H1 H2; [simpl in H1; lia|].
    cbn [length map app load_into load_d obind] in *.
    destruct (Nat.lt_ge_cases i (length v)) as [L|L].
    - rewrite set_nth_ok by exact L. apply IH.
      + rewrite app_length, firstn_length. cbn [length]. rewrite skipn_length. lia.
      + rewrite app_length, firstn_length. cbn [length]. rewrite skipn_length. lia.
    - rewrite set_nth_none by exact L. reflexivity. }
  rewrite G by lia. reflexivity.
Qed.

(** The general constructor drops its [size] argument. *)
Theorem camera_general_size_refuted K n radial tangential sw sh :
  (sw, sh) <> (0, 0)%Z ->
  dim D (cam_general D (sw, sh) K n radial tangential 0 0) <> [sw; sh].
Proof. intros H E. cbn in E. injection E as <- <-. apply H. reflexivity. Qed.

End Props.

Open Scope nat_scope.
Example archive_camera_case :
  let c := cam2 nat 0 (fun i j => 10 * i + j) 5 6 7 8 640 480 in
  match fst (save_camera nat c) with
  | Some ts => match load_camera nat (cam_default nat 0 1) ts with
               | Got v [] => rad nat v = [5; 6; 0; 0; 0; 0]%nat /\ kmat nat v 2 1 = 21%nat
               | _ => False
               end
  | None => False
  end.
Proof. vm_compute. auto. Qed.

Example archive_measurement_case :
  exists ts, save_meas nat (save_vec nat) (Meas 42 (Some [1; 2; 3])) = Some ts /\
    load_meas nat (fun old => load_vec nat 3 old) (Meas 0 (Some [0; 0; 0])) ts
    = Got (Meas 42 (Some [1; 2; 3])) [].
Proof. eexists. split; reflexivity. Qed.

Print Assumptions archive_vector_round_trip.
Print Assumptions archive_matrix_round_trip.
Print Assumptions archive_pose_round_trip.
Print Assumptions archive_error_pose_round_trip.
Print Assumptions archive_error_vector_round_trip.
Print Assumptions archive_measurement_round_trip.
Print Assumptions archive_measurement_refuted.
Print Assumptions archive_camera_round_trip.
Print Assumptions archive_camera_constructors.
Print Assumptions archive_camera3_refuted.
Print Assumptions archive_camera_hostile_count_refuted.
Print Assumptions camera_general_size_refuted.

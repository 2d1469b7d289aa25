(** Projection matrices: OpenGL clip coordinates, off-axis frusta, decomposition into calibration and pose. *)
From Coq Require Import Reals Lra Lia Bool Arith List.
Import ListNotations.
From Verif Require Import Mat Quat QuatProofs LinAlg Projection ProjectionProofs.
Open Scope R_scope.

(** ** Specification vocabulary *)
(** homogeneous image of a homogeneous point (the k-th coordinate) *)
Definition image (m : mat) (X : vect) (i : nat) : R := m i 0%nat * X 0%nat + m i 1%nat * X 1%nat + m i 2%nat * X 2%nat + m i 3%nat * X 3%nat.
(** coordinate after the perspective division *)
Definition ndc (g : mat) (X : vect) (i : nat) : R := image g X i / image g X 3%nat.
(** image point of a 3x4 camera *)
Definition pixel (m : mat) (X : vect) (i : nat) : R := image m X i / image m X 2%nat.
Definition row_norm (m : mat) : R := sqrt (m 2%nat 0%nat * m 2%nat 0%nat + m 2%nat 1%nat * m 2%nat 1%nat + m 2%nat 2%nat * m 2%nat 2%nat).
Definition dist3 (X Y : vect) : R :=
  sqrt ((X 0%nat - Y 0%nat) * (X 0%nat - Y 0%nat) + (X 1%nat - Y 1%nat) * (X 1%nat - Y 1%nat) + (X 2%nat - Y 2%nat) * (X 2%nat - Y 2%nat)).

Lemma sq3_pos a b c : 0 <= a * a + b * b + c * c.
Proof. pose proof (Rle_0_sqr a). pose proof (Rle_0_sqr b). pose proof (Rle_0_sqr c). unfold Rsqr in *. lra. Qed.

(** ** OpenGL matrices (C45) *)
Lemma gl_image l r b t n f m g X : gl_projection l r b t n f m = Some g -> X 3%nat = 1 ->
  l <> r /\ b <> t /\ n <> f /\
  image g X 3%nat = image m X 2%nat /\
  image g X 0%nat = (2 * image m X 0%nat - (r + l) * image m X 2%nat) / (r - l) /\
  image g X 1%nat = (2 * image m X 1%nat - (t + b) * image m X 2%nat) / (t - b) /\
  image g X 2%nat = ((f + n) * image m X 2%nat - 2 * f * n * row_norm m) / (f - n).
Proof.
  unfold gl_projection. intros E H3.
  destruct (Req_EM_T l r) as [|Hl]; [discriminate|]. destruct (Req_EM_T b t) as [|Hb]; [discriminate|].
  destruct (Req_EM_T n f) as [|Hn]; [discriminate|].
  assert (Eg : g = mmul 4 (ortho l r b t n f) (gl_rows n f m)) by congruence. clear E. subst g.
  do 3 (split; [assumption|]). unfold image. rewrite H3. unfold mmul, ortho, gl_rows, mlist. cbn [sum List.nth Nat.eqb].
  fold (row_norm m).
  repeat split; field; repeat split; try (intros Z; apply Hl; lra); try (intros Z; apply Hb; lra); try (intros Z; apply Hn; lra).
Qed.

Lemma in_unit a lo hi (x : R) : lo < hi -> a = (2 * x - (hi + lo)) / (hi - lo) -> (-1 <= a <= 1 <-> lo <= x <= hi).
Proof.
  intros H E. assert (E' : a * (hi - lo) = 2 * x - (hi + lo)) by (rewrite E; field; lra). split; intros [A B]; split; nra.
Qed.

Theorem gl_maps_rectangle l r b t n f m g X : gl_projection l r b t n f m = Some g -> X 3%nat = 1 -> image m X 2%nat <> 0 ->
  (pixel m X 0 = l -> ndc g X 0 = -1) /\ (pixel m X 0 = r -> ndc g X 0 = 1) /\
  (pixel m X 1 = b -> ndc g X 1 = -1) /\ (pixel m X 1 = t -> ndc g X 1 = 1) /\
  (l < r -> (-1 <= ndc g X 0 <= 1 <-> l <= pixel m X 0 <= r)) /\
  (b < t -> (-1 <= ndc g X 1 <= 1 <-> b <= pixel m X 1 <= t)).
Proof.
  intros E H3 W. destruct (gl_image _ _ _ _ _ _ _ _ _ E H3) as (Hl & Hb & Hn & E3 & E0 & E1 & E2).
  assert (Hl' : r - l <> 0) by (intros Z; apply Hl; lra). assert (Hb' : t - b <> 0) by (intros Z; apply Hb; lra).
  assert (A : ndc g X 0 = (2 * pixel m X 0 - (r + l)) / (r - l)) by (unfold ndc, pixel; rewrite E3, E0; field; auto).
  assert (B : ndc g X 1 = (2 * pixel m X 1 - (t + b)) / (t - b)) by (unfold ndc, pixel; rewrite E3, E1; field; auto).
  repeat split.
  - intros H. rewrite A, H. field. assumption.
  - intros H. rewrite A, H. field. assumption.
  - intros H. rewrite B, H. field. assumption.
  - intros H. rewrite B, H. field. assumption.
  - apply (in_unit _ _ _ _ H A); assumption.
  - apply (in_unit _ _ _ _ H A); assumption.
  - apply (in_unit _ _ _ _ H A); assumption.
  - apply (in_unit _ _ _ _ H A); assumption.
  - apply (in_unit _ _ _ _ H B); assumption.
  - apply (in_unit _ _ _ _ H B); assumption.
  - apply (in_unit _ _ _ _ H B); assumption.
  - apply (in_unit _ _ _ _ H B); assumption.
Qed.

(** depth: the distance from the plane through the camera centre parallel to the image plane *)
Theorem depth_is_distance m X : 0 < row_norm m -> X 3%nat = 1 ->
  (forall Y, Y 3%nat = 1 -> image m Y 2%nat = 0 -> Rabs (image m X 2%nat) / row_norm m <= dist3 X Y) /\
  (exists Y, Y 3%nat = 1 /\ image m Y 2%nat = 0 /\ dist3 X Y = Rabs (image m X 2%nat) / row_norm m).
Proof.
  intros N H3.
  set (a := m 2%nat 0%nat). set (b := m 2%nat 1%nat). set (c := m 2%nat 2%nat). set (d := m 2%nat 3%nat).
  assert (NN : row_norm m * row_norm m = a * a + b * b + c * c).
  { apply sqrt_sqrt, sq3_pos. }
  split.
  - intros Y Y3 HY. apply (Rmult_le_reg_r (row_norm m)); [exact N|].
    unfold Rdiv. rewrite Rmult_assoc, Rinv_l, Rmult_1_r by lra.
    assert (D0 : 0 <= dist3 X Y) by apply sqrt_pos.
    assert (DD : dist3 X Y * dist3 X Y = (X 0%nat - Y 0%nat) * (X 0%nat - Y 0%nat) + (X 1%nat - Y 1%nat) * (X 1%nat - Y 1%nat) + (X 2%nat - Y 2%nat) * (X 2%nat - Y 2%nat)).
    { apply sqrt_sqrt, sq3_pos. }
    apply Rsqr_incr_0_var; [|apply Rmult_le_pos; lra]. unfold Rsqr.
    rewrite <- Rabs_mult, Rabs_right by (apply Rle_ge, Rle_0_sqr).
    assert (W : image m X 2%nat = a * (X 0%nat - Y 0%nat) + b * (X 1%nat - Y 1%nat) + c * (X 2%nat - Y 2%nat)).
    { unfold image in *. rewrite H3. rewrite Y3 in HY. unfold a, b, c. lra. }
    rewrite W. replace (dist3 X Y * row_norm m * (dist3 X Y * row_norm m)) with ((dist3 X Y * dist3 X Y) * (row_norm m * row_norm m)) by ring.
    rewrite DD, NN. set (x := X 0%nat - Y 0%nat). set (y := X 1%nat - Y 1%nat). set (z := X 2%nat - Y 2%nat).
    assert (0 <= (a * y - b * x) * (a * y - b * x) + (b * z - c * y) * (b * z - c * y) + (c * x - a * z) * (c * x - a * z)); [|lra].
    pose proof (Rle_0_sqr (a * y - b * x)). pose proof (Rle_0_sqr (b * z - c * y)). pose proof (Rle_0_sqr (c * x - a * z)). unfold Rsqr in *. lra.
  - set (w := image m X 2%nat). set (k := w / (row_norm m * row_norm m)).
    exists (vlist [X 0%nat - k * a; X 1%nat - k * b; X 2%nat - k * c; 1]).
    assert (K : k * (a * a + b * b + c * c) = w) by (unfold k; rewrite <- NN; field; lra).
    split; [reflexivity|]. split.
    + unfold image, vlist. cbn [List.nth]. fold a b c d.
      transitivity (image m X 2%nat - k * (a * a + b * b + c * c)); [unfold image; rewrite H3; fold a b c d; ring|]. rewrite K. unfold w. ring.
    + unfold dist3, vlist. cbn [List.nth].
      match goal with |- sqrt ?e = _ => replace e with ((w / row_norm m) * (w / row_norm m)) end.
      * change (sqrt (Rsqr (w / row_norm m)) = Rabs w / row_norm m). rewrite sqrt_Rsqr_abs. unfold Rdiv. rewrite Rabs_mult, Rabs_inv.
        rewrite (Rabs_right (row_norm m)) by lra. reflexivity.
      * transitivity (k * k * (row_norm m * row_norm m)); [unfold k; field; lra|]. rewrite NN. ring.
Qed.

Theorem gl_maps_depth l r b t n f m g X : gl_projection l r b t n f m = Some g -> X 3%nat = 1 -> 0 < row_norm m ->
  (n <> 0 -> image m X 2%nat / row_norm m = n -> ndc g X 2 = -1) /\
  (f <> 0 -> image m X 2%nat / row_norm m = f -> ndc g X 2 = 1) /\
  (0 < n < f -> 0 < image m X 2%nat -> (-1 <= ndc g X 2 <= 1 <-> n <= image m X 2%nat / row_norm m <= f)).
Proof.
  intros E H3 N. destruct (gl_image _ _ _ _ _ _ _ _ _ E H3) as (Hl & Hb & Hn & E3 & E0 & E1 & E2).
  assert (Hn' : f - n <> 0) by (intros Z; apply Hn; lra).
  set (d := image m X 2%nat / row_norm m).
  assert (W : image m X 2%nat = d * row_norm m) by (unfold d; field; lra).
  assert (A : d <> 0 -> ndc g X 2 = ((f + n) * d - 2 * f * n) / ((f - n) * d)).
  { intros D. unfold ndc. rewrite E3, E2, W. field. repeat split; try assumption; lra. }
  clearbody d. split; [|split].
  - intros N0 ->. rewrite A by exact N0. field. auto.
  - intros F0 ->. rewrite A by exact F0. field. auto.
  - intros [N0 F0] Wp. assert (D : 0 < d) by (rewrite W in Wp; nra).
    assert (Z : ndc g X 2 * ((f - n) * d) = (f + n) * d - 2 * f * n) by (rewrite A by lra; field; split; lra).
    assert (P : 0 < (f - n) * d) by (apply Rmult_lt_0_compat; lra).
    split; intros [L U]; split.
    + assert (- ((f - n) * d) <= (f + n) * d - 2 * f * n) by (rewrite <- Z; nra). nra.
    + assert ((f + n) * d - 2 * f * n <= (f - n) * d) by (rewrite <- Z; nra). nra.
    + assert (- ((f - n) * d) <= (f + n) * d - 2 * f * n) by nra. rewrite <- Z in H. nra.
    + assert ((f + n) * d - 2 * f * n <= (f - n) * d) by nra. rewrite <- Z in H. nra.
Qed.

(** only empty rectangles and empty depth ranges are rejected *)
Theorem gl_defined l r b t n f m : gl_projection l r b t n f m = None <-> l = r \/ b = t \/ n = f.
Proof.
  unfold gl_projection. destruct (Req_EM_T l r); destruct (Req_EM_T b t); destruct (Req_EM_T n f); split; intros H; try discriminate; auto; tauto.
Qed.
(** a 3x3 matrix is a camera whose centre is the origin *)
Theorem gl33_is_camera l r b t n f m : forall g, gl_projection33 l r b t n f m = Some g ->
  exists g', gl_projection l r b t n f (fun i j => if (j <? 3)%nat then m i j else 0) = Some g' /\ meq 4 4 g g'.
Proof.
  intros g E. unfold gl_projection33, gl_projection in *.
  destruct (Req_EM_T l r); [discriminate|]. destruct (Req_EM_T b t); [discriminate|]. destruct (Req_EM_T n f); [discriminate|].
  eexists. split; [reflexivity|]. injection E as <-. intros i j Hi Hj. unfold mmul. cbn [sum]. unfold gl_rows.
  idx j Hj; cbn; reflexivity.
Qed.

(** a camera with viewing row (0, 0, 2, 0): near plane at distance 1, far plane at distance 5 *)
Definition ex_camera : mat := mlist [[2; 0; 1; 0]; [0; 2; 1; 0]; [0; 0; 2; 0]].
Example gl_example : exists g, gl_projection 0 4 0 3 1 5 ex_camera = Some g /\ row_norm ex_camera = 2 /\
  let X := vlist [7; 5; 2; 1] in image ex_camera X 2 / row_norm ex_camera = 2 /\ pixel ex_camera X 0 = 4 /\ pixel ex_camera X 1 = 3 /\
  ndc g X 0 = 1 /\ ndc g X 1 = 1 /\ -1 <= ndc g X 2 <= 1.
Proof.
  destruct (gl_projection 0 4 0 3 1 5 ex_camera) as [g|] eqn:E.
  2: { apply gl_defined in E. lra. }
  assert (RN : row_norm ex_camera = 2).
  { unfold row_norm, ex_camera, mlist. cbn [List.nth]. replace (0 * 0 + 0 * 0 + 2 * 2) with (2 * 2) by ring. apply sqrt_square. lra. }
  exists g. split; [reflexivity|]. split; [exact RN|]. cbv zeta. rewrite RN.
  set (X := vlist [7; 5; 2; 1]). assert (X3 : X 3%nat = 1) by reflexivity.
  assert (I2 : image ex_camera X 2 = 4) by (unfold image, X, ex_camera, vlist, mlist; cbn [List.nth]; ring).
  assert (I0 : pixel ex_camera X 0 = 4) by (unfold pixel; rewrite I2; unfold image, X, ex_camera, vlist, mlist; cbn [List.nth]; field).
  assert (I1 : pixel ex_camera X 1 = 3) by (unfold pixel; rewrite I2; unfold image, X, ex_camera, vlist, mlist; cbn [List.nth]; field).
  destruct (gl_maps_rectangle _ _ _ _ _ _ _ _ X E X3 ltac:(rewrite I2; lra)) as (_ & A & _ & B & _).
  destruct (gl_maps_depth _ _ _ _ _ _ _ _ X E X3 ltac:(rewrite RN; lra)) as (_ & _ & C).
  rewrite I2. repeat split; try (apply C; rewrite ?I2, ?RN; lra); auto; field.
Qed.

(** ** Decomposition (C46, C87) *)
(** what LAPACK promises for one input: the upper triangle times the orthogonal factor is the block *)
Definition rq_contract (rq : rq_oracle) (p : mat) : Prop :=
  orthogonal3 (snd (rq p)) /\ meq 3 3 (mmul 3 (upper3 (fst (rq p))) (snd (rq p))) p.
Definition rq_contracts (rq : rq_oracle) (p : mat) : Prop := rq_contract rq p /\ rq_contract rq (mscale (-1) p).
(** the camera K [R | t] *)
Definition camera (k r : mat) (t : vect) : mat := fun i j => if (j =? 3)%nat then mvec 3 k t i else mmul 3 k r i j.

Lemma upper3_ut a : upper_triangular3 (upper3 a).
Proof. repeat split. Qed.
Lemma ut_det k : upper_triangular3 k -> det3 k = k 0%nat 0%nat * k 1%nat 1%nat * k 2%nat 2%nat.
Proof. intros (A & B & C). unfold det3. rewrite A, B, C. ring. Qed.

(** everything the function establishes, about the signed input *)
Lemma decompose_core rq p : rq_contracts rq p ->
  let p' := if Rlt_dec (p 2%nat 3%nat) 0 then mscale (-1) p else p in
  (decompose rq p = None -> det3 p = 0) /\
  (forall k r t, decompose rq p = Some (k, r, t) ->
    upper_triangular3 k /\ k 2%nat 2%nat = -1 /\ 0 < k 0%nat 0%nat /\ k 1%nat 1%nat <> 0 /\ rotation3 r /\
    (exists c, 0 < c /\ meq 3 3 p' (mscale c (mmul 3 k r))) /\ veq 3 (mvec 3 k t) (fun i => p' i 3%nat)).
Proof.
  intros [C1 C2] p'.
  assert (C : rq_contract rq p') by (unfold p'; destruct (Rlt_dec (p 2%nat 3%nat) 0); assumption).
  assert (DP : det3 p' = 0 -> det3 p = 0).
  { unfold p'. destruct (Rlt_dec (p 2%nat 3%nat) 0); [|auto]. rewrite det3_scale. lra. }
  unfold decompose. fold p'. destruct C as [O E]. destruct (rq p') as [a q]. cbn [fst snd] in O, E.
  pose proof (sign_scale_spec (upper3 a) q O) as S. cbv zeta in S.
  set (s := sign_scale (upper3 a) q) in *. destruct S as (S0 & S1 & S2 & SD & P0 & N2).
  pose proof (scale_rows_rotation s q O S0 S1 S2 SD) as RR.
  pose proof (scale_product s (upper3 a) q S0 S1 S2) as PR.
  assert (UT : upper_triangular3 (scale_cols s (upper3 a))).
  { destruct (upper3_ut a) as (A & B & D). unfold scale_cols. repeat split; rewrite ?A, ?B, ?D; ring. }
  set (k' := scale_cols s (upper3 a)) in *. set (r := scale_rows s q) in *.
  assert (P0' : 0 <= k' 0%nat 0%nat) by exact P0. assert (N2' : k' 2%nat 2%nat <= 0) by exact N2.
  assert (EK : meq 3 3 (mmul 3 k' r) p') by (intros i j Hi Hj; rewrite PR; apply E; assumption).
  assert (DK : det3 p' = k' 0%nat 0%nat * k' 1%nat 1%nat * k' 2%nat 2%nat).
  { rewrite <- (det3_ext _ _ EK), det3_mmul, (proj2 RR), (ut_det _ UT). ring. }
  clearbody k' r. clear PR E O.
  destruct (Req_EM_T (k' 2%nat 2%nat) 0) as [Z|N].
  { split; [|intros; discriminate]. intros _. apply DP. rewrite DK, Z. ring. }
  set (c := - k' 2%nat 2%nat). assert (Cp : 0 < c) by (unfold c; lra).
  assert (Cf : -1 / k' 2%nat 2%nat = / c) by (unfold c; field; exact N).
  set (k := mscale (-1 / k' 2%nat 2%nat) k').
  assert (UK : upper_triangular3 k) by (destruct UT as (A & B & D); unfold k, mscale; repeat split; rewrite ?A, ?B, ?D; ring).
  assert (K22 : k 2%nat 2%nat = -1) by (unfold k, mscale; field; exact N).
  assert (K00 : k 0%nat 0%nat = k' 0%nat 0%nat / c) by (unfold k, mscale; rewrite Cf; field; lra).
  assert (K11 : k 1%nat 1%nat = k' 1%nat 1%nat / c) by (unfold k, mscale; rewrite Cf; field; lra).
  assert (Pk : meq 3 3 p' (mscale c (mmul 3 k r))).
  { intros i j Hi Hj. rewrite <- (EK i j Hi Hj). unfold k, mmul, mscale. cbn [sum]. rewrite Cf. field. lra. }
  clearbody k.
  destruct (solve_upper k (fun i => p' i 3%nat)) as [t|] eqn:ST.
  - split; [discriminate|]. intros k0 r0 t0 Q. assert (k0 = k) by congruence. assert (r0 = r) by congruence. assert (t0 = t) by congruence. subst k0 r0 t0. clear Q.
    pose proof (solve_upper_spec _ _ _ UK ST) as TT.
    assert (k 1%nat 1%nat <> 0 /\ k 0%nat 0%nat <> 0) as [Q1 Q0].
    { unfold solve_upper in ST. destruct (Req_EM_T (k 2%nat 2%nat) 0); [discriminate|].
      destruct (Req_EM_T (k 1%nat 1%nat) 0); [discriminate|]. destruct (Req_EM_T (k 0%nat 0%nat) 0); [discriminate|]. auto. }
    split; [exact UK|]. split; [exact K22|]. split.
    { assert (0 <= k 0%nat 0%nat) by (rewrite K00; apply Rmult_le_pos; [exact P0'|left; apply Rinv_0_lt_compat, Cp]). lra. }
    split; [exact Q1|]. split; [exact RR|]. split; [exists c; split; assumption|exact TT].
  - split; [|intros; discriminate]. intros _. apply DP. rewrite DK.
    unfold solve_upper in ST. destruct (Req_EM_T (k 2%nat 2%nat) 0); [lra|].
    destruct (Req_EM_T (k 1%nat 1%nat) 0) as [Z|].
    { assert (k' 1%nat 1%nat = 0) by (rewrite K11 in Z; apply (Rmult_eq_reg_r (/ c)); [unfold Rdiv in Z; lra|apply Rinv_neq_0_compat; lra]). rewrite H. ring. }
    destruct (Req_EM_T (k 0%nat 0%nat) 0) as [Z|]; [|discriminate].
    assert (k' 0%nat 0%nat = 0) by (rewrite K00 in Z; apply (Rmult_eq_reg_r (/ c)); [unfold Rdiv in Z; lra|apply Rinv_neq_0_compat; lra]). rewrite H. ring.
Qed.

(** the decomposition is defined exactly for finite cameras *)
Theorem decompose_defined rq p : rq_contracts rq p -> (decompose rq p = None <-> det3 p = 0).
Proof.
  intros C. split; [apply (decompose_core rq p C)|]. intros D.
  destruct (decompose rq p) as [[[k r] t]|] eqn:E; [|reflexivity]. exfalso.
  destruct (proj2 (decompose_core rq p C) k r t E) as (U & K2 & K0 & K1 & [_ R] & (c & Cp & Q) & _).
  assert (D' : det3 (if Rlt_dec (p 2%nat 3%nat) 0 then mscale (-1) p else p) = 0).
  { destruct (Rlt_dec (p 2%nat 3%nat) 0); [rewrite det3_scale, D; ring|exact D]. }
  rewrite (det3_ext _ _ Q), det3_scale, det3_mmul, R, (ut_det _ U), K2 in D'.
  assert (k 0%nat 0%nat * k 1%nat 1%nat <> 0) by (apply Rmult_integral_contrapositive_currified; lra).
  assert (c * c * c <> 0) by (repeat apply Rmult_integral_contrapositive_currified; lra).
  assert (c * c * c * (k 0%nat 0%nat * k 1%nat 1%nat) <> 0) by (apply Rmult_integral_contrapositive_currified; assumption). lra.
Qed.

(** signs of the factors, and the left block is their product up to the length of the viewing row *)
Theorem decompose_factors rq p k r t : rq_contracts rq p -> decompose rq p = Some (k, r, t) ->
  upper_triangular3 k /\ k 2%nat 2%nat = -1 /\ 0 < k 0%nat 0%nat /\ k 1%nat 1%nat <> 0 /\ rotation3 r /\
  meq 3 3 p (mscale ((if Rlt_dec (p 2%nat 3%nat) 0 then -1 else 1) * row_norm p) (mmul 3 k r)).
Proof.
  intros C E. destruct (proj2 (decompose_core rq p C) k r t E) as (U & K2 & K0 & K1 & R & (c & Cp & Q) & _).
  do 5 (split; [assumption|]).
  assert (RC : row_norm p = c).
  { assert (L : forall j, (j < 3)%nat -> p 2%nat j * p 2%nat j = c * c * (r 2%nat j * r 2%nat j)).
    { intros j Hj. pose proof (Q 2%nat j ltac:(lia) Hj) as H. destruct U as (_ & A & B). unfold mscale, mmul in H. cbn [sum] in H.
      rewrite A, B, K2 in H. destruct (Rlt_dec (p 2%nat 3%nat) 0).
      - unfold mscale in H. replace (p 2%nat j) with (c * r 2%nat j) by lra. ring.
      - replace (p 2%nat j) with (- (c * r 2%nat j)) by lra. ring. }
    unfold row_norm. rewrite !L by lia. destruct R as [O _]. rewrite orthogonal_rdot in O. pose proof (O 2%nat 2%nat ltac:(lia) ltac:(lia)) as N.
    unfold rdot, eye in N. cbn in N.
    replace (c * c * (r 2%nat 0%nat * r 2%nat 0%nat) + c * c * (r 2%nat 1%nat * r 2%nat 1%nat) + c * c * (r 2%nat 2%nat * r 2%nat 2%nat))
      with (c * c * (r 2%nat 0%nat * r 2%nat 0%nat + r 2%nat 1%nat * r 2%nat 1%nat + r 2%nat 2%nat * r 2%nat 2%nat)) by ring.
    rewrite N, Rmult_1_r. apply sqrt_square. lra. }
  rewrite RC. intros i j Hi Hj. pose proof (Q i j Hi Hj) as H. destruct (Rlt_dec (p 2%nat 3%nat) 0); unfold mscale in *; lra.
Qed.

(** the world origin is in front of the camera (negative z), and K t is the signed last column *)
Theorem decompose_translation rq p k r t : rq_contracts rq p -> decompose rq p = Some (k, r, t) ->
  t 2%nat <= 0 /\ (forall i, (i < 3)%nat -> mvec 3 k t i = (if Rlt_dec (p 2%nat 3%nat) 0 then -1 else 1) * p i 3%nat).
Proof.
  intros C E. destruct (proj2 (decompose_core rq p C) k r t E) as (U & K2 & K0 & K1 & R & _ & T).
  assert (T' : forall i, (i < 3)%nat -> mvec 3 k t i = (if Rlt_dec (p 2%nat 3%nat) 0 then -1 else 1) * p i 3%nat).
  { intros i Hi. rewrite (T i Hi). destruct (Rlt_dec (p 2%nat 3%nat) 0); unfold mscale; ring. }
  split; [|exact T']. pose proof (T' 2%nat ltac:(lia)) as H. destruct U as (_ & A & B). unfold mvec in H. cbn [sum] in H. rewrite A, B, K2 in H.
  destruct (Rlt_dec (p 2%nat 3%nat) 0); lra.
Qed.

(** when the viewing row has unit length the camera is reproduced up to sign *)
Theorem decompose_reproduces_camera rq p k r t : rq_contracts rq p -> decompose rq p = Some (k, r, t) -> row_norm p = 1 ->
  meq 3 4 (mscale (if Rlt_dec (p 2%nat 3%nat) 0 then -1 else 1) p) (camera k r t).
Proof.
  intros C E N. destruct (decompose_factors _ _ _ _ _ C E) as (_ & _ & _ & _ & _ & Q).
  destruct (decompose_translation _ _ _ _ _ C E) as (_ & T).
  intros i j Hi Hj. unfold camera, mscale. destruct (Nat.eqb_spec j 3) as [->|NE].
  - rewrite T by assumption. reflexivity.
  - rewrite (Q i j Hi ltac:(lia)). unfold mscale. rewrite N. destruct (Rlt_dec (p 2%nat 3%nat) 0); ring.
Qed.
(** and only then, unless the last column is zero: a finding, see C87 *)
Theorem decompose_proportional_iff rq p k r t : rq_contracts rq p -> decompose rq p = Some (k, r, t) ->
  ((exists c, meq 3 4 p (mscale c (camera k r t))) <-> row_norm p = 1 \/ (forall i, (i < 3)%nat -> p i 3%nat = 0)).
Proof.
  intros C E. destruct (decompose_factors _ _ _ _ _ C E) as (U & K2 & K0 & K1 & RR & Q).
  destruct (decompose_translation _ _ _ _ _ C E) as (_ & T).
  set (s := if Rlt_dec (p 2%nat 3%nat) 0 then -1 else 1) in *.
  assert (S : s * s = 1) by (unfold s; destruct (Rlt_dec (p 2%nat 3%nat) 0); ring).
  split.
  - intros [c P].
    assert (CC : c = s * row_norm p).
    { (* compare the last rows *)
      assert (L : forall j, (j < 3)%nat -> c * r 2%nat j = s * row_norm p * r 2%nat j).
      { intros j Hj. pose proof (P 2%nat j ltac:(lia) ltac:(lia)) as H. pose proof (Q 2%nat j ltac:(lia) Hj) as H'.
        unfold mscale, camera in H, H'. destruct (Nat.eqb_spec j 3); [lia|]. rewrite H in H'. destruct U as (_ & A & B).
        unfold mmul in H'. cbn [sum] in H'. rewrite A, B, K2 in H'. lra. }
      destruct RR as [O _]. rewrite orthogonal_rdot in O. pose proof (O 2%nat 2%nat ltac:(lia) ltac:(lia)) as N.
      unfold rdot, eye in N. cbn in N.
      transitivity (c * r 2%nat 0%nat * r 2%nat 0%nat + c * r 2%nat 1%nat * r 2%nat 1%nat + c * r 2%nat 2%nat * r 2%nat 2%nat).
      { transitivity (c * (r 2%nat 0%nat * r 2%nat 0%nat + r 2%nat 1%nat * r 2%nat 1%nat + r 2%nat 2%nat * r 2%nat 2%nat)); [rewrite N; ring|ring]. }
      rewrite !L by lia. transitivity (s * row_norm p * (r 2%nat 0%nat * r 2%nat 0%nat + r 2%nat 1%nat * r 2%nat 1%nat + r 2%nat 2%nat * r 2%nat 2%nat)); [ring|rewrite N; ring]. }
    destruct (Req_dec (row_norm p) 1) as [|NE]; [left; assumption|right].
    intros i Hi. pose proof (P i 3%nat Hi ltac:(lia)) as H. unfold mscale, camera in H. cbn [Nat.eqb] in H. rewrite T in H by exact Hi.
    rewrite CC in H. assert (p i 3%nat * (row_norm p - 1) = 0).
    { transitivity (row_norm p * p i 3%nat - p i 3%nat); [ring|]. rewrite H at 2. transitivity (row_norm p * p i 3%nat - (s * s) * (row_norm p * p i 3%nat)); [ring|rewrite S; ring]. }
    apply Rmult_integral in H0. destruct H0; [assumption|lra].
  - intros H. exists (s * row_norm p). intros i j Hi Hj. unfold mscale, camera. destruct (Nat.eqb_spec j 3) as [->|NE].
    + rewrite T by exact Hi. destruct H as [-> | Z]; [|rewrite Z by exact Hi; ring].
      transitivity ((s * s) * p i 3%nat); [rewrite S; ring|ring].
    + apply (Q i j Hi). lia.
Qed.

(** a camera matrix given at an arbitrary scale is decomposed into its own factors *)
Theorem decompose_recovers_camera rq l k r t : l <> 0 -> upper_triangular3 k -> k 2%nat 2%nat = -1 -> 0 < k 0%nat 0%nat -> k 1%nat 1%nat <> 0 ->
  rotation3 r -> t 2%nat < 0 -> rq_contracts rq (mscale l (camera k r t)) ->
  exists k' r' t', decompose rq (mscale l (camera k r t)) = Some (k', r', t') /\ meq 3 3 k' k /\ meq 3 3 r' r /\ veq 3 t' (vscale (Rabs l) t).
Proof.
  intros L U K2 K0 K1 RR T2 C. set (p := mscale l (camera k r t)) in *.
  assert (PA : meq 3 3 p (mscale l (mmul 3 k r))).
  { intros i j Hi Hj. unfold p, mscale, camera. destruct (Nat.eqb_spec j 3); [lia|reflexivity]. }
  assert (PT : forall i, p i 3%nat = l * mvec 3 k t i) by reflexivity.
  assert (P23 : p 2%nat 3%nat = - l * t 2%nat).
  { rewrite PT. destruct U as (_ & A & B). unfold mvec. cbn [sum]. rewrite A, B, K2. ring. }
  assert (SG : (if Rlt_dec (p 2%nat 3%nat) 0 then -1 else 1) * l = Rabs l).
  { rewrite P23. destruct (Rlt_dec (- l * t 2%nat) 0) as [H|H].
    - rewrite Rabs_left; [ring|]. nra.
    - rewrite Rabs_right; [ring|]. nra. }
  destruct (decompose rq p) as [[[k' r'] t']|] eqn:E.
  2: { exfalso. apply (decompose_defined rq p C) in E. rewrite (det3_ext _ _ PA), det3_scale, det3_mmul, (proj2 RR), (ut_det _ U), K2 in E.
       assert (k 0%nat 0%nat * k 1%nat 1%nat <> 0) by (apply Rmult_integral_contrapositive_currified; lra).
       assert (l * l * l <> 0) by (repeat apply Rmult_integral_contrapositive_currified; lra).
       assert (l * l * l * (k 0%nat 0%nat * k 1%nat 1%nat) <> 0) by (apply Rmult_integral_contrapositive_currified; assumption). lra. }
  exists k', r', t'. split; [reflexivity|].
  destruct (decompose_factors _ _ _ _ _ C E) as (U' & K2' & K0' & K1' & RR' & Q).
  destruct (decompose_translation _ _ _ _ _ C E) as (_ & T).
  assert (RN : 0 < row_norm p).
  { assert (0 <= row_norm p) by apply sqrt_pos. destruct H as [|Z]; [assumption|exfalso].
    assert (B : forall j, (j < 3)%nat -> r 2%nat j = 0).
    { intros j Hj. pose proof (Q 2%nat j ltac:(lia) Hj) as H. rewrite <- Z in H. rewrite (PA 2%nat j ltac:(lia) Hj) in H. destruct U as (_ & A & B).
      unfold mscale, mmul in H. cbn [sum] in H. rewrite A, B, K2 in H. rewrite Rmult_0_r, Rmult_0_l in H.
      assert (l * r 2%nat j = 0) by lra. apply Rmult_integral in H0. destruct H0; [contradiction|assumption]. }
    destruct RR as [O _]. rewrite orthogonal_rdot in O. pose proof (O 2%nat 2%nat ltac:(lia) ltac:(lia)) as N.
    unfold rdot, eye in N. cbn in N. rewrite !B in N by lia. lra. }
  assert (LA : 0 < Rabs l) by (apply Rabs_pos_lt, L).
  set (sg := if Rlt_dec (p 2%nat 3%nat) 0 then -1 else 1) in *.
  assert (S : sg * sg = 1) by (unfold sg; destruct (Rlt_dec (p 2%nat 3%nat) 0); ring).
  assert (EQ : meq 3 3 (mmul 3 k' r') (mscale (Rabs l / row_norm p) (mmul 3 k r))).
  { intros i j Hi Hj. pose proof (Q i j Hi Hj) as H. rewrite (PA i j Hi Hj) in H. unfold mscale in *. rewrite <- SG.
    apply (Rmult_eq_reg_l (row_norm p)); [|lra]. transitivity (sg * (sg * row_norm p * mmul 3 k' r' i j)).
    - transitivity ((sg * sg) * (row_norm p * mmul 3 k' r' i j)); [rewrite S; ring|ring].
    - rewrite <- H. field. lra. }
  destruct (rq_unique k' k r' r (Rabs l / row_norm p)) as (One & EK & ER); try assumption.
  { apply Rmult_lt_0_compat; [exact LA|apply Rinv_0_lt_compat, RN]. }
  split; [exact EK|]. split; [exact ER|].
  (* back substitution is unique *)
  assert (TE : forall i, (i < 3)%nat -> mvec 3 k t' i = mvec 3 k (vscale (Rabs l) t) i).
  { intros i Hi. transitivity (mvec 3 k' t' i).
    - unfold mvec. cbn [sum]. rewrite !(EK i) by lia. ring.
    - rewrite (T i Hi), PT, <- SG. unfold mvec, vscale. cbn [sum]. ring. }
  destruct U as (A & B & D).
  pose proof (TE 2%nat ltac:(lia)) as H2. pose proof (TE 1%nat ltac:(lia)) as H1. pose proof (TE 0%nat ltac:(lia)) as H0.
  unfold mvec, vscale in H0, H1, H2. cbn [sum] in H0, H1, H2. rewrite B, D, K2 in H2. rewrite A in H1.
  assert (V2 : t' 2%nat = Rabs l * t 2%nat) by lra. rewrite V2 in H0, H1.
  assert (V1 : t' 1%nat = Rabs l * t 1%nat) by (apply (Rmult_eq_reg_l (k 1%nat 1%nat)); [lra|exact K1]). rewrite V1 in H0.
  assert (V0 : t' 0%nat = Rabs l * t 0%nat) by (apply (Rmult_eq_reg_l (k 0%nat 0%nat)); lra).
  intros i Hi. unfold vscale. idx i Hi; assumption.
Qed.

(** the product of the factors is not the camera in general: the last column is not rescaled with K *)
Definition id_rq : rq_oracle := fun p => (p, eye).
Lemma id_rq_contract p : upper_triangular3 p -> rq_contracts id_rq p.
Proof.
  intros (A & B & C). split; (split; [intros i j Hi Hj; idx i Hi; idx j Hj; unfold id_rq, mmul, tr, eye; cbn; ring|]);
    intros i j Hi Hj; unfold id_rq, mmul, upper3, eye, mscale; cbn [fst snd sum];
    idx i Hi; idx j Hj; cbn; rewrite ?A, ?B, ?C; ring.
Qed.
Definition ex_p : mat := mlist [[2; 0; 0; 0]; [0; 2; 0; 0]; [0; 0; -2; 2]].
Theorem decompose_scale_refuted : exists rq p k r t, rq_contracts rq p /\ decompose rq p = Some (k, r, t) /\
  ~ exists c, meq 3 4 p (mscale c (camera k r t)).
Proof.
  assert (C : rq_contracts id_rq ex_p) by (apply id_rq_contract; repeat split).
  destruct (decompose id_rq ex_p) as [[[k r] t]|] eqn:E.
  2: { apply (decompose_defined _ _ C) in E. unfold det3, ex_p, mlist in E. cbn [List.nth] in E. lra. }
  exists id_rq, ex_p, k, r, t. split; [exact C|]. split; [exact E|]. intros H.
  apply (decompose_proportional_iff _ _ _ _ _ C E) in H. destruct H as [H|H].
  - unfold row_norm, ex_p, mlist in H. cbn [List.nth] in H. replace (0 * 0 + 0 * 0 + -2 * -2) with (2 * 2) in H by ring.
    rewrite sqrt_square in H by lra. lra.
  - specialize (H 2%nat ltac:(lia)). unfold ex_p, mlist in H. cbn [List.nth] in H. lra.
Qed.
(** a camera with focal lengths 800 and 780, principal point (-320,-240) and the origin 3 units ahead, given at scale 5 *)
Definition ex_k : mat := mlist [[800; 2; -320]; [0; 780; -240]; [0; 0; -1]].
Example decompose_example : exists k r t, decompose id_rq (mscale 5 (camera ex_k eye (vlist [1; 2; -3]))) = Some (k, r, t) /\
  meq 3 3 k ex_k /\ meq 3 3 r eye /\ veq 3 t (vlist [5; 10; -15]).
Proof.
  destruct (decompose_recovers_camera id_rq 5 ex_k eye (vlist [1; 2; -3])) as (k & r & t & A & B & C & D).
  - lra.
  - repeat split.
  - unfold ex_k, mlist. cbn [List.nth]. lra.
  - unfold ex_k, mlist. cbn [List.nth]. lra.
  - unfold ex_k, mlist. cbn [List.nth]. lra.
  - split; [intros i j Hi Hj; idx i Hi; idx j Hj; unfold mmul, tr, eye; cbn; ring|apply det3_eye].
  - unfold vlist. cbn [List.nth]. lra.
  - apply id_rq_contract. repeat split; unfold mscale, camera, mmul, eye, ex_k, mlist; cbn; ring.
  - exists k, r, t. split; [exact A|]. split; [exact B|]. split; [exact C|].
    intros i Hi. rewrite (D i Hi). unfold vscale. rewrite Rabs_right by lra. idx i Hi; unfold vlist; cbn [List.nth]; ring.
Qed.

(** ** Off-axis projection (C88) *)
(** the point at fractions a, b of the screen's lower and left edge *)
Definition screen_point (ll ul lr : vect) (a b : R) (i : nat) : R := ll i + a * (lr i - ll i) + b * (ul i - ll i).
Definition rectangle (ll ul lr : vect) (sw sh : R) : Prop :=
  vdot 3 (vsub lr ll) (vsub lr ll) = sw * sw /\ vdot 3 (vsub ul ll) (vsub ul ll) = sh * sh /\ vdot 3 (vsub lr ll) (vsub ul ll) = 0.
(** the point of the ray from the eye through a screen point, at [lam] times its distance *)
Definition on_ray (e : vect) (s : nat -> R) (lam : R) : vect := fun i => if (i =? 3)%nat then 1 else e i + lam * (s i - e i).
(** signed distance of the eye from the screen plane *)
Definition eye_distance (e ll ul lr : vect) (sw sh : R) : R :=
  vdot 3 (vsub e ll) (cross_product (fun i => (lr i - ll i) / sw) (fun i => (ul i - ll i) / sh)).

Lemma edge_ne s L n d : s <> 0 -> n <> 0 -> d <> 0 -> (s - L) * n / d <> - L * n / d.
Proof.
  intros Hs Hn Hd Z. assert (E : s * n / d = 0) by (transitivity ((s - L) * n / d - - L * n / d); [field; exact Hd|lra]).
  assert (s * n = 0) by (transitivity (s * n / d * d); [field; exact Hd|rewrite E; ring]).
  apply Rmult_integral in H. destruct H; contradiction.
Qed.
Theorem off_axis_defined e ll ul lr n f sw sh : sw <> 0 -> sh <> 0 -> n <> 0 -> n <> f -> eye_distance e ll ul lr sw sh <> 0 ->
  off_axis e ll ul lr n f sw sh <> None.
Proof.
  intros Hw Hh Hn Hf Hd. unfold eye_distance in Hd. unfold off_axis, screen_x.
  destruct (Req_EM_T sw 0); [contradiction|]. destruct (Req_EM_T sh 0); [contradiction|]. cbv zeta.
  set (d := vdot 3 _ (cross_product _ _)) in *. destruct (Req_EM_T d 0); [contradiction|]. clearbody d.
  match goal with |- context [Req_EM_T ?a ?b] => destruct (Req_EM_T a b) as [Z|] end.
  { exfalso. revert Z. apply edge_ne; assumption. }
  match goal with |- context [Req_EM_T ?a ?b] => destruct (Req_EM_T a b) as [Z|] end.
  { exfalso. revert Z. apply edge_ne; assumption. }
  destruct (Req_EM_T f n); [congruence|discriminate].
Qed.

Theorem off_axis_maps_screen e ll ul lr n f sw sh g : rectangle ll ul lr sw sh -> off_axis e ll ul lr n f sw sh = Some g ->
  forall a b lam, lam <> 0 ->
  let X := on_ray e (screen_point ll ul lr a b) lam in
  let d := lam * eye_distance e ll ul lr sw sh in
  ndc g X 0 = 2 * a - 1 /\ ndc g X 1 = 2 * b - 1 /\ image g X 3 = d /\
  (d = n -> ndc g X 2 = -1) /\ (d = f -> f <> 0 -> ndc g X 2 = 1) /\
  (0 < n < f -> 0 < d -> (-1 <= ndc g X 2 <= 1 <-> n <= d <= f)).
Proof.
  intros (Rx & Ry & Rxy) E a b lam Hlam. cbv zeta. unfold off_axis, screen_x in E. unfold eye_distance.
  destruct (Req_EM_T sw 0) as [|Hw]; [discriminate|]. destruct (Req_EM_T sh 0) as [|Hh]; [discriminate|]. cbv zeta in E.
  set (x := fun i => (lr i - ll i) / sw) in *. set (y := fun i => (ul i - ll i) / sh) in *.
  set (z := cross_product x y) in *. set (es := vsub e ll) in *.
  destruct (Req_EM_T (vdot 3 es z) 0) as [|Hd]; [discriminate|].
  assert (Ex : forall i, lr i - ll i = sw * x i) by (intros i; unfold x; field; exact Hw).
  assert (Ey : forall i, ul i - ll i = sh * y i) by (intros i; unfold y; field; exact Hh).
  assert (XX : vdot 3 x x = 1).
  { apply (Rmult_eq_reg_l (sw * sw)); [|apply Rmult_integral_contrapositive_currified; assumption]. rewrite Rmult_1_r. etransitivity; [|exact Rx].
    unfold vdot, vsub. cbn [sum]. rewrite !Ex. ring. }
  assert (YY : vdot 3 y y = 1).
  { apply (Rmult_eq_reg_l (sh * sh)); [|apply Rmult_integral_contrapositive_currified; assumption]. rewrite Rmult_1_r. etransitivity; [|exact Ry].
    unfold vdot, vsub. cbn [sum]. rewrite !Ey. ring. }
  assert (XY : vdot 3 x y = 0).
  { apply (Rmult_eq_reg_l (sw * sh)); [|apply Rmult_integral_contrapositive_currified; assumption]. rewrite Rmult_0_r. etransitivity; [|exact Rxy].
    unfold vdot, vsub. cbn [sum]. rewrite !Ex, !Ey. ring. }
  assert (Ez0 : z 0%nat = x 1%nat * y 2%nat - x 2%nat * y 1%nat) by reflexivity.
  assert (Ez1 : z 1%nat = x 2%nat * y 0%nat - x 0%nat * y 2%nat) by reflexivity.
  assert (Ez2 : z 2%nat = x 0%nat * y 1%nat - x 1%nat * y 0%nat) by reflexivity.
  set (L := vdot 3 es x) in *. set (B := vdot 3 es y) in *. set (D := vdot 3 es z) in *.
  match type of E with context [Req_EM_T ?p ?q] => destruct (Req_EM_T p q) as [|H1]; [discriminate|] end.
  match type of E with context [Req_EM_T ?p ?q] => destruct (Req_EM_T p q) as [|H2]; [discriminate|] end.
  destruct (Req_EM_T f n) as [|Hf]; [discriminate|].
  assert (Hn : n <> 0) by (intros ->; apply H1; field; exact Hd).
  assert (SP : forall i, screen_point ll ul lr a b i = ll i + a * sw * x i + b * sh * y i).
  { intros i. unfold screen_point. rewrite Ex, Ey. ring. }
  set (X := on_ray e (screen_point ll ul lr a b) lam).
  (* coordinates in the screen frame *)
  set (vx := x 0%nat * (X 0%nat - e 0%nat) + x 1%nat * (X 1%nat - e 1%nat) + x 2%nat * (X 2%nat - e 2%nat)).
  set (vy := y 0%nat * (X 0%nat - e 0%nat) + y 1%nat * (X 1%nat - e 1%nat) + y 2%nat * (X 2%nat - e 2%nat)).
  set (vz := z 0%nat * (X 0%nat - e 0%nat) + z 1%nat * (X 1%nat - e 1%nat) + z 2%nat * (X 2%nat - e 2%nat)).
  assert (Vx : vx = lam * (a * sw - L)).
  { transitivity (lam * (a * sw * vdot 3 x x + b * sh * vdot 3 x y - L)); [|rewrite XX, XY; ring].
    unfold vx, X, on_ray, L, es, vdot, vsub. cbn [Nat.eqb sum]. rewrite !SP. ring. }
  assert (Vy : vy = lam * (b * sh - B)).
  { transitivity (lam * (a * sw * vdot 3 x y + b * sh * vdot 3 y y - B)); [|rewrite YY, XY; ring].
    unfold vy, X, on_ray, B, es, vdot, vsub. cbn [Nat.eqb sum]. rewrite !SP. ring. }
  assert (Vz : vz = - (lam * D)).
  { unfold vz, X, on_ray, D, es, vdot, vsub. cbn [Nat.eqb sum]. rewrite !SP, Ez0, Ez1, Ez2. ring. }
  assert (G : forall i, image g X i = (if (i =? 0)%nat then 2 * n / (((sw - L) * n / D) - (- L * n / D)) * vx + (((sw - L) * n / D) + (- L * n / D)) / (((sw - L) * n / D) - (- L * n / D)) * vz
     else if (i =? 1)%nat then 2 * n / (((sh - B) * n / D) - (- B * n / D)) * vy + (((sh - B) * n / D) + (- B * n / D)) / (((sh - B) * n / D) - (- B * n / D)) * vz
     else if (i =? 2)%nat then - ((f + n) / (f - n)) * vz - 2 * f * n / (f - n)
     else if (i =? 3)%nat then - vz else 0) \/ (3 < i)%nat).
  { intros i. destruct (Nat.leb_spec i 3) as [Hi|Hi]; [left|right; exact Hi].
    match type of E with Some ?m = _ => assert (Eg : g = m) by congruence end. rewrite Eg. clear Eg E.
    assert (X3 : X 3%nat = 1) by reflexivity.
    unfold image. rewrite X3. unfold mmul, tr. cbn [sum].
    destruct i as [|[|[|[|i]]]]; [| | | |exfalso; lia]; unfold mlist; cbn [List.nth Nat.eqb];
      repeat match goal with |- context [(lr ?i - ll ?i) / sw] => change ((lr i - ll i) / sw) with (x i) end;
      repeat match goal with |- context [(ul ?i - ll ?i) / sh] => change ((ul i - ll i) / sh) with (y i) end;
      unfold vx, vy, vz; ring. }
  assert (W : image g X 3 = lam * D) by (destruct (G 3%nat) as [-> |H]; [cbn [Nat.eqb]; rewrite Vz; ring|lia]).
  assert (LD : lam * D <> 0) by (apply Rmult_integral_contrapositive_currified; assumption).
  assert (FN : f - n <> 0) by (intros Z; apply Hf; lra).
  assert (N0 : ndc g X 0 = 2 * a - 1).
  { unfold ndc. rewrite W. destruct (G 0%nat) as [-> |H]; [|lia]. cbn [Nat.eqb]. rewrite Vx, Vz.
    assert (P : (sw - L) * n / D - - L * n / D = sw * n / D) by (field; exact Hd). rewrite P. field. repeat split; assumption. }
  assert (N1 : ndc g X 1 = 2 * b - 1).
  { unfold ndc. rewrite W. destruct (G 1%nat) as [-> |H]; [|lia]. cbn [Nat.eqb]. rewrite Vy, Vz.
    assert (P : (sh - B) * n / D - - B * n / D = sh * n / D) by (field; exact Hd). rewrite P. field. repeat split; assumption. }
  set (d := lam * D) in *.
  assert (N2 : ndc g X 2 = ((f + n) * d - 2 * f * n) / ((f - n) * d)).
  { unfold ndc. rewrite W. destruct (G 2%nat) as [-> |H]; [|lia]. cbn [Nat.eqb]. rewrite Vz. field. split; assumption. }
  split; [exact N0|]. split; [exact N1|]. split; [exact W|].
  rewrite N2. clearbody d. clear - LD Hn FN. split; [|split].
  - intros ->. field. auto.
  - intros -> F. field. auto.
  - intros [Np Fp] Dp. assert (P : 0 < (f - n) * d) by (apply Rmult_lt_0_compat; lra).
    set (q := ((f + n) * d - 2 * f * n) / ((f - n) * d)).
    assert (Z : q * ((f - n) * d) = (f + n) * d - 2 * f * n) by (unfold q; field; split; lra). clearbody q.
    split; intros [A B]; split.
    + assert (- ((f - n) * d) <= (f + n) * d - 2 * f * n) by (rewrite <- Z; nra). nra.
    + assert ((f + n) * d - 2 * f * n <= (f - n) * d) by (rewrite <- Z; nra). nra.
    + assert (- ((f - n) * d) <= (f + n) * d - 2 * f * n) by nra. rewrite <- Z in H. nra.
    + assert ((f + n) * d - 2 * f * n <= (f - n) * d) by nra. rewrite <- Z in H. nra.
Qed.
(** a 4x3 screen seen from 2 in front of it, off centre *)
Example off_axis_example : rectangle (vlist [0; 0; 0]) (vlist [0; 3; 0]) (vlist [4; 0; 0]) 4 3 /\
  eye_distance (vlist [1; 1; 2]) (vlist [0; 0; 0]) (vlist [0; 3; 0]) (vlist [4; 0; 0]) 4 3 = 2 /\
  off_axis (vlist [1; 1; 2]) (vlist [0; 0; 0]) (vlist [0; 3; 0]) (vlist [4; 0; 0]) 1 10 4 3 <> None.
Proof.
  assert (D : eye_distance (vlist [1; 1; 2]) (vlist [0; 0; 0]) (vlist [0; 3; 0]) (vlist [4; 0; 0]) 4 3 = 2).
  { unfold eye_distance, cross_product, vdot, vsub, vlist. cbn [sum List.nth]. field. }
  split; [repeat split; unfold vdot, vsub, vlist; cbn [sum List.nth]; ring|]. split; [exact D|].
  apply off_axis_defined; rewrite ?D; lra.
Qed.

(** ** Image origin (C88) *)
(** pixel of a calibration matrix without skew into the second row *)
Theorem correct_origin_flips k h X : upper_triangular3 k -> k 2%nat 2%nat * X 2%nat <> 0 ->
  let k' := correct_origin k false h in
  let px m i := mvec 3 m X i / mvec 3 m X 2%nat in
  px k' 0%nat = px k 0%nat /\ px k' 1%nat = h - 1 - px k 1%nat.
Proof.
  intros (A & B & C) Z k' px. assert (N2 : k 2%nat 2%nat <> 0) by (intros E; rewrite E, Rmult_0_l in Z; auto).
  assert (NX : X 2%nat <> 0) by (intros E; rewrite E, Rmult_0_r in Z; auto).
  unfold px, k', correct_origin, mvec. cbn [sum Nat.eqb andb]. rewrite A, B, C. split; field; auto.
Qed.
Theorem correct_origin_involution k h : meq 3 3 (correct_origin (correct_origin k false h) false h) k /\ correct_origin k true h = k.
Proof.
  split; [|reflexivity]. intros i j Hi Hj. unfold correct_origin. idx i Hi; idx j Hj; cbn [Nat.eqb andb]; ring.
Qed.
Theorem correct_origin_keeps_shape k h o : upper_triangular3 k -> upper_triangular3 (correct_origin k o h) /\
  correct_origin k o h 2%nat 2%nat = k 2%nat 2%nat /\ correct_origin k o h 0%nat 0%nat = k 0%nat 0%nat.
Proof. intros U. destruct o; [auto|]. split; [exact U|split; reflexivity]. Qed.
Example correct_origin_example : upper_triangular3 ex_k /\ ex_k 2%nat 2%nat * vlist [1; 2; -3] 2%nat <> 0.
Proof. split; [repeat split|]. unfold ex_k, mlist, vlist. cbn [List.nth]. lra. Qed.

Print Assumptions gl_maps_rectangle.
Print Assumptions depth_is_distance.
Print Assumptions gl_maps_depth.
Print Assumptions gl_defined.
Print Assumptions decompose_defined.
Print Assumptions decompose_factors.
Print Assumptions decompose_translation.
Print Assumptions decompose_reproduces_camera.
Print Assumptions decompose_proportional_iff.
Print Assumptions decompose_recovers_camera.
Print Assumptions decompose_scale_refuted.
Print Assumptions off_axis_maps_screen.
Print Assumptions correct_origin_flips.
Print Assumptions correct_origin_involution.

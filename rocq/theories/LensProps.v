(** Lens distortion and its removal (C112 - C116). *)
From Coq Require Import Reals Lra Lia List Arith.
Import ListNotations.
From Coquelicot Require Import Coquelicot.
From Verif Require Import Mat Jacobians JacobiansProofs LevMarq LevMarqProofs LevMarqProps Lens LensProofs.
Open Scope R_scope.

(** * Specification *)
(** an intrinsic matrix in one of the two conventions *)
Definition camera_matrix (K : mat) : Prop :=
  K 1%nat 0%nat = 0 /\ K 2%nat 0%nat = 0 /\ K 2%nat 1%nat = 0 /\ K 0%nat 0%nat <> 0 /\ K 1%nat 1%nat <> 0 /\
  (K 2%nat 2%nat = 1 \/ K 2%nat 2%nat = -1).
(** the ideal image of a point: K P, dehomogenised *)
Definition pinhole (K : mat) (P : vect) : vect := fun i => mvec 3 K P i / mvec 3 K P 2%nat.

(** * C112: sensor and image coordinates *)
Theorem project_unproject : forall K p, K 0%nat 0%nat <> 0 -> K 1%nat 1%nat <> 0 -> veq 2 (project K (unproject K p)) p.
Proof. intros K p H0 H1 i Hi. idx i Hi; unfold project, unproject, vlist; cbn [nth]; field; auto. Qed.
Print Assumptions project_unproject.
Theorem unproject_project : forall K p, K 0%nat 0%nat <> 0 -> K 1%nat 1%nat <> 0 -> veq 2 (unproject K (project K p)) p.
Proof. intros K p H0 H1 i Hi. idx i Hi; unfold project, unproject, vlist; cbn [nth]; field; auto. Qed.
Print Assumptions unproject_project.

(** sensor coordinates are (x, y) / z in the one convention and (x, y) / -z in the other *)
Theorem project_is_pinhole : forall K P, camera_matrix K -> P 2%nat <> 0 ->
  veq 2 (project K (vlist [P 0%nat / (K 2%nat 2%nat * P 2%nat); P 1%nat / (K 2%nat 2%nat * P 2%nat)])) (pinhole K P).
Proof.
  intros K P (E1 & E2 & E3 & H0 & H1 & H2) HP i Hi.
  unfold project, pinhole, mvec, vlist. cbn [sum nth]. rewrite E2, E3.
  idx i Hi; cbn [nth]; rewrite ?E1; destruct H2 as [-> | ->]; field; exact HP.
Qed.
Print Assumptions project_is_pinhole.

Lemma distort_ext p q d : p 0%nat = q 0%nat -> p 1%nat = q 1%nat -> distort p d = distort q d.
Proof. intros E0 E1. unfold distort. rewrite E0, E1. reflexivity. Qed.
Lemma unproject_pinhole K P : camera_matrix K -> P 2%nat <> 0 ->
  unproject K (pinhole K P) 0%nat = P 0%nat / (K 2%nat 2%nat * P 2%nat) /\ unproject K (pinhole K P) 1%nat = P 1%nat / (K 2%nat 2%nat * P 2%nat).
Proof.
  intros HK HP. assert (Q := project_is_pinhole K P HK HP). destruct HK as (_ & _ & _ & H0 & H1 & _).
  assert (Q0 := Q 0%nat ltac:(lia)). assert (Q1 := Q 1%nat ltac:(lia)).
  assert (U := unproject_project K (vlist [P 0%nat / (K 2%nat 2%nat * P 2%nat); P 1%nat / (K 2%nat 2%nat * P 2%nat)]) H0 H1).
  assert (U0 := U 0%nat ltac:(lia)). assert (U1 := U 1%nat ltac:(lia)).
  unfold unproject, vlist in *. cbn [nth] in *. rewrite <- Q0, <- Q1. auto.
Qed.

(** projecting with distortion is projecting and then distorting the image point, for every point,
    exactly if K(2,2) = 1 or there is no tangential distortion *)
Theorem project_then_distort : forall K d, camera_matrix K ->
  (forall P, P 2%nat <> 0 -> veq 2 (project_with_distortion P d K) (lens_distort (pinhole K P) d K))
  <-> (K 2%nat 2%nat = 1 \/ d 2%nat = 0 /\ d 3%nat = 0).
Proof.
  intros K d HK. split.
  - intros H. destruct HK as (E1 & E2 & E3 & H0 & H1 & [H2|H2]) eqn:EK; [left; exact H2|right]. clear EK.
    assert (HP : vlist [0; 1; 1] 2%nat <> 0) by (unfold vlist; cbn; lra).
    specialize (H (vlist [0; 1; 1]) HP).
    destruct (unproject_pinhole K (vlist [0; 1; 1]) ltac:(repeat split; auto) HP) as [U0 U1].
    unfold lens_distort in H. rewrite (distort_ext _ (vlist [0; -1]) d) in H.
    2: { rewrite U0, H2. unfold vlist. cbn [nth]. field. } 2: { rewrite U1, H2. unfold vlist. cbn [nth]. field. }
    assert (A := H 1%nat ltac:(lia)). assert (B := H 0%nat ltac:(lia)).
    unfold project_with_distortion, project, distort, vlist in A, B. cbn [nth] in A, B. rewrite H2 in A, B. unfold Rdiv in A, B. replace (/ -1) with (-1) in A, B by field.
    assert (D2 : K 1%nat 1%nat * d 2%nat = 0) by (ring_simplify in A; lra).
    apply Rmult_integral in D2. destruct D2 as [D2|D2]; [contradiction|]. rewrite D2 in B.
    assert (D3 : K 0%nat 0%nat * d 3%nat = 0) by (ring_simplify in B; lra).
    apply Rmult_integral in D3. destruct D3 as [D3|D3]; [contradiction|]. auto.
  - intros H P HP. destruct (unproject_pinhole K P HK HP) as [U0 U1]. destruct HK as (_ & _ & _ & _ & _ & HS).
    unfold lens_distort.
    rewrite (distort_ext _ (vlist [P 0%nat / (K 2%nat 2%nat * P 2%nat); P 1%nat / (K 2%nat 2%nat * P 2%nat)]) d U0 U1).
    intros i Hi. unfold project_with_distortion, project, distort, vlist. cbn [nth].
    destruct HS as [-> |E].
    + idx i Hi; cbn [nth]; field; exact HP.
    + destruct H as [H|[-> ->]]; [lra|]. rewrite E. idx i Hi; cbn [nth]; field; exact HP.
Qed.
Print Assumptions project_then_distort.
Theorem project_then_distort_refuted : exists K d P, camera_matrix K /\ P 2%nat <> 0 /\
  ~ veq 2 (project_with_distortion P d K) (lens_distort (pinhole K P) d K).
Proof.
  exists (mlist [[1; 0; 0]; [0; 1; 0]; [0; 0; -1]]), (vlist [0; 0; 1; 0]), (vlist [0; 1; -1]).
  unfold camera_matrix, mlist, vlist. cbn [nth]. repeat split; auto; try lra.
  intros H. assert (A := H 1%nat ltac:(lia)).
  unfold project_with_distortion, lens_distort, project, unproject, pinhole, distort, mvec, vlist in A. cbn [sum nth] in A. field_simplify in A; lra.
Qed.
Print Assumptions project_then_distort_refuted.

(** * C113: the distortion models *)
Theorem distort6_defined : forall k t p, distort6 k t p = None <-> lower6 k p = 0.
Proof. intros. unfold distort6. destruct (Req_EM_T (lower6 k p) 0); split; intros; congruence. Qed.
Print Assumptions distort6_defined.
(** with k3 .. k6 = 0 it is the model with four coefficients *)
Theorem distort6_extends : forall k t p, (forall i, (2 <= i < 6)%nat -> k i = 0) ->
  exists q, distort6 k t p = Some q /\ veq 2 q (distort p (vlist [k 0%nat; k 1%nat; t 0%nat; t 1%nat])).
Proof.
  intros k t p H. assert (L : lower6 k p = 1).
  { unfold lower6. rewrite (H 3%nat), (H 4%nat), (H 5%nat) by lia. ring. }
  unfold distort6. destruct (Req_EM_T (lower6 k p) 0) as [E|_]; [lra|]. eexists. split; [reflexivity|].
  intros i Hi. unfold distort6_value. rewrite L. unfold upper6, distort, vlist. rewrite (H 2%nat) by lia. idx i Hi; cbn [nth]; field.
Qed.
Print Assumptions distort6_extends.
(** without coefficients image points are left alone *)
Theorem distort_none : forall K p, K 0%nat 0%nat <> 0 -> K 1%nat 1%nat <> 0 ->
  (exists q, camera_distort K (fun _ => 0) (fun _ => 0) p = Some q /\ veq 2 q p) /\ veq 2 (lens_distort p (fun _ => 0) K) p.
Proof.
  intros K p H0 H1. assert (PU := project_unproject K p H0 H1). assert (A := PU 0%nat ltac:(lia)). assert (B := PU 1%nat ltac:(lia)).
  split.
  - destruct (distort6_extends (fun _ => 0) (fun _ => 0) (unproject K p)) as (q & E & Q); [reflexivity|].
    unfold camera_distort. rewrite E. eexists. split; [reflexivity|].
    assert (Q0 := Q 0%nat ltac:(lia)). assert (Q1 := Q 1%nat ltac:(lia)).
    intros i Hi. idx i Hi.
    + rewrite <- A. unfold project, vlist. cbn [nth]. rewrite Q0, Q1. unfold distort, vlist. cbn [nth]. ring.
    + rewrite <- B. unfold project, vlist. cbn [nth]. rewrite Q1. unfold distort, vlist. cbn [nth]. ring.
  - intros i Hi. unfold lens_distort. idx i Hi.
    + rewrite <- A. unfold project at 1 2. unfold distort, vlist. cbn [nth]. ring.
    + rewrite <- B. unfold project at 1 2. unfold distort, vlist. cbn [nth]. ring.
Qed.
Print Assumptions distort_none.
(** image points: both interfaces agree *)
Theorem camera_distort_lens_distort : forall K k t p, (forall i, (2 <= i < 6)%nat -> k i = 0) ->
  exists q, camera_distort K k t p = Some q /\ veq 2 q (lens_distort p (vlist [k 0%nat; k 1%nat; t 0%nat; t 1%nat]) K).
Proof.
  intros K k t p H. destruct (distort6_extends k t (unproject K p) H) as (q & E & Q). unfold camera_distort, lens_distort. rewrite E.
  eexists. split; [reflexivity|]. intros i Hi. unfold project, vlist. rewrite (Q 0%nat), (Q 1%nat) by lia. reflexivity.
Qed.
Print Assumptions camera_distort_lens_distort.
(** purely radial distortion commutes with rotations about the optical axis *)
Definition rotated (c s : R) (p : vect) : vect := vlist [c * p 0%nat - s * p 1%nat; s * p 0%nat + c * p 1%nat].
Theorem radial_rotates : forall k p c s, c * c + s * s = 1 ->
  match distort6 k (fun _ => 0) p, distort6 k (fun _ => 0) (rotated c s p) with
  | Some q, Some q' => veq 2 q' (rotated c s q)
  | None, None => True
  | _, _ => False
  end.
Proof.
  intros k p c s H.
  assert (N : rotated c s p 0%nat * rotated c s p 0%nat + rotated c s p 1%nat * rotated c s p 1%nat = p 0%nat * p 0%nat + p 1%nat * p 1%nat).
  { unfold rotated, vlist. cbn [nth].
    transitivity ((c * c + s * s) * (p 0%nat * p 0%nat + p 1%nat * p 1%nat)); [ring|]. rewrite H. ring. }
  assert (L : lower6 k (rotated c s p) = lower6 k p) by (unfold lower6; rewrite N; reflexivity).
  assert (U : upper6 k (rotated c s p) = upper6 k p) by (unfold upper6; rewrite N; reflexivity).
  unfold distort6. rewrite L. destruct (Req_EM_T (lower6 k p) 0); [exact I|].
  intros i Hi. unfold distort6_value. rewrite L, U. unfold rotated, vlist. idx i Hi; cbn [nth]; field; assumption.
Qed.
Print Assumptions radial_rotates.

(** the overloads for point lists need an output that is long enough *)
Theorem transform_all_spec : forall (A : Type) (f : vect -> A) pts out,
  transform_all f pts out = if (length pts <=? length out)%nat then Some (map f pts ++ skipn (length pts) out) else None.
Proof.
  induction pts as [|p pts IH]; intros out; [reflexivity|]. destruct out as [|o out]; [reflexivity|].
  cbn [transform_all length map app skipn]. rewrite IH. cbn [Nat.leb]. destruct (length pts <=? length out)%nat; reflexivity.
Qed.
Print Assumptions transform_all_spec.

(** * C114: the Jacobian of the model with six coefficients *)
Theorem distort6_derivative : forall k t p, lower6 k p <> 0 ->
  derivative 2 2 (distort6_value k t) p (distort6_jac k t p).
Proof.
  intros k t p HL g e Hc _ r Hr. take_curve Hc 2%nat. clear Hc.
  set (N := fun h => upper6 k (at_time g h)). set (L := fun h => lower6 k (at_time g h)).
  set (x := p 0%nat) in *. set (y := p 1%nat) in *. set (r2 := x * x + y * y). set (v := x * e 0%nat + y * e 1%nat).
  assert (DN : is_derive N 0 ((2 * k 0%nat + 4 * k 1%nat * r2 + 6 * k 2%nat * (r2 * r2)) * v)).
  { unfold N, upper6, at_time. use_curve. auto_derive; ex_curve; unfold v, r2; rewrite ?Z, ?Z0; ring. }
  assert (DL : is_derive L 0 ((2 * k 3%nat + 4 * k 4%nat * r2 + 6 * k 5%nat * (r2 * r2)) * v)).
  { unfold L, lower6, at_time. use_curve. auto_derive; ex_curve; unfold v, r2; rewrite ?Z, ?Z0; ring. }
  assert (N0 : N 0 = upper6 k p) by (unfold N, upper6, at_time; rewrite Z, Z0; reflexivity).
  assert (L0 : L 0 = lower6 k p) by (unfold L, lower6, at_time; rewrite Z, Z0; reflexivity).
  assert (EL : k 4%nat * (r2 * r2) + k 5%nat * r2 * (r2 * r2) + k 3%nat * r2 + 1 = lower6 k p) by (unfold lower6; fold x y r2; ring).
  assert (EN : k 1%nat * (r2 * r2) + k 2%nat * r2 * (r2 * r2) + k 0%nat * r2 + 1 = upper6 k p) by (unfold upper6; fold x y r2; ring).
  assert (ED : forall h r, distort6_value k t (at_time g h) r = vlist [g 0%nat h * (N h / L h) + t 0%nat * (g 0%nat h * g 1%nat h * 2) + t 1%nat * (g 0%nat h * g 0%nat h + g 1%nat h * g 1%nat h + g 0%nat h * g 0%nat h * 2);
    g 1%nat h * (N h / L h) + t 1%nat * (g 0%nat h * g 1%nat h * 2) + t 0%nat * (g 0%nat h * g 0%nat h + g 1%nat h * g 1%nat h + g 1%nat h * g 1%nat h * 2)] r) by reflexivity.
  apply (is_derive_ext (fun h => vlist [g 0%nat h * (N h / L h) + t 0%nat * (g 0%nat h * g 1%nat h * 2) + t 1%nat * (g 0%nat h * g 0%nat h + g 1%nat h * g 1%nat h + g 0%nat h * g 0%nat h * 2);
    g 1%nat h * (N h / L h) + t 1%nat * (g 0%nat h * g 1%nat h * 2) + t 0%nat * (g 0%nat h * g 0%nat h + g 1%nat h * g 1%nat h + g 1%nat h * g 1%nat h * 2)] r)).
  { intros h. symmetry. apply ED. } clear ED.
  unfold distort6_jac. cbv zeta. fold x y r2. rewrite EL, EN. clear EL EN. clearbody N L.
  idx r Hr; unfold mvec, vlist, mlist; cbn [nth sum]; use_curve; auto_derive; ex_curve; unfold v in *; clear v; rewrite ?Z, ?Z0, ?L0, ?N0.
  all: first [exact HL | clearbody r2; field; exact HL].
Qed.
Print Assumptions distort6_derivative.

(** * C115: removing the distortion *)
(** LAPACK's solutions contain no NaN *)
Definition solver_ok (lin : solver -> option (mat * vect) -> lapack) : Prop := forall k s x, lin k s = Solution x -> x <> None.
Theorem undistort_terminates : forall eval lin p s, invert_distortion eval lin p <> Running s.
Proof.
  intros. unfold invert_distortion. change 6%nat with (5 + 1)%nat. apply lm_terminates_within_limit. lia.
Qed.
Print Assumptions undistort_terminates.

Lemma sos2 eval p v : sum_of_squares 2 eval None p v = option_map (fun ej => dist2 (fst ej) p) (eval v).
Proof.
  unfold sum_of_squares. destruct (eval v) as [[e J]|]; [|reflexivity]. cbn [option_map fst]. f_equal. unfold dist2. cbn [sum]. ring.
Qed.
(** the distorted result is at least as close to the given point as the distorted given point is, and
    the point is changed only if it is closer *)
Theorem undistort_improves : forall d lin p q e, solver_ok lin -> invert_distortion (eval4 d) lin p = Done q e ->
  exists v, q = Some v /\ e = Some (dist2 (distort v d) p) /\ (v = p \/ dist2 (distort v d) p < dist2 (distort p d) p).
Proof.
  intros d lin p q e HL H. unfold invert_distortion in H.
  apply lm_never_worse in H; [|exact I|intros v; discriminate|exact HL].
  destruct H as (v & r & r0 & -> & -> & S1 & S0 & C). rewrite sos2 in S1, S0. cbn in S1, S0. injection S1 as S1. injection S0 as S0.
  exists v. split; [reflexivity|]. split; [congruence|]. destruct C as [[-> _]|C]; [left; reflexivity|right; lra].
Qed.
Print Assumptions undistort_improves.
(** the same for six coefficients if the divisor has no zero *)
Theorem undistort6_improves : forall k t lin p q e, solver_ok lin -> (forall v, lower6 k v <> 0) ->
  invert_distortion (eval6 k t) lin p = Done q e ->
  exists v, q = Some v /\ e = Some (dist2 (distort6_value k t v) p) /\
    (v = p \/ dist2 (distort6_value k t v) p < dist2 (distort6_value k t p) p).
Proof.
  intros k t lin p q e HL HN H.
  assert (E : forall v, eval6 k t v = Some (distort6_value k t v, distort6_jac k t v)).
  { intros v. unfold eval6, distort6. destruct (Req_EM_T (lower6 k v) 0) as [F|_]; [destruct (HN v F)|reflexivity]. }
  unfold invert_distortion in H.
  apply lm_never_worse in H; [|exact I|intros v; rewrite E; discriminate|exact HL].
  destruct H as (v & r & r0 & -> & -> & S1 & S0 & C). rewrite sos2, E in S1, S0. cbn in S1, S0. injection S1 as S1. injection S0 as S0.
  exists v. split; [reflexivity|]. split; [congruence|]. destruct C as [[-> _]|C]; [left; reflexivity|right; lra].
Qed.
Print Assumptions undistort6_improves.

(** a point that the distortion does not move (the principal point, for example) stays *)
Theorem undistort_fixed : forall d lin p q e, solver_ok lin -> veq 2 (distort p d) p ->
  invert_distortion (eval4 d) lin p = Done q e -> q = Some p.
Proof.
  intros d lin p q e HL F H. destruct (undistort_improves d lin p q e HL H) as (v & -> & _ & [-> |C]); [reflexivity|].
  assert (A := F 0%nat ltac:(lia)). assert (B := F 1%nat ltac:(lia)).
  assert (S1 := sq_sum_nonneg (distort v d 0%nat - p 0%nat) (distort v d 1%nat - p 1%nat)).
  unfold dist2 in C. rewrite A, B in C. lra.
Qed.
Print Assumptions undistort_fixed.
Theorem image_undistort_fixed : forall K d lin p q e, solver_ok lin -> K 0%nat 0%nat <> 0 -> K 1%nat 1%nat <> 0 ->
  veq 2 (lens_distort p d K) p -> lens_undistort lin p d K = Done q e -> exists v, q = Some v /\ veq 2 v p.
Proof.
  intros K d lin p q e HL H0 H1 F H. unfold lens_undistort in H.
  destruct (invert_distortion (eval4 d) lin (unproject K p)) as [r e'| |s] eqn:E; cbn [image_result] in H; try discriminate.
  injection H as <- <-.
  assert (G : veq 2 (distort (unproject K p) d) (unproject K p)).
  { assert (U := unproject_project K (distort (unproject K p) d) H0 H1).
    intros i Hi. rewrite <- (U i Hi). assert (A := F 0%nat ltac:(lia)). assert (B := F 1%nat ltac:(lia)). unfold lens_distort in A, B.
    unfold unproject at 1 3. rewrite A, B. reflexivity. }
  rewrite (undistort_fixed d lin _ _ _ HL G E). cbn [option_map]. eexists. split; [reflexivity|]. exact (project_unproject K p H0 H1).
Qed.
Print Assumptions image_undistort_fixed.

(** undistorting an image point of a camera with six coefficients: the result is no worse an answer than the given point *)
Theorem camera_undistort_improves : forall K k t lin p q e, solver_ok lin -> (forall v, lower6 k v <> 0) ->
  K 0%nat 0%nat <> 0 -> K 1%nat 1%nat <> 0 -> camera_undistort lin K k t p = Done q e ->
  exists v, q = Some (project K v) /\ e = Some (dist2 (distort6_value k t v) (unproject K p)) /\
    (veq 2 (project K v) p \/ dist2 (distort6_value k t v) (unproject K p) < dist2 (distort6_value k t (unproject K p)) (unproject K p)).
Proof.
  intros K k t lin p q e HL HN H0 H1 H. unfold camera_undistort in H.
  destruct (invert_distortion (eval6 k t) lin (unproject K p)) as [r e'| |s] eqn:E; cbn [image_result] in H; try discriminate. injection H as <- <-.
  destruct (undistort6_improves k t lin _ _ _ HL HN E) as (v & -> & -> & C). exists v. split; [reflexivity|]. split; [reflexivity|].
  destruct C as [-> |C]; [left; exact (project_unproject K p H0 H1)|right; exact C].
Qed.
Print Assumptions camera_undistort_improves.

(** for a purely radial distortion with nonnegative coefficients the undistorted point is unique, and
    the error of the result is at most the residual it reports, which is at most the distance by
    which the given point would be moved *)
Lemma distort_expands d a b : 0 <= d 0%nat -> 0 <= d 1%nat -> d 2%nat = 0 -> d 3%nat = 0 -> dist2 a b <= dist2 (distort a d) (distort b d).
Proof.
  intros H0 H1 H2 H3.
  assert (NA := sq_sum_nonneg (a 0%nat) (a 1%nat)). assert (NB := sq_sum_nonneg (b 0%nat) (b 1%nat)).
  assert (E := radial_expands (fun A => d 0%nat * A + d 1%nat * (A * A) + 0 * (A * A * A)) (a 0%nat) (a 1%nat) (b 0%nat) (b 1%nat)).
  cbv zeta beta in E. specialize (E (cubic_nonneg _ _ 0 _ H0 H1 (Rle_refl 0) NA) (cubic_nonneg _ _ 0 _ H0 H1 (Rle_refl 0) NB)
    (cubic_monotone _ _ 0 _ _ H0 H1 (Rle_refl 0) NA NB)).
  unfold dist2. eapply Rle_trans; [exact E|]. apply Req_le. unfold distort, vlist. cbn [nth]. rewrite H2, H3. ring.
Qed.
Theorem undistort_error : forall d lin u p q e, 0 <= d 0%nat -> 0 <= d 1%nat -> d 2%nat = 0 -> d 3%nat = 0 -> solver_ok lin ->
  veq 2 (distort u d) p -> invert_distortion (eval4 d) lin p = Done q e ->
  exists v r, q = Some v /\ e = Some r /\ dist2 v u <= r /\ r <= dist2 (distort p d) p /\ (r <= 0 -> veq 2 v u).
Proof.
  intros d lin u p q e H0 H1 H2 H3 HL HU H. destruct (undistort_improves d lin p q e HL H) as (v & -> & -> & C).
  assert (X := distort_expands d v u H0 H1 H2 H3).
  assert (Y : dist2 (distort v d) (distort u d) = dist2 (distort v d) p) by (unfold dist2; rewrite (HU 0%nat), (HU 1%nat) by lia; reflexivity).
  exists v, (dist2 (distort v d) p). rewrite Y in X.
  split; [reflexivity|]. split; [reflexivity|]. split; [exact X|]. split; [destruct C as [-> |C]; lra|].
  intros N. apply dist2_zero. lra.
Qed.
Print Assumptions undistort_error.
Theorem undistort_unique : forall d a b, 0 <= d 0%nat -> 0 <= d 1%nat -> d 2%nat = 0 -> d 3%nat = 0 ->
  veq 2 (distort a d) (distort b d) -> veq 2 a b.
Proof.
  intros d a b H0 H1 H2 H3 E. apply dist2_zero. eapply Rle_trans; [apply (distort_expands d a b H0 H1 H2 H3)|].
  unfold dist2. rewrite (E 0%nat), (E 1%nat) by lia. lra.
Qed.
Print Assumptions undistort_unique.

(** undistorting does not invert distorting: in exact arithmetic the result of finitely many steps is a
    point with rational coordinates, the undistorted point need not be *)
Lemma cubic_root : exists u, u + u * (u * u) = 1.
Proof.
  destruct (IVT (fun x => x + x * (x * x) - 1) 0 1) as (u & _ & E).
  - intros x. reg.
  - lra.
  - lra.
  - lra.
  - exists u. lra.
Qed.
(** an exact solver: Cramer's rule *)
Definition cramer_solver : solver -> option (mat * vect) -> lapack := fun _ s =>
  match s with
  | None => Solution None
  | Some (A, b) =>
    let D := A 0%nat 0%nat * A 1%nat 1%nat - A 0%nat 1%nat * A 1%nat 0%nat in
    if Req_EM_T D 0 then Failure
    else Solution (Some (vlist [(b 0%nat * A 1%nat 1%nat - A 0%nat 1%nat * b 1%nat) / D; (A 0%nat 0%nat * b 1%nat - b 0%nat * A 1%nat 0%nat) / D]))
  end.
Lemma cramer_exact : exact_solver cramer_solver.
Proof.
  intros k A b r H. unfold cramer_solver in H. destruct (Req_EM_T _ 0) as [|N]; [discriminate|]. injection H as <-.
  eexists. split; [reflexivity|]. intros i Hi. unfold mvec, vlist. idx i Hi; cbn [sum nth]; field; exact N.
Qed.
Lemma cramer_never_throws d p fuel : rat2 d -> rational (d 2%nat) -> rational (d 3%nat) -> rat2 p -> forall s, rat_state s ->
  loop 2 (eval4 d) None (fun x => x) cramer_solver (opt_terminate 5 (1 / 100000)) p 10 fuel s <> Throw.
Proof.
  intros [D0 D1] D2 D3 RP. induction fuel as [|fuel IH]; intros s Hs; [discriminate|]. cbn [loop].
  destruct (round 2 (eval4 d) None (fun x => x) cramer_solver (opt_terminate 5 (1 / 100000)) p 10 s) as [[s' b]|] eqn:E.
  - destruct b; [discriminate|]. apply IH. eapply (rat_round (eval4 d) cramer_solver (opt_terminate 5 (1 / 100000)) p 10 ltac:(lra) (rational_int 10) cramer_exact); [|exact RP|exact Hs|exact E].
    intros v [V0 V1]. eexists _, _. split; [reflexivity|].
    split; [|split]; split; unfold distort, distort_jac_p, vlist, mlist; cbn [nth]; rat.
  - destruct Hs as (_ & (dd & J & El & _) & Hl & _). unfold round in E. rewrite El in E. cbn [normal_equations option_map fst snd cramer_solver] in E.
    destruct (Req_EM_T _ 0) as [Z|Z] in E.
    + exfalso. revert Z. unfold madd, mmul, mscale, eye, tr. cbn [sum Nat.eqb]. intros Z.
      apply (normal_det (J 0%nat 0%nat) (J 0%nat 1%nat) (J 1%nat 0%nat) (J 1%nat 1%nat) (lambda s) Hl). rewrite <- Z. ring.
    + destruct (ge _ _) in E; discriminate.
Qed.
Theorem undistort_inverts_refuted : exists d u p, veq 2 (distort u d) p /\
  (exists lin q e, exact_solver lin /\ invert_distortion (eval4 d) lin p = Done q e) /\
  forall lin q e, exact_solver lin -> invert_distortion (eval4 d) lin p = Done q e ->
  exists v, q = Some v /\ ~ veq 2 v u /\ ~ veq 2 (distort v d) p.
Proof.
  destruct cubic_root as [u Hu].
  set (d := vlist [1; 0; 0; 0]). set (p := vlist [1; 0]).
  exists d, (vlist [u; 0]), p.
  assert (Hp : veq 2 (distort (vlist [u; 0]) d) p).
  { intros i Hi. unfold distort, d, p, vlist. idx i Hi; cbn [nth]; [transitivity (u + u * (u * u)); [ring|exact Hu]|ring]. }
  assert (RP : rat2 p) by (split; unfold p, vlist; cbn [nth]; apply rational_int).
  split; [exact Hp|]. split.
  { destruct (invert_distortion (eval4 d) cramer_solver p) as [q e| |s] eqn:E.
    - exists cramer_solver, q, e. split; [exact cramer_exact|exact E].
    - exfalso. revert E. unfold invert_distortion, levenberg_marquardt. apply cramer_never_throws; try (unfold d, vlist; cbn [nth]; apply rational_int); [split; unfold d, vlist; cbn [nth]; apply rational_int|exact RP|].
      split; [exists p; split; [reflexivity|exact RP]|]. split; [|split; [cbn; lra|apply rational_int]].
      destruct RP. eexists _, _. split; [reflexivity|].
      split; [|split]; split; unfold vsub, distort, distort_jac_p, d, vlist, mlist; cbn [nth]; rat.
    - destruct (undistort_terminates _ _ _ _ E). }
  intros lin q e HL H.
  destruct (rat_result (eval4 d) lin (opt_terminate 5 (1 / 100000)) p 10 ltac:(lra) (rational_int 10) HL) with (fuel := 6%nat) (p0 := p) (ss := 1) (k := Cholesky) (p := q) (e := e)
    as (v & -> & [V0 V1]).
  - intros v [V0 V1]. eexists _, _. split; [reflexivity|].
    split; [|split]; split; unfold distort, distort_jac_p, d, vlist, mlist; cbn [nth]; rat.
  - exact RP.
  - exact RP.
  - lra.
  - apply rational_int.
  - exact H.
  - exists v. split; [reflexivity|].
    assert (G : ~ veq 2 (distort v d) p).
    { intros G. assert (G0 := G 0%nat ltac:(lia)). assert (G1 := G 1%nat ltac:(lia)).
      unfold distort, d, p, vlist in G0, G1. cbn [nth] in G0, G1.
      assert (Y : v 1%nat * (1 + (v 0%nat * v 0%nat + v 1%nat * v 1%nat)) = 0) by lra.
      apply Rmult_integral in Y. assert (N := sq_sum_nonneg (v 0%nat) (v 1%nat)). destruct Y as [Y|Y]; [|lra].
      rewrite Y in G0. apply (cubic_irrational (v 0%nat) V0). lra. }
    split; [|exact G]. intros E. apply G. intros i Hi. rewrite <- (Hp i Hi).
    rewrite (distort_ext v (vlist [u; 0]) d); [reflexivity|exact (E 0%nat ltac:(lia))|exact (E 1%nat ltac:(lia))].
Qed.
Print Assumptions undistort_inverts_refuted.

(** * C116: Geometry::undistort_point applies the distortion *)
Theorem undistort_point_distorts : forall K k t p, K 0%nat 1%nat = 0 -> K 2%nat 2%nat = -1 ->
  match undistort_point K k t p, camera_distort K k t p with
  | Some q, Some q' => veq 2 q q'
  | None, None => True
  | _, _ => False
  end.
Proof.
  intros K k t p E1 E2. unfold undistort_point, camera_distort, distort6.
  set (x := (p 0%nat + K 0%nat 2%nat) / K 0%nat 0%nat). set (y := (p 1%nat + K 1%nat 2%nat) / K 1%nat 1%nat).
  assert (UY : unproject K p 1%nat = y) by (unfold unproject, vlist, y; cbn [nth]; rewrite E2; unfold Rdiv; ring).
  assert (UX : unproject K p 0%nat = x) by (unfold unproject, vlist, x; cbn [nth]; rewrite E1, E2; unfold Rdiv; ring).
  unfold lower6, upper6, distort6_value. rewrite UX, UY.
  destruct (Req_EM_T _ 0) as [Z|Z]; [exact I|]. cbn [option_map].
  intros i Hi. unfold upper6, lower6, project, vlist. rewrite UX, UY, E1, E2. idx i Hi; cbn [nth]; field; exact Z.
Qed.
Print Assumptions undistort_point_distorts.
Theorem undistort_point_refuted : exists K k t p q r, camera_matrix K /\
  camera_distort K k t p = Some q /\ undistort_point K k t q = Some r /\ ~ veq 2 r p.
Proof.
  set (K := mlist [[1; 0; 0]; [0; 1; 0]; [0; 0; -1]]). set (k := vlist [1; 0; 0; 0; 0; 0]).
  set (t := vlist [0; 0]). set (p := vlist [1; 0]).
  assert (U0 : unproject K p 0%nat = 1) by (unfold unproject, K, p, mlist, vlist; cbn [nth]; field).
  assert (U1 : unproject K p 1%nat = 0) by (unfold unproject, K, p, mlist, vlist; cbn [nth]; field).
  assert (L : lower6 k (unproject K p) = 1) by (unfold lower6; rewrite U0, U1; unfold k, vlist; cbn [nth]; ring).
  assert (P : upper6 k (unproject K p) = 2) by (unfold upper6; rewrite U0, U1; unfold k, vlist; cbn [nth]; ring).
  set (q := project K (distort6_value k t (unproject K p))).
  assert (D0 : distort6_value k t (unproject K p) 0%nat = 2).
  { unfold distort6_value. rewrite L, P, U0, U1. unfold t, vlist; cbn [nth]. field. }
  assert (D1 : distort6_value k t (unproject K p) 1%nat = 0).
  { unfold distort6_value. rewrite L, P, U0, U1. unfold t, vlist; cbn [nth]. field. }
  assert (Q0 : q 0%nat = 2).
  { unfold q, project. rewrite D0, D1. unfold K, mlist, vlist; cbn [nth]. ring. }
  assert (Q1 : q 1%nat = 0).
  { unfold q, project. rewrite D0, D1. unfold K, mlist, vlist; cbn [nth]. ring. }
  assert (Q : camera_distort K k t p = Some q).
  { unfold camera_distort, distort6. rewrite L. destruct (Req_EM_T 1 0) as [Z|_]; [lra|reflexivity]. }
  clearbody q. exists K, k, t, p, q.
  assert (R : exists r, undistort_point K k t q = Some r /\ r 0%nat = 10).
  { unfold undistort_point. cbv zeta. rewrite Q0, Q1. unfold K, k, t, mlist, vlist. cbn [nth].
    destruct (Req_EM_T _ 0) as [Z|_]; [exfalso; lra|]. eexists. split; [reflexivity|]. cbn [nth]. field. }
  destruct R as (r & R & R0). exists r.
  split; [unfold camera_matrix, K, mlist; cbn [nth]; repeat split; auto; lra|].
  split; [exact Q|]. split; [exact R|]. intros E. assert (A := E 0%nat ltac:(lia)). rewrite R0 in A.
  unfold p, vlist in A. cbn [nth] in A. lra.
Qed.
Print Assumptions undistort_point_refuted.

(** * Examples *)
(** a camera with K(2,2) = -1 and a skewed sensor *)
Definition example_K : mat := mlist [[800; 2; -320]; [0; 790; -240]; [0; 0; -1]].
Example camera_case : camera_matrix example_K /\ pinhole example_K (vlist [1; 2; -4]) 0%nat = 521.
Proof.
  split; [unfold camera_matrix, example_K, mlist; cbn [nth]; repeat split; auto; lra|].
  unfold pinhole, mvec, example_K, mlist, vlist. cbn [sum nth]. field.
Qed.
Example jacobian_case : lower6 (vlist [1; 0; 0; 1; 0; 0]) (vlist [1; 1]) <> 0 /\ distort6_jac (vlist [1; 0; 0; 1; 0; 0]) (vlist [0; 1]) (vlist [1; 1]) 0%nat 0%nat = 7.
Proof. split; [unfold lower6, vlist; cbn [nth]; lra|]. unfold distort6_jac, mlist, vlist. cbn [nth]. field. Qed.

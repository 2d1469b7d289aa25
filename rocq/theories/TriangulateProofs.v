(** Lemmas about Triangulate.v: viewing rays, epipolar planes, the linear systems. *)
From Coq Require Import Reals Lra Lia List Arith Bool.
Import ListNotations.
From Verif Require Import Mat Quat QuatProofs QuatTrigProofs QuatProps LinAlg LinAlgProps Dlt DltProofs AbsOrient AbsOrientProofs HomographyProps ProjectionDltProps FundamentalProps Triangulate.
Open Scope R_scope.

(** ** cameras *)
Definition vl (a : vec3) : vect := vlist [vx a; vy a; vz a].
(** the 3 x 4 matrix K [R t] *)
Definition cam_matrix (K : mat) (cam : pose) : mat := mmul 3 K (pose_mat cam).
Lemma centre_front cam : rigid cam -> tra cam = v3opp (qrot (rot cam) (centre cam)).
Proof.
  intros R1. assert (E := proj2 (proj2 (proj2 (proj2 (pose_inverse cam R1)))) v3zero). fold (centre cam) in E. unfold papp in E.
  set (a := qrot (rot cam) (centre cam)) in *. destruct a as [x y z], (tra cam) as [u v w]. unfold v3add, v3zero, v3opp in *. cbn [vx vy vz] in *.
  assert (A := f_equal vx E). assert (B := f_equal vy E). assert (C := f_equal vz E). cbn [vx vy vz] in *. f_equal; lra.
Qed.
(** a homogeneous vector (a, s) is seen along a - s C *)
Lemma camera_factor K cam v i : rigid cam ->
  mvec 4 (cam_matrix K cam) v i = mvec 3 K (vl (qrot (rot cam) (V3 (v 0%nat - v 3%nat * vx (centre cam)) (v 1%nat - v 3%nat * vy (centre cam)) (v 2%nat - v 3%nat * vz (centre cam))))) i.
Proof.
  intros R1. unfold cam_matrix. rewrite mvec_mmul. apply mvec_arg. intros j Hj.
  assert (T := centre_front cam R1). set (C := centre cam) in *. clearbody C. destruct cam as [q t]. cbn [rot tra] in *. subst t. unfold rigid in R1. cbn [rot] in R1.
  rewrite (qrot_mat q C R1), (qrot_mat q (V3 _ _ _) R1). destruct C as [cx cy cz]. unfold mvec, pose_mat, vl, vlist, mv3, v3opp. cbn [sum vx vy vz rot tra].
  destruct j as [|[|[|]]]; [| | |lia]; cbn [nth]; ring.
Qed.
Lemma seen_matrix K cam X i : rigid cam -> seen K cam X i = mvec 4 (cam_matrix K cam) (hom X) i.
Proof.
  intros R1. unfold cam_matrix, seen. rewrite mvec_mmul. apply mvec_arg. intros l Hl. rewrite (pose_mat_app cam X R1 l ltac:(lia)). unfold vlist, hom. destruct l as [|[|[|]]]; [| | |lia]; reflexivity.
Qed.
Lemma seen_ray K cam X i : rigid cam -> seen K cam X i = mvec 3 K (vl (qrot (rot cam) (v3sub X (centre cam)))) i.
Proof.
  intros R1. rewrite (seen_matrix K cam X i R1), (camera_factor K cam _ i R1). unfold hom, v3sub. apply mvec_arg. intros j _.
  replace (V3 (vx X - 1 * vx (centre cam)) (vy X - 1 * vy (centre cam)) (vz X - 1 * vz (centre cam))) with (V3 (vx X - vx (centre cam)) (vy X - vy (centre cam)) (vz X - vz (centre cam))) by (f_equal; ring).
  reflexivity.
Qed.
Lemma vl_ext a b : (forall i, (i < 3)%nat -> vl a i = vl b i) -> a = b.
Proof. intros H. apply v3_ext; [exact (H 0%nat ltac:(lia))|exact (H 1%nat ltac:(lia))|exact (H 2%nat ltac:(lia))]. Qed.
(** parallel images come from parallel rays *)
Lemma images_parallel K q a b : det3 K <> 0 -> unit q -> (forall i, (i < 3)%nat -> cross_v (mvec 3 K (vl (qrot q a))) (mvec 3 K (vl (qrot q b))) i = 0) -> cross3 a b = v3zero.
Proof.
  intros DK U Z. set (a' := qrot q a) in *. set (b' := qrot q b) in *.
  assert (DD : forall i, (i < 3)%nat -> mvec 3 (tr K) (cross_v (mvec 3 K (vl a')) (mvec 3 K (vl b'))) i = det3 K * vl (cross3 a' b') i).
  { clearbody a' b'. intros i Hi. destruct a' as [ax ay az], b' as [bx by_ bz]. unfold mvec, cross_v, tr, det3, cross3, vl, vlist. cbn [vx vy vz]. destruct i as [|[|[|]]]; [| | |lia]; cbn [sum nth]; ring. }
  assert (C0 : cross3 a' b' = v3zero).
  { apply vl_ext. intros i Hi. apply (Rmult_eq_reg_l (det3 K)); [|exact DK]. rewrite <- (DD i Hi). unfold mvec at 1. rewrite (sum_zero 3); [|intros j Hj; rewrite (Z j Hj); ring].
    destruct i as [|[|[|]]]; [| | |lia]; unfold vl, vlist, v3zero; cbn; ring. }
  unfold a', b' in C0. rewrite <- (qrot_cross q a b U) in C0. rewrite <- (qrot_conj_l q (cross3 a b) U), C0. destruct q; unfold v3zero, qconj. un. f_equal; ring.
Qed.
(** the images of three rays are linearly dependent iff the rays are *)
Definition triple (a b c : vec3) : R := dot3 (cross3 a b) c.
Lemma images_triple K q a b c : unit q -> vdot 3 (cross_v (mvec 3 K (vl (qrot q a))) (mvec 3 K (vl (qrot q b)))) (mvec 3 K (vl (qrot q c))) = det3 K * triple a b c.
Proof.
  intros U. unfold triple. rewrite <- (qrot_dot q (cross3 a b) c U), (qrot_cross q a b U). set (a' := qrot q a). set (b' := qrot q b). set (c' := qrot q c). clearbody a' b' c'. destruct a' as [a1 a2 a3], b' as [b1 b2 b3], c' as [c1 c2 c3].
  unfold vdot, mvec, cross_v, det3, cross3, dot3, vl, vlist. cbn [vx vy vz sum nth]. ring.
Qed.

(** ** the linear systems *)
(** the image equations of one view, with the denominators cleared *)
Definition agrees (P : mat) (x v : vect) : Prop :=
  mvec 4 P v 0%nat = x 0%nat * mvec 4 P v 2%nat /\ mvec 4 P v 1%nat = x 1%nat * mvec 4 P v 2%nat.
Lemma view_row_dot P x c v : vdot 4 (view_row P x c) v = x c * mvec 4 P v 2%nat - mvec 4 P v c.
Proof. unfold vdot, view_row, mvec. rewrite <- sum_scal_l, <- sum_minus. apply sum_ext. intros; ring. Qed.
Lemma two_view_solves P1 P2 x x' v : solves 4 (two_view_system P1 P2 x x') v <-> agrees P1 x v /\ agrees P2 x' v.
Proof.
  unfold two_view_system, agrees. change [view_row P1 x 0; view_row P1 x 1; view_row P2 x' 0; view_row P2 x' 1]%nat with ([view_row P1 x 0; view_row P1 x 1] ++ [view_row P2 x' 0; view_row P2 x' 1])%nat.
  rewrite solves_app, !solves_two, !view_row_dot. lra.
Qed.
Lemma block_row_dot P x v i : vdot 4 (mmul 3 (skew_point x) P i) v = mvec 3 (skew_point x) (mvec 4 P v) i.
Proof. rewrite <- mvec_mmul. reflexivity. Qed.
Lemma view_block_solves P x v : solves 4 (view_block P x) v <-> agrees P x v.
Proof.
  unfold view_block, agrees. set (b := mmul 3 (skew_point x) P).
  assert (E : solves 4 [b 0%nat; b 1%nat; b 2%nat] v <-> vdot 4 (b 0%nat) v = 0 /\ vdot 4 (b 1%nat) v = 0 /\ vdot 4 (b 2%nat) v = 0).
  { unfold solves. split; [intros H; repeat split; apply H; cbn; auto|]. intros (A & B & C) r Hr. cbn [In] in Hr. destruct Hr as [<-|[<-|[<-|Hr]]]; try assumption. destruct Hr. }
  unfold b in *. cbv zeta. rewrite E, !block_row_dot. clear E b. set (e := mvec 4 P v).
  assert (E0 : mvec 3 (skew_point x) e 0%nat = e 1%nat - x 1%nat * e 2%nat) by (unfold mvec, skew_point, mlist; cbn [sum nth]; ring).
  assert (E1 : mvec 3 (skew_point x) e 1%nat = - e 0%nat + x 0%nat * e 2%nat) by (unfold mvec, skew_point, mlist; cbn [sum nth]; ring).
  assert (E2 : mvec 3 (skew_point x) e 2%nat = x 1%nat * e 0%nat - x 0%nat * e 1%nat) by (unfold mvec, skew_point, mlist; cbn [sum nth]; ring).
  rewrite E0, E1, E2. split; [intros (A & B & _); split; lra|]. intros [A B]. rewrite A, B. repeat split; ring.
Qed.
Lemma multi_view_solves Ps xs v : solves 4 (multi_view_system Ps xs) v <-> forall P x, In (P, x) (combine Ps xs) -> agrees P x v.
Proof.
  unfold multi_view_system. rewrite solves_flat_map. split.
  - intros H P x Hi. apply view_block_solves, (H (P, x) Hi).
  - intros H [P x] Hi. apply view_block_solves, H, Hi.
Qed.
Lemma agrees_parallel P x v w i : agrees P x v -> agrees P x w -> cross_v (mvec 4 P v) (mvec 4 P w) i = 0.
Proof.
  unfold agrees, cross_v. set (a := mvec 4 P v). set (b := mvec 4 P w). intros [A0 A1] [B0 B1]. rewrite A0, A1, B0, B1.
  destruct i as [|[|[|[|]]]]; unfold vlist; cbn; ring.
Qed.
Lemma projected_agrees K cam X x : rigid cam -> projected (seen K cam X) x -> agrees (cam_matrix K cam) x (hom X).
Proof. intros R1 (N & A & B). unfold agrees. rewrite <- !(seen_matrix K cam X) by exact R1. rewrite A, B. lra. Qed.

(** two rays that do not coincide determine the point *)
Lemma rays_meet K1 cam1 K2 cam2 X x1 x2 v : rigid cam1 -> rigid cam2 -> det3 K1 <> 0 -> det3 K2 <> 0 ->
  cross3 (v3sub X (centre cam1)) (v3sub X (centre cam2)) <> v3zero ->
  projected (seen K1 cam1 X) x1 -> projected (seen K2 cam2 X) x2 ->
  agrees (cam_matrix K1 cam1) x1 v -> agrees (cam_matrix K2 cam2) x2 v ->
  forall i, (i < 4)%nat -> v i = v 3%nat * hom X i.
Proof.
  intros R1 R2 D1 D2 NC J1 J2 A1 A2.
  set (b := V3 (v 0%nat - v 3%nat * vx X) (v 1%nat - v 3%nat * vy X) (v 2%nat - v 3%nat * vz X)).
  assert (PB : forall K cam x, rigid cam -> det3 K <> 0 -> projected (seen K cam X) x -> agrees (cam_matrix K cam) x v -> cross3 b (v3sub X (centre cam)) = v3zero).
  { intros K cam x Rr D J A. assert (AX := projected_agrees K cam X x Rr J).
    set (a := V3 (v 0%nat - v 3%nat * vx (centre cam)) (v 1%nat - v 3%nat * vy (centre cam)) (v 2%nat - v 3%nat * vz (centre cam))).
    assert (P0 : cross3 a (v3sub X (centre cam)) = v3zero).
    { apply (images_parallel K (rot cam)); [exact D|exact Rr|]. intros i Hi. rewrite <- (agrees_parallel _ x v (hom X) i A AX). unfold cross_v. unfold a. rewrite <- !(camera_factor K cam v) by exact Rr. rewrite <- !(seen_ray K cam X), !(seen_matrix K cam X) by exact Rr. reflexivity. }
    rewrite <- P0. unfold a, b. set (C := centre cam). clearbody C. destruct X as [x' y' z'], C as [cx cy cz]. unfold cross3, v3sub. cbn [vx vy vz]. f_equal; ring. }
  assert (B1 := PB K1 cam1 x1 R1 D1 J1 A1). assert (B2 := PB K2 cam2 x2 R2 D2 J2 A2). clear PB.
  assert (B0 : b = v3zero).
  { set (u := v3sub X (centre cam1)) in *. set (w := v3sub X (centre cam2)) in *. clearbody b u w. destruct b as [p q r], u as [u1 u2 u3], w as [w1 w2 w3]. unfold cross3, v3zero in *. cbn [vx vy vz] in *.
    assert (X1 := f_equal vx B1). assert (X2 := f_equal vy B1). assert (X3 := f_equal vz B1). assert (Y1 := f_equal vx B2). assert (Y2 := f_equal vy B2). assert (Y3 := f_equal vz B2). cbn [vx vy vz] in *.
    assert (K : forall k, k = p \/ k = q \/ k = r -> k <> 0 -> V3 (u2 * w3 - u3 * w2) (u3 * w1 - u1 * w3) (u1 * w2 - u2 * w1) = V3 0 0 0).
    { intros k Ek Nk. set (E1 := q * u3 - r * u2) in *. set (E2 := r * u1 - p * u3) in *. set (E3 := p * u2 - q * u1) in *. set (F1 := q * w3 - r * w2) in *. set (F2 := r * w1 - p * w3) in *. set (F3 := p * w2 - q * w1) in *.
      f_equal; apply (Rmult_eq_reg_l k); try exact Nk; destruct Ek as [-> | [-> | -> ] ].
      - transitivity (- u2 * F2 - u3 * F3 - w1 * E1); [unfold E1, F2, F3; ring|rewrite X1, Y2, Y3; ring].
      - transitivity (u2 * F1 - w2 * E1); [unfold E1, F1; ring|rewrite X1, Y1; ring].
      - transitivity (u3 * F1 - w3 * E1); [unfold E1, F1; ring|rewrite X1, Y1; ring].
      - transitivity (u1 * F2 - w1 * E2); [unfold E2, F2; ring|rewrite X2, Y2; ring].
      - transitivity (- u3 * F3 - u1 * F1 - w2 * E2); [unfold E2, F1, F3; ring|rewrite X2, Y1, Y3; ring].
      - transitivity (u3 * F2 - w3 * E2); [unfold E2, F2; ring|rewrite X2, Y2; ring].
      - transitivity (u1 * F3 - w1 * E3); [unfold E3, F3; ring|rewrite X3, Y3; ring].
      - transitivity (u2 * F3 - w2 * E3); [unfold E3, F3; ring|rewrite X3, Y3; ring].
      - transitivity (- u1 * F1 - u2 * F2 - w3 * E3); [unfold E3, F1, F2; ring|rewrite X3, Y1, Y2; ring]. }
    destruct (Req_dec p 0) as [Zp|Np]; [|exfalso; apply NC, (K p); auto]. destruct (Req_dec q 0) as [Zq|Nq]; [|exfalso; apply NC, (K q); auto].
    destruct (Req_dec r 0) as [Zr|Nr]; [|exfalso; apply NC, (K r); auto]. subst. reflexivity. }
  assert (X1 := f_equal vx B0). assert (X2 := f_equal vy B0). assert (X3 := f_equal vz B0). unfold b, v3zero in X1, X2, X3. cbn [vx vy vz] in X1, X2, X3.
  intros i Hi. unfold hom. destruct i as [|[|[|[|]]]]; [| | | |lia]; lra.
Qed.
Lemma dehom_multiple v X : vdot 4 v v = 1 -> (forall i, (i < 4)%nat -> v i = v 3%nat * hom X i) -> dehom v = Some X.
Proof.
  intros U H. unfold dehom. assert (N : v 3%nat <> 0).
  { intros Z. unfold vdot in U. rewrite (sum_zero 4) in U; [lra|]. intros i Hi. rewrite (H i Hi), Z. ring. }
  destruct (Req_EM_T (v 3%nat) 0) as [E|_]; [contradiction|]. f_equal.
  rewrite (H 0%nat), (H 1%nat), (H 2%nat) by lia. destruct X as [a b c]. cbn [hom vx vy vz]. f_equal; field; exact N.
Qed.
Lemma hom_nonzero X : exists i, (i < 4)%nat /\ hom X i <> 0.
Proof. exists 3%nat. split; [lia|]. cbn. lra. Qed.
Lemma dehom_opp v : dehom (fun j => - v j) = dehom v.
Proof.
  unfold dehom. destruct (Req_EM_T (v 3%nat) 0) as [E|N], (Req_EM_T (- v 3%nat) 0) as [E'|N']; try reflexivity; try (exfalso; lra).
  do 2 f_equal; field; exact N.
Qed.

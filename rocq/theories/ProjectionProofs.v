(** Lemmas about 3x3 rotations and the decomposition of projection matrices. *)
From Coq Require Import Reals Lra Lia Bool Arith List.
Import ListNotations.
From Verif Require Import Mat Quat QuatProofs LinAlg Projection.
Open Scope R_scope.

Definition orthogonal3 (r : mat) : Prop := meq 3 3 (mmul 3 r (tr r)) eye.
Definition rotation3 (r : mat) : Prop := orthogonal3 r /\ det3 r = 1.
Definition upper_triangular3 (k : mat) : Prop := k 1%nat 0%nat = 0 /\ k 2%nat 0%nat = 0 /\ k 2%nat 1%nat = 0.
(** inner product of rows *)
Definition rdot (a b : mat) (i j : nat) : R :=
  a i 0%nat * b j 0%nat + a i 1%nat * b j 1%nat + a i 2%nat * b j 2%nat.

Lemma rdot_mmul a b i j : mmul 3 a (tr b) i j = rdot a b i j.
Proof. unfold mmul, tr, rdot. cbn [sum]. ring. Qed.
Lemma orthogonal_rdot r : orthogonal3 r <-> (forall i j, (i < 3)%nat -> (j < 3)%nat -> rdot r r i j = eye i j).
Proof. split; intros H i j Hi Hj; [rewrite <- rdot_mmul|rewrite rdot_mmul]; apply H; assumption. Qed.

Lemma det3_mmul a b : det3 (mmul 3 a b) = det3 a * det3 b.
Proof. unfold det3, mmul. cbn [sum]. ring. Qed.
Lemma det3_tr a : det3 (tr a) = det3 a.
Proof. unfold det3, tr. ring. Qed.
Lemma det3_ext a b : meq 3 3 a b -> det3 a = det3 b.
Proof. intros E. unfold det3. rewrite !E by lia. reflexivity. Qed.
Lemma det3_scale c a : det3 (mscale c a) = c * c * c * det3 a.
Proof. unfold det3, mscale. ring. Qed.
Lemma det3_eye : det3 eye = 1.
Proof. unfold det3, eye. cbn. ring. Qed.
Lemma orthogonal_det r : orthogonal3 r -> det3 r = 1 \/ det3 r = -1.
Proof.
  intros O. assert (E : det3 r * det3 r = 1).
  { rewrite <- (det3_tr r) at 2. rewrite <- det3_mmul, (det3_ext _ _ O). apply det3_eye. }
  assert (F : (det3 r - 1) * (det3 r + 1) = 0) by lra.
  apply Rmult_integral in F. destruct F; [left|right]; lra.
Qed.

(** the middle row of a rotation is the cross product of the others *)
Lemma rotation_middle_row r : rotation3 r ->
  r 1%nat 0%nat = r 2%nat 1%nat * r 0%nat 2%nat - r 2%nat 2%nat * r 0%nat 1%nat /\
  r 1%nat 1%nat = r 2%nat 2%nat * r 0%nat 0%nat - r 2%nat 0%nat * r 0%nat 2%nat /\
  r 1%nat 2%nat = r 2%nat 0%nat * r 0%nat 1%nat - r 2%nat 1%nat * r 0%nat 0%nat.
Proof.
  intros [O D]. rewrite orthogonal_rdot in O.
  pose proof (O 1%nat 0%nat ltac:(lia) ltac:(lia)) as A. pose proof (O 1%nat 1%nat ltac:(lia) ltac:(lia)) as B.
  pose proof (O 1%nat 2%nat ltac:(lia) ltac:(lia)) as C.
  unfold rdot, eye in A, B, C. cbn in A, B, C. unfold det3 in D. cbv zeta in D.
  set (a := r 0%nat 0%nat) in *. set (b := r 0%nat 1%nat) in *. set (c := r 0%nat 2%nat) in *.
  set (d := r 1%nat 0%nat) in *. set (e := r 1%nat 1%nat) in *. set (f := r 1%nat 2%nat) in *.
  set (g := r 2%nat 0%nat) in *. set (h := r 2%nat 1%nat) in *. set (i := r 2%nat 2%nat) in *.
  clearbody a b c d e f g h i. clear O.
  (* cofactor times 1 = cofactor times (row1 . row1) etc. *)
  assert (X : forall p q s, (d*a+e*b+f*c) = 0 -> (d*d+e*e+f*f) = 1 -> (d*g+e*h+f*i) = 0 ->
     q = p * 0 + q * 1 + s * 0) by (intros; ring).
  split; [|split].
  - replace (h*c-i*b) with ((e*i-f*h)*(d*a+e*b+f*c) + (h*c-i*b)*(d*d+e*e+f*f) + (b*f-c*e)*(d*g+e*h+f*i))
      by (rewrite A, B, C; ring).
    transitivity (d * (a * e * i - a * f * h + b * f * g - b * d * i + c * d * h - c * e * g)); [rewrite D; ring|ring].
  - replace (i*a-g*c) with ((f*g-d*i)*(d*a+e*b+f*c) + (i*a-g*c)*(d*d+e*e+f*f) + (c*d-a*f)*(d*g+e*h+f*i))
      by (rewrite A, B, C; ring).
    transitivity (e * (a * e * i - a * f * h + b * f * g - b * d * i + c * d * h - c * e * g)); [rewrite D; ring|ring].
  - replace (g*b-h*a) with ((d*h-e*g)*(d*a+e*b+f*c) + (g*b-h*a)*(d*d+e*e+f*f) + (a*e-b*d)*(d*g+e*h+f*i))
      by (rewrite A, B, C; ring).
    transitivity (f * (a * e * i - a * f * h + b * f * g - b * d * i + c * d * h - c * e * g)); [rewrite D; ring|ring].
Qed.

Lemma sign_scale_spec k r : orthogonal3 r ->
  let s := sign_scale k r in
  s 0%nat * s 0%nat = 1 /\ s 1%nat * s 1%nat = 1 /\ s 2%nat * s 2%nat = 1 /\
  s 0%nat * s 1%nat * s 2%nat * det3 r = 1 /\ 0 <= k 0%nat 0%nat * s 0%nat /\ k 2%nat 2%nat * s 2%nat <= 0.
Proof.
  intros O. pose proof (orthogonal_det r O) as D. cbv zeta. unfold sign_scale, vlist.
  destruct (Rlt_dec (det3 r) 0); destruct D as [D|D]; try (exfalso; lra); rewrite D;
  repeat match goal with |- context [Rlt_dec ?a ?b] => destruct (Rlt_dec a b) end; cbn [List.nth]; repeat split; lra.
Qed.

Lemma scale_rows_rotation s r : orthogonal3 r ->
  s 0%nat * s 0%nat = 1 -> s 1%nat * s 1%nat = 1 -> s 2%nat * s 2%nat = 1 -> s 0%nat * s 1%nat * s 2%nat * det3 r = 1 ->
  rotation3 (scale_rows s r).
Proof.
  intros O S0 S1 S2 D. split.
  - rewrite orthogonal_rdot in *. intros i j Hi Hj.
    assert (E : rdot (scale_rows s r) (scale_rows s r) i j = s i * s j * rdot r r i j) by (unfold rdot, scale_rows; ring).
    rewrite E, (O i j Hi Hj). unfold eye. destruct (Nat.eqb_spec i j) as [<-|]; [|ring].
    rewrite Rmult_1_r. idx i Hi; assumption.
  - rewrite <- D. unfold det3, scale_rows. ring.
Qed.

Lemma scale_product s k r : s 0%nat * s 0%nat = 1 -> s 1%nat * s 1%nat = 1 -> s 2%nat * s 2%nat = 1 ->
  forall i j, mmul 3 (scale_cols s k) (scale_rows s r) i j = mmul 3 k r i j.
Proof.
  intros S0 S1 S2 i j. unfold mmul, scale_cols, scale_rows. cbn [sum].
  transitivity (0 + k i 0%nat * r 0%nat j * (s 0%nat * s 0%nat) + k i 1%nat * r 1%nat j * (s 1%nat * s 1%nat)
     + k i 2%nat * r 2%nat j * (s 2%nat * s 2%nat)); [ring|]. rewrite S0, S1, S2. ring.
Qed.

Lemma solve_upper_spec k p t : upper_triangular3 k -> solve_upper k p = Some t -> veq 3 (mvec 3 k t) p.
Proof.
  intros (A & B & C) E. unfold solve_upper in E.
  destruct (Req_EM_T (k 2%nat 2%nat) 0) as [|N2]; [discriminate|].
  destruct (Req_EM_T (k 1%nat 1%nat) 0) as [|N1]; [discriminate|].
  destruct (Req_EM_T (k 0%nat 0%nat) 0) as [|N0]; [discriminate|].
  assert (Et := f_equal (fun o => match o with Some v => v | None => t end) E). cbv beta iota zeta in Et.
  rewrite <- Et. clear E Et. intros i Hi. unfold mvec, vlist. idx i Hi; cbn [sum List.nth]; rewrite ?A, ?B, ?C; field; auto.
Qed.

(** ** uniqueness of the factors *)
Lemma rq_unique k l u v c : 0 < c -> upper_triangular3 k -> upper_triangular3 l ->
  k 2%nat 2%nat = -1 -> l 2%nat 2%nat = -1 -> 0 < k 0%nat 0%nat -> 0 < l 0%nat 0%nat -> k 1%nat 1%nat <> 0 ->
  rotation3 u -> rotation3 v -> meq 3 3 (mmul 3 k u) (mscale c (mmul 3 l v)) ->
  c = 1 /\ meq 3 3 k l /\ meq 3 3 u v.
Proof.
  intros Hc (Ka & Kb & Kc) (La & Lb & Lc) K2 L2 K0 L0 K1 Ru Rv E.
  pose proof (rotation_middle_row u Ru) as (Mu0 & Mu1 & Mu2). pose proof (rotation_middle_row v Rv) as (Mv0 & Mv1 & Mv2).
  destruct Ru as [Ou _]. destruct Rv as [Ov _]. rewrite orthogonal_rdot in Ou, Ov.
  assert (R2 : forall j, (j < 3)%nat -> u 2%nat j = c * v 2%nat j).
  { intros j Hj. pose proof (E 2%nat j ltac:(lia) Hj) as H. unfold mscale, mmul in H. cbn [sum] in H.
    rewrite Kb, Kc, K2, Lb, Lc, L2 in H. lra. }
  assert (C1 : c = 1).
  { assert (N : rdot u u 2 2 = c * c * rdot v v 2 2) by (unfold rdot; rewrite !R2 by lia; ring).
    rewrite Ou, Ov in N by lia. unfold eye in N. cbn in N. nra. }
  subst c. split; [reflexivity|].
  assert (U2 : forall j, (j < 3)%nat -> v 2%nat j = u 2%nat j) by (intros j Hj; rewrite (R2 j Hj); ring).
  assert (R1 : forall j, (j < 3)%nat -> k 1%nat 1%nat * u 1%nat j + k 1%nat 2%nat * u 2%nat j = l 1%nat 1%nat * v 1%nat j + l 1%nat 2%nat * u 2%nat j).
  { intros j Hj. pose proof (E 1%nat j ltac:(lia) Hj) as H. unfold mscale, mmul in H. cbn [sum] in H.
    rewrite Ka, La, (U2 j Hj) in H. lra. }
  assert (R0 : forall j, (j < 3)%nat -> k 0%nat 0%nat * u 0%nat j + k 0%nat 1%nat * u 1%nat j + k 0%nat 2%nat * u 2%nat j
     = l 0%nat 0%nat * v 0%nat j + l 0%nat 1%nat * v 1%nat j + l 0%nat 2%nat * u 2%nat j).
  { intros j Hj. pose proof (E 0%nat j ltac:(lia) Hj) as H. unfold mscale, mmul in H. cbn [sum] in H.
    rewrite (U2 j Hj) in H. lra. }
  assert (VU : forall i, (i < 3)%nat -> rdot v u i 2 = rdot v v i 2)
    by (intros i Hi; unfold rdot; rewrite !U2 by lia; reflexivity).
  (* projections on the common last row *)
  assert (P12 : k 1%nat 2%nat = l 1%nat 2%nat).
  { assert (H : k 1%nat 1%nat * rdot u u 1 2 + k 1%nat 2%nat * rdot u u 2 2 = l 1%nat 1%nat * rdot v u 1 2 + l 1%nat 2%nat * rdot u u 2 2).
    { unfold rdot. pose proof (R1 0%nat ltac:(lia)) as H0. pose proof (R1 1%nat ltac:(lia)) as H1. pose proof (R1 2%nat ltac:(lia)) as H2.
      transitivity ((k 1%nat 1%nat * u 1%nat 0%nat + k 1%nat 2%nat * u 2%nat 0%nat) * u 2%nat 0%nat
       + (k 1%nat 1%nat * u 1%nat 1%nat + k 1%nat 2%nat * u 2%nat 1%nat) * u 2%nat 1%nat
       + (k 1%nat 1%nat * u 1%nat 2%nat + k 1%nat 2%nat * u 2%nat 2%nat) * u 2%nat 2%nat); [ring|]. rewrite H0, H1, H2. ring. }
    rewrite VU, !Ou, !Ov in H by lia. unfold eye in H. cbn in H. lra. }
  assert (P02 : k 0%nat 2%nat = l 0%nat 2%nat).
  { assert (H : k 0%nat 0%nat * rdot u u 0 2 + k 0%nat 1%nat * rdot u u 1 2 + k 0%nat 2%nat * rdot u u 2 2
       = l 0%nat 0%nat * rdot v u 0 2 + l 0%nat 1%nat * rdot v u 1 2 + l 0%nat 2%nat * rdot u u 2 2).
    { unfold rdot. pose proof (R0 0%nat ltac:(lia)) as H0. pose proof (R0 1%nat ltac:(lia)) as H1. pose proof (R0 2%nat ltac:(lia)) as H2.
      transitivity ((k 0%nat 0%nat * u 0%nat 0%nat + k 0%nat 1%nat * u 1%nat 0%nat + k 0%nat 2%nat * u 2%nat 0%nat) * u 2%nat 0%nat
       + (k 0%nat 0%nat * u 0%nat 1%nat + k 0%nat 1%nat * u 1%nat 1%nat + k 0%nat 2%nat * u 2%nat 1%nat) * u 2%nat 1%nat
       + (k 0%nat 0%nat * u 0%nat 2%nat + k 0%nat 1%nat * u 1%nat 2%nat + k 0%nat 2%nat * u 2%nat 2%nat) * u 2%nat 2%nat); [ring|].
      rewrite H0, H1, H2. ring. }
    rewrite !VU, !Ou, !Ov in H by lia. unfold eye in H. cbn in H. lra. }
  assert (Q1 : forall j, (j < 3)%nat -> u 1%nat j = (l 1%nat 1%nat / k 1%nat 1%nat) * v 1%nat j).
  { intros j Hj. pose proof (R1 j Hj) as H. rewrite P12 in H. apply (Rmult_eq_reg_l (k 1%nat 1%nat)); [|exact K1].
    replace (k 1%nat 1%nat * (l 1%nat 1%nat / k 1%nat 1%nat * v 1%nat j)) with (l 1%nat 1%nat * v 1%nat j) by (field; exact K1). lra. }
  set (g := l 1%nat 1%nat / k 1%nat 1%nat) in *.
  assert (G2 : g * g = 1).
  { assert (N : rdot u u 1 1 = g * g * rdot v v 1 1) by (unfold rdot; rewrite !Q1 by lia; ring).
    rewrite Ou, Ov in N by lia. unfold eye in N. cbn in N. lra. }
  assert (Q0 : forall j, (j < 3)%nat -> k 0%nat 0%nat * u 0%nat j = l 0%nat 0%nat * v 0%nat j + (l 0%nat 1%nat - k 0%nat 1%nat * g) * v 1%nat j).
  { intros j Hj. pose proof (R0 j Hj) as H. rewrite P02, (Q1 j Hj) in H. lra. }
  assert (P01 : l 0%nat 1%nat - k 0%nat 1%nat * g = 0).
  { set (w := l 0%nat 1%nat - k 0%nat 1%nat * g) in *.
    assert (H : k 0%nat 0%nat * rdot u u 0 1 = g * (l 0%nat 0%nat * rdot v v 0 1 + w * rdot v v 1 1)).
    { unfold rdot. pose proof (Q0 0%nat ltac:(lia)) as H0. pose proof (Q0 1%nat ltac:(lia)) as H1. pose proof (Q0 2%nat ltac:(lia)) as H2.
      transitivity ((k 0%nat 0%nat * u 0%nat 0%nat) * u 1%nat 0%nat + (k 0%nat 0%nat * u 0%nat 1%nat) * u 1%nat 1%nat
        + (k 0%nat 0%nat * u 0%nat 2%nat) * u 1%nat 2%nat); [ring|]. rewrite H0, H1, H2, !Q1 by lia. ring. }
    rewrite Ou, !Ov in H by lia. unfold eye in H. cbn in H. nra. }
  rewrite P01 in Q0.
  assert (Q00 : k 0%nat 0%nat = l 0%nat 0%nat).
  { assert (H : k 0%nat 0%nat * k 0%nat 0%nat * rdot u u 0 0 = l 0%nat 0%nat * l 0%nat 0%nat * rdot v v 0 0).
    { unfold rdot. pose proof (Q0 0%nat ltac:(lia)) as H0. pose proof (Q0 1%nat ltac:(lia)) as H1. pose proof (Q0 2%nat ltac:(lia)) as H2.
      transitivity ((k 0%nat 0%nat * u 0%nat 0%nat) * (k 0%nat 0%nat * u 0%nat 0%nat) + (k 0%nat 0%nat * u 0%nat 1%nat) * (k 0%nat 0%nat * u 0%nat 1%nat)
        + (k 0%nat 0%nat * u 0%nat 2%nat) * (k 0%nat 0%nat * u 0%nat 2%nat)); [ring|]. rewrite H0, H1, H2. ring. }
    rewrite Ou, Ov in H by lia. unfold eye in H. cbn in H. nra. }
  assert (U0 : forall j, (j < 3)%nat -> u 0%nat j = v 0%nat j).
  { intros j Hj. pose proof (Q0 j Hj) as H. rewrite Q00 in H. nra. }
  assert (U1 : forall j, (j < 3)%nat -> u 1%nat j = v 1%nat j).
  { intros j Hj. idx j Hj; [rewrite Mu0, Mv0|rewrite Mu1, Mv1|rewrite Mu2, Mv2]; rewrite !U0, !U2 by lia; ring. }
  assert (G1 : g = 1).
  { assert (N : rdot u v 1 1 = g * rdot v v 1 1) by (unfold rdot; rewrite !Q1 by lia; ring).
    assert (N' : rdot u v 1 1 = rdot v v 1 1) by (unfold rdot; rewrite !U1 by lia; ring).
    rewrite N', Ov in N by lia. unfold eye in N. cbn in N. lra. }
  assert (P11 : k 1%nat 1%nat = l 1%nat 1%nat) by (unfold g in G1; apply (Rmult_eq_reg_l (/ k 1%nat 1%nat)); [|apply Rinv_neq_0_compat, K1]; rewrite Rinv_l by exact K1; unfold Rdiv in G1; lra).
  split.
  - intros i j Hi Hj. idx i Hi; idx j Hj; try congruence. rewrite G1 in P01. lra.
  - intros i j Hi Hj. idx i Hi; [apply U0|apply U1|symmetry; apply U2]; exact Hj.
Qed.

(** The contracts assumed for the LAPACK routines can be met on every matrix (C138). *)
From Coq Require Import Reals List Arith Bool Lra Lia Psatz ClassicalEpsilon.
Import ListNotations.
From Verif Require Import Mat MatPd Spectral Quat LinAlg LinAlgProps AbsOrient AbsOrientProofs AbsOrientProps Dlt DltProofs HomographyProps ProjectionDltProps
  FundamentalProps ToolTipProps HandEyeProofs BackProp BackPropProps Projection ProjectionProofs ProjectionProps LuDet LuDetProps OrthoIter OrthoIterProps
  Jacobians PlanarPose PlanarPoseProofs PlanarPoseProps PlanarInitProps PlanarDltProps PlanarFitProps.
Open Scope R_scope.

(** * C138 *)
(** ** syev, and its use by Horn's method *)
Theorem syev_exists m E : symm m E -> exists tz, syev_ok m E tz.
Proof.
  intros HS. destruct (eigenvectors_exist m (mscale (-1) E)) as (w & Z & HO & EA & DE).
  { intros i j Hi Hj. unfold mscale. rewrite (HS i j Hi Hj). reflexivity. }
  destruct (square_orthonormal m Z HO) as [HC HR]. exists (fun k => - w k, Z). split; [|split; [exact HC|split; [exact HR|]]]; cbn [fst snd].
  - intros i j Hi Hj. specialize (EA i j Hi Hj). unfold mscale in EA. replace (E i j) with (- (-1 * E i j)) by ring. rewrite EA, <- sum_opp. apply sum_ext. intros; ring.
  - intros k l [L1 L2]. specialize (DE k l L1 L2). lra.
Qed.
Corollary syev4_exists N : symm 4 N -> exists w v, syev4_contract N w v.
Proof.
  intros HS. destruct (syev_exists 4 N HS) as ([w v] & EA & HC & HR & DE). exists w, v. split; [intros i j Hi Hj; apply EA; assumption|]. auto.
Qed.
Lemma horn_symm m : symm 4 (horn_n m).
Proof. intros i j Hi Hj. unfold horn_n, mlist. destruct i as [|[|[|[|]]]], j as [|[|[|[|]]]]; try lia; cbn [nth]; ring. Qed.
(** a routine that always succeeds and is always right *)
Theorem eigen_ok_exists : exists syev, eigen_ok syev /\ forall left right lc rc, syev (horn_of left right lc rc) <> None.
Proof.
  exists (fun N => Some (epsilon (inhabits (fun _ => 0, eye)) (fun r => syev4_contract N (fst r) (snd r)))). split; [|discriminate].
  intros left right lc rc w v E. unfold horn_of in *. set (N := horn_n _) in *.
  assert (X : exists r, syev4_contract N (fst r) (snd r)) by (destruct (syev4_exists N (horn_symm _)) as (w' & v' & H); exists (w', v'); exact H).
  apply (epsilon_spec (inhabits (fun _ => 0, eye))) in X. injection E. intros E'. exact (eq_ind _ (fun r => syev4_contract N (fst r) (snd r)) X (w, v) E').
Qed.
Print Assumptions syev_exists. Print Assumptions eigen_ok_exists.

(** ** gesvd *)
Theorem full_svd_exists m n A : exists U s Vt, full_svd m n A U s Vt.
Proof.
  destruct (svd_thin m n A) as (U & s & Z & HZ & HA & HU & S0 & SD). destruct (square_orthonormal n Z HZ) as [HC HR].
  exists U, s, (tr Z). split; [exact HA|]. split; [exact HU|]. split; [exact HC|]. split; [exact HR|]. split; [intros; apply S0|]. intros k l [L1 L2]. apply SD; assumption.
Qed.
Corollary gesvd_exists m n A : exists sv, gesvd_ok m n A sv.
Proof. destruct (full_svd_exists m n A) as (U & s & Vt & H). exists (s, Vt), U. exact H. Qed.
Corollary least_direction_always m n A : (0 < n)%nat -> exists v, least_direction m n A v.
Proof.
  intros Hn. destruct n as [|n]; [lia|]. destruct (full_svd_exists m (S n) A) as (U & s & Vt & H). exists (fun j => Vt n j). exact (full_svd_last m n A U s Vt H).
Qed.
(** one decomposition serves all calls of the homography and projection solvers *)
Theorem dlt_svd_exists : exists svd : gesvd_vt, (forall from to, h_svd_ok svd from to) /\ exists svd', forall from to, p_svd_ok svd' from to.
Proof.
  set (some := fun n m A => epsilon (inhabits eye) (fun Vt => exists U s, full_svd m n A U s Vt)).
  assert (OK : forall n m A, exists U s, full_svd m n A U s (some n m A)).
  { intros n m A. apply (epsilon_spec (inhabits eye) (fun Vt => exists U s, full_svd m n A U s Vt)). destruct (full_svd_exists m n A) as (U & s & Vt & H). exists Vt, U, s. exact H. }
  exists (some 9%nat). split; [|exists (some 12%nat)]; intros from to fs fc ts tc _ _; cbv zeta.
  - set (rows := homography_system _ _ _ _ _ _). destruct (OK 9%nat (length rows) (rows_mat rows)) as (U & s & H). exact (full_svd_last _ 8 _ U s _ H).
  - set (rows := projection_system _ _ _ _ _ _). destruct (OK 12%nat (length rows) (rows_mat rows)) as (U & s & H). exact (full_svd_last _ 11 _ U s _ H).
Qed.
(** hand-eye calibration by dual quaternions *)
Theorem svd8_exists rows A : (8 <= rows)%nat -> exists s vt, svd8_contract rows A s vt.
Proof.
  intros L. destruct (svd_tall rows 8 A L) as (U & s & Z & HZ & HU & HA & S0 & SD). destruct (square_orthonormal 8 Z HZ) as [HC HR].
  exists s, (tr Z). split; [|split; [exact HC|split; [exact HR|]]].
  - exists U. split; [|intros k l Hk Hl; exact (HU k l Hk Hl)]. intros i j Hi Hj. rewrite (HA i j Hi Hj). unfold mmul, tr. apply sum_ext. intros; ring.
  - intros i j [L1 L2]. split; [apply S0|apply SD; assumption].
Qed.
(** the pseudo-inverse: any shape, any rank *)
Theorem svd_exists n m A : exists U s Vt, LinAlgProps.svd n m A U s Vt.
Proof.
  unfold LinAlgProps.svd. cbv zeta. destruct (le_lt_dec m n) as [L|L].
  - rewrite (Nat.min_r n m L). destruct (svd_tall n m A L) as (U & s & Z & HZ & HU & HA & _). exists U, s, (tr Z). split; [exact HA|]. split; [exact HU|exact HZ].
  - rewrite (Nat.min_l n m) by lia. destruct (svd_tall m n (tr A)) as (U & s & Z & HZ & HU & HA & _); [lia|]. exists Z, s, (tr U). split; [|split; [exact HZ|exact HU]].
    intros i j Hi Hj. specialize (HA j i Hj Hi). unfold tr in *. rewrite HA. apply sum_ext. intros; ring.
Qed.
Corollary penrose_exists n m A : exists X, penrose n m A X.
Proof. destruct (svd_exists n m A) as (U & s & Vt & H). exists (pseudo_invert n m U s Vt). exact (pseudo_invert_penrose n m A U s Vt H). Qed.
Corollary least_squares_exists m n A b : exists v, least_squares m n A b v.
Proof.
  destruct (penrose_exists m n A) as (X & H). exists (mvec m X b). intros x. unfold residual. exact (pseudo_invert_least_squares m n A X b x H).
Qed.
(** the small decompositions of pose estimation *)
Theorem svd32_exists : exists svd, svd32_total svd.
Proof.
  assert (X : forall A, exists r, svd32_ok A r).
  { intros A. destruct (svd_tall 3 2 A ltac:(lia)) as (U & s & Z & HZ & HU & HA & S0 & _). destruct (square_orthonormal 2 Z HZ) as [HC HR].
    destruct (complete_columns 3 3 U (fun k => (k <? 2)%nat) (le_n 3)) as (U' & AG & HO).
    { intros k l _ _ Gk Gl. apply Nat.ltb_lt in Gk, Gl. apply HU; assumption. }
    exists (s, U', tr Z). split; [exact (square_orthonormal 3 U' HO)|]. split; [split; [exact HR|exact HC]|]. split; [apply S0|]. split; [apply S0|].
    intros i j Hi Hj. rewrite (HA i j Hi Hj), !AG by reflexivity. cbn [sum]. unfold tr. ring. }
  exists (fun A => epsilon (inhabits (fun _ => 0, eye, eye)) (svd32_ok A)). intros A. apply epsilon_spec, X.
Qed.
Theorem svd33_exists : exists svd, svd33_total svd.
Proof.
  assert (X : forall A, exists r, svd33_ok A r /\ fst (fst r) 2%nat <= fst (fst r) 1%nat <= fst (fst r) 0%nat).
  { intros A. destruct (svd_tall 3 3 A ltac:(lia)) as (U & s & Z & HZ & HU & HA & S0 & SD). destruct (square_orthonormal 3 Z HZ) as [HC HR].
    exists (s, U, tr Z). split; [|cbn [fst]; split; apply SD; lia]. split; [exact (square_orthonormal 3 U HU)|]. split; [split; [exact HR|exact HC]|]. split; [intros; apply S0|]. exact HA. }
  exists (fun A => epsilon (inhabits (fun _ => 0, eye, eye)) (fun r => svd33_ok A r /\ fst (fst r) 2%nat <= fst (fst r) 1%nat <= fst (fst r) 0%nat)).
  intros A. apply (epsilon_spec (inhabits (fun _ => 0, eye, eye)) (fun r => svd33_ok A r /\ fst (fst r) 2%nat <= fst (fst r) 1%nat <= fst (fst r) 0%nat)), X.
Qed.
Print Assumptions full_svd_exists. Print Assumptions svd8_exists. Print Assumptions penrose_exists. Print Assumptions least_squares_exists. Print Assumptions svd32_exists.

(** ** gerqf + orgrq *)
Theorem rq_exists p : exists rq, rq_contract rq p.
Proof.
  destruct (kernel_unit 3 [p 1%nat; p 2%nat] ltac:(cbn; lia)) as (a & AA & AO).
  destruct (kernel_unit 3 [p 2%nat; a] ltac:(cbn; lia)) as (b & BB & BO).
  destruct (kernel_unit 3 [a; b] ltac:(cbn; lia)) as (c & CC & CO).
  assert (BA := BO a ltac:(cbn; auto)). assert (CA := CO a ltac:(cbn; auto)). assert (CB := CO b ltac:(cbn; auto)).
  set (Q := fun i => match i with O => a | 1%nat => b | _ => c end : vect).
  assert (QO : cols_orthonormal 3 3 (tr Q)).
  { intros k l Hk Hl. unfold tr. change (vdot 3 (Q k) (Q l) = eye k l). destruct k as [|[|[|]]], l as [|[|[|]]]; try lia; unfold eye; cbn [Nat.eqb Q]; rewrite ?(dot_comm 3 b a), ?(dot_comm 3 c a), ?(dot_comm 3 c b); assumption. }
  destruct (square_orthonormal 3 _ QO) as [HC HR].
  exists (fun _ => (mmul 3 p (tr Q), Q)). split; cbn [fst snd]; [exact HC|].
  intros i j Hi Hj. transitivity (mmul 3 (mmul 3 p (tr Q)) Q i j).
  - apply (mmul_ext 3 3 3); [|intros ? ? ? ?; reflexivity|exact Hi|exact Hj]. intros r s Hr Hs. unfold upper3. destruct (Nat.ltb_spec s r) as [LT|]; [|reflexivity].
    change (0 = vdot 3 (p r) (Q s)). symmetry. destruct r as [|[|[|]]], s as [|[|[|]]]; try lia; cbn [Q]; [apply AO|apply AO|apply BO]; cbn; auto.
  - rewrite mmul_assoc. transitivity (mmul 3 p eye i j); [|apply mmul_eye_r; exact Hj].
    apply (mmul_ext 3 3 3); [intros ? ? ? ?; reflexivity|exact HR|exact Hi|exact Hj].
Qed.

(** ** getrf *)
Lemma interchanged_ext l1 l2 A k : (forall i, (i < k)%nat -> nth i l1 O = nth i l2 O) -> interchanged l1 A k = interchanged l2 A k.
Proof.
  unfold interchanged. induction k as [|k IH]; intros H; [reflexivity|]. rewrite seq_S, !fold_left_app. cbn [fold_left Nat.add]. rewrite IH by (intros; apply H; lia). rewrite (H k) by lia. reflexivity.
Qed.
Lemma pivot_exists n k (f : nat -> R) : (k < n)%nat -> exists p, (k <= p < n)%nat /\ (f p = 0 -> forall i, (k <= i < n)%nat -> f i = 0).
Proof.
  intros H. destruct (classic (exists p, (k <= p < n)%nat /\ f p <> 0)) as [(p & Hp & N)|N].
  - exists p. split; [exact Hp|]. intros Z. contradiction.
  - exists k. split; [lia|]. intros _ i Hi. destruct (Req_dec (f i) 0) as [Z|Z]; [exact Z|]. exfalso. apply N. exists i. split; assumption.
Qed.
Theorem getrf_exists n A : exists f, getrf_ok n A f.
Proof.
  assert (ST : forall k, (k <= n)%nat -> exists piv L U R, length piv = k /\ (forall i, (i < k)%nat -> (i + 1 <= nth i piv O <= n)%nat) /\
    (forall i j, (i < n)%nat -> (j < n)%nat -> interchanged piv A k i j = sum k (fun l => L i l * U l j) + R i j) /\
    (forall i j, (i < n)%nat -> (j < n)%nat -> (i < k \/ j < k)%nat -> R i j = 0) /\
    (forall i l, (l < k)%nat -> (i < l)%nat -> L i l = 0) /\ (forall l, (l < k)%nat -> L l l = 1) /\ (forall l j, (l < k)%nat -> (j < l)%nat -> U l j = 0)).
  { induction k as [|k IH]; intros Hk.
    - exists [], eye, eye, A. split; [reflexivity|]. split; [intros; lia|]. split; [intros i j _ _; cbn; ring|]. split; [intros; lia|]. repeat split; intros; lia.
    - destruct (IH ltac:(lia)) as (piv & L & U & R & LP & BP & E & Z & L0 & L1 & U0).
      destruct (pivot_exists n k (fun i => R i k)) as (p & Hp & PZ); [lia|].
      set (S := swap_rows R k p). set (L' := swap_rows L k p). set (d := S k k).
      assert (SK : forall i j, (i < n)%nat -> (j < n)%nat -> (i < k \/ j < k)%nat -> S i j = 0).
      { intros i j Hi Hj H. unfold S, swap_rows. destruct (Nat.eqb_spec i k) as [->|]; [apply Z; lia|]. destruct (Nat.eqb_spec i p) as [->|]; apply Z; lia. }
      assert (SD : d = 0 -> forall i, (k <= i < n)%nat -> S i k = 0).
      { unfold d, S, swap_rows. rewrite Nat.eqb_refl. intros D i Hi. specialize (PZ D). destruct (Nat.eqb_spec i k) as [->|]; [apply PZ; lia|]. destruct (Nat.eqb_spec i p) as [->|]; apply PZ; lia. }
      set (c := fun i => if (i <? k)%nat then 0 else if (i =? k)%nat then 1 else S i k / d).
      assert (CS : forall i, (k < i < n)%nat -> c i * d = S i k).
      { intros i Hi. unfold c. rewrite (proj2 (Nat.ltb_ge i k)), (proj2 (Nat.eqb_neq i k)) by lia. destruct (Req_dec d 0) as [D|D]; [rewrite (SD D i ltac:(lia)), D; ring|]. field. exact D. }
      exists (piv ++ [p + 1]%nat), (fun i l => if (l =? k)%nat then c i else L' i l), (fun l j => if (l =? k)%nat then S k j else U l j), (fun i j => if (i <=? k)%nat then 0 else S i j - c i * S k j).
      split; [rewrite app_length; cbn; lia|]. split; [|split; [|split; [|split; [|split]]]].
      + intros i Hi. destruct (Nat.eq_dec i k) as [->|]; [rewrite app_nth2, LP, Nat.sub_diag by lia; cbn [nth]; lia|]. rewrite app_nth1 by lia. apply BP. lia.
      + intros i j Hi Hj. unfold interchanged. rewrite seq_S, fold_left_app. cbn [fold_left Nat.add]. fold (interchanged (piv ++ [p + 1]%nat) A k).
        rewrite (interchanged_ext (piv ++ [p + 1]%nat) piv A k) by (intros; apply app_nth1; lia). rewrite app_nth2, LP, Nat.sub_diag by lia. cbn [nth]. rewrite Nat.add_sub.
        assert (E1 : swap_rows (interchanged piv A k) k p i j = sum k (fun l => L' i l * U l j) + S i j).
        { unfold L', S, swap_rows. destruct (i =? k)%nat; [apply E; lia|]. destruct (i =? p)%nat; apply E; lia. }
        rewrite E1, sum_Sn, Nat.eqb_refl. rewrite (sum_ext k (fun l => (if (l =? k)%nat then c i else L' i l) * (if (l =? k)%nat then S k j else U l j)) (fun l => L' i l * U l j)).
        2:{ intros l Hl. rewrite (proj2 (Nat.eqb_neq l k)) by lia. reflexivity. }
        rewrite Rplus_assoc. f_equal. destruct (Nat.leb_spec i k) as [LE|LT]; [|ring].
        unfold c. destruct (Nat.ltb_spec i k) as [LT|GE]; [rewrite (SK i j) by lia; ring|]. assert (i = k) as -> by lia. rewrite Nat.eqb_refl. ring.
      + intros i j Hi Hj H. destruct (Nat.leb_spec i k) as [LE|LT]; [reflexivity|]. destruct (Nat.eq_dec j k) as [->|N]; [fold d; rewrite (CS i) by lia; ring|].
        rewrite (SK i j), (SK k j) by lia. ring.
      + intros i l Hl Hi. destruct (Nat.eqb_spec l k) as [->|N]; [unfold c; rewrite (proj2 (Nat.ltb_lt i k) Hi); reflexivity|].
        unfold L', swap_rows. destruct (Nat.eqb_spec i k) as [->|]; [lia|]. destruct (Nat.eqb_spec i p) as [->|]; [lia|]. apply L0; lia.
      + intros l Hl. destruct (Nat.eqb_spec l k) as [->|N]; [unfold c; rewrite Nat.ltb_irrefl, Nat.eqb_refl; reflexivity|].
        unfold L', swap_rows. destruct (Nat.eqb_spec l k) as [->|]; [lia|]. destruct (Nat.eqb_spec l p) as [->|]; [lia|]. apply L1; lia.
      + intros l j Hl Hj. destruct (Nat.eqb_spec l k) as [->|N]; [apply SK; lia|apply U0; lia]. }
  destruct (ST n (le_n n)) as (piv & L & U & R & LP & BP & E & Z & L0 & L1 & U0).
  exists (fun i j => if (j <? i)%nat then L i j else U i j, piv). split; [exact LP|]. split; [exact BP|]. cbn [fst snd].
  intros i j Hi Hj. rewrite (E i j Hi Hj), (Z i j) by auto. rewrite Rplus_0_r. unfold mmul. apply sum_ext. intros l Hl. unfold lower, upper. f_equal.
  - destruct (Nat.ltb_spec l i) as [|GE]; [reflexivity|]. destruct (Nat.eqb_spec l i) as [->|]; [apply L1, Hi|apply L0; lia].
  - destruct (Nat.ltb_spec j l) as [|GE]; [apply U0; lia|]. reflexivity.
Qed.
Print Assumptions rq_exists. Print Assumptions getrf_exists.

(** ** A call that meets all hypotheses of C136: the square of side two seen from distance one *)
Lemma level_jacobian a b w x i : (i < 2)%nat ->
  mvec 6 (point_error_jac flip (of3 (V3 a b 0)) (pose_vector (P (Q 0 0 0 w) (V3 0 0 (-1))))) x i =
  nth i [x 0%nat + a * x 2%nat - 2 * b * x 5%nat + 2 * a * b * x 3%nat - 2 * a * a * x 4%nat; x 1%nat + b * x 2%nat + 2 * a * x 5%nat + 2 * b * b * x 3%nat - 2 * a * b * x 4%nat] 0.
Proof.
  intros Hi. set (v := pose_vector _).
  assert (E : forall k, (k < 3)%nat -> mvec 3 flip (pose_point (of3 (V3 a b 0)) v) k = nth k [a; b; 1] 0).
  { intros k Hk. idx k Hk; unfold v, flip, mk33, pose_point, mvec, qmat, quat_of, pose_vector, of3, vlist; cbn [sum nth Nat.ltb Nat.leb Nat.eqb Nat.sub Nat.add rot tra vx vy vz qx qy qz qw]; unfold mk33; cbn [nth Nat.mul Nat.add]; ring. }
  unfold point_error_jac. cbv zeta. unfold mvec at 1. cbn [sum].
  idx i Hi; cbn [Nat.ltb Nat.leb Nat.sub]; unfold mmul, dehom_jac; cbn [sum Nat.eqb]; rewrite !E by lia; unfold eye, flip, mk33, quat_error_jac, v, pose_vector, of3, vlist, mlist; cbn [nth Nat.eqb Nat.mul Nat.add rot tra vx vy vz qx qy qz qw]; field.
Qed.
Lemma square_conditioned p : let p3d := [V3 1 1 0; V3 1 (-1) 0; V3 (-1) 1 0; V3 (-1) (-1) 0] in
  same_motion (P qone (V3 0 0 (-1))) p -> well_conditioned 8 6 (multi_point_error_jac flip p3d (pose_vector p)).
Proof.
  intros p3d (U & M). split; [lia|].
  assert (EP : exists w, p = P (Q 0 0 0 w) (V3 0 0 (-1))).
  { destruct p as [[x y z w] [a b c]]. pose proof (M (V3 0 0 0)) as M0. pose proof (M (V3 1 0 0)) as M1. pose proof (M (V3 0 1 0)) as M2.
    unfold papp, qrot in *. cbn in M0, M1, M2. unfold rigid, unit, qnorm in U. cbn in U.
    injection M0. intros E1 E2 E3. injection M1. intros F1 F2 F3. injection M2. intros G1 G2 G3. clear M0 M1 M2.
    assert (ZZ : y * y + z * z = 0) by lra. assert (XX : x * x + z * z = 0) by lra.
    assert (y = 0) as -> by nra. assert (z = 0) as -> by nra. assert (x = 0) as -> by nra.
    exists w. f_equal. apply v3_ext; cbn; lra. }
  destruct EP as (w & ->).
  set (J := multi_point_error_jac _ _ _).
  assert (EE : forall x, energy 8 6 J x =
    4 * ((x 0%nat - 2 * x 4%nat) * (x 0%nat - 2 * x 4%nat) + x 2%nat * x 2%nat + 4 * (x 5%nat * x 5%nat) + 4 * (x 3%nat * x 3%nat)) + 4 * ((x 1%nat + 2 * x 3%nat) * (x 1%nat + 2 * x 3%nat) + x 2%nat * x 2%nat + 4 * (x 5%nat * x 5%nat) + 4 * (x 4%nat * x 4%nat))).
  { intros x. assert (ER : forall k, (k < 8)%nat -> mvec 6 J x k = mvec 6 (point_error_jac flip (points p3d (k / 2)%nat) (pose_vector (P (Q 0 0 0 w) (V3 0 0 (-1))))) x (k mod 2)%nat) by reflexivity.
    unfold energy. cbn [sum]. rewrite !ER by lia. cbn [Nat.div Nat.modulo Nat.divmod Nat.sub fst snd]. unfold points, p3d. cbn [nth].
    rewrite !level_jacobian by lia. cbn [nth]. ring. }
  intros x y. unfold vdot. cbn [sum]. rewrite !EE.
  set (x0 := x 0%nat). set (x1 := x 1%nat). set (x2 := x 2%nat). set (x3 := x 3%nat). set (x4 := x 4%nat). set (x5 := x 5%nat).
  set (y0 := y 0%nat). set (y1 := y 1%nat). set (y2 := y 2%nat). set (y3 := y 3%nat). set (y4 := y 4%nat). set (y5 := y 5%nat). intros X Y.
  assert (LX : 1 <= 4 * ((x0 - 2 * x4) * (x0 - 2 * x4) + x2 * x2 + 4 * (x5 * x5) + 4 * (x3 * x3)) + 4 * ((x1 + 2 * x3) * (x1 + 2 * x3) + x2 * x2 + 4 * (x5 * x5) + 4 * (x4 * x4))).
  { assert (0 <= (3 * x0 - 8 * x4) * (3 * x0 - 8 * x4)) by apply Rle_0_sqr. assert (0 <= (3 * x1 + 8 * x3) * (3 * x1 + 8 * x3)) by apply Rle_0_sqr. nra. }
  assert (LY : 4 * ((y0 - 2 * y4) * (y0 - 2 * y4) + y2 * y2 + 4 * (y5 * y5) + 4 * (y3 * y3)) + 4 * ((y1 + 2 * y3) * (y1 + 2 * y3) + y2 * y2 + 4 * (y5 * y5) + 4 * (y4 * y4)) <= 100).
  { assert (0 <= (y0 + 2 * y4) * (y0 + 2 * y4)) by apply Rle_0_sqr. assert (0 <= (y1 - 2 * y3) * (y1 - 2 * y3)) by apply Rle_0_sqr. nra. }
  split; lra.
Qed.
Example computed_case : exists svd svd32 svd33 gesvd p C,
  svd32_total svd32 /\ svd33_total svd33 /\ (forall m n A, gesvd_ok m n A (gesvd m n A)) /\
  compute_pose svd svd32 svd33 (fun _ => flip) gesvd still false false [(1, 1); (1, -1); (-1, 1); (-1, -1)] [V3 1 1 0; V3 1 (-1) 0; V3 (-1) 1 0; V3 (-1) (-1) 0] flip = Got (p, Some C, 0) /\
  same_motion (P qone (V3 0 0 (-1))) p.
Proof.
  destruct svd32_exists as (svd32 & H32). destruct svd33_exists as (svd33 & H33). destruct dlt_svd_exists as (svd & HS & _).
  set (gesvd := fun m n A => epsilon (inhabits ((fun _ => 0) : vect, eye)) (fun sv => gesvd_ok m n A sv)).
  assert (HG : forall m n A, gesvd_ok m n A (gesvd m n A)) by (intros m n A; apply (epsilon_spec (inhabits ((fun _ => 0) : vect, eye)) (fun sv => gesvd_ok m n A sv)), gesvd_exists).
  set (p3d := [V3 1 1 0; V3 1 (-1) 0; V3 (-1) 1 0; V3 (-1) (-1) 0]). set (p2d := [(1, 1); (1, -1); (-1, 1); (-1, -1)]).
  assert (NCL : forall u, vz u <> 0 -> u <> v3zero) by (intros u N E; rewrite E in N; apply N; reflexivity).
  destruct (planar_pose_exact svd svd32 svd33 (fun _ => flip) (P qone (V3 0 0 (-1))) p2d p3d flip
    (V3 1 1 0) (V3 1 (-1) 0) (V3 (-1) 1 0) (V3 (-1) (-1) 0) (1, 1) (1, -1) (-1, 1) (-1, -1)) as (p & EI & SM).
  - unfold rigid, unit, qnorm, qone. cbn. ring.
  - cbn. lia.
  - reflexivity.
  - intros x [<-|[<-|[<-|[<-|[]]]]]; reflexivity.
  - intros x uv [E|[E|[E|[E|[]]]]]; injection E as <- <-; unfold seen, projected, mvec, papp, qrot, flip, mk33, image_vect, of3, vlist; cbn; repeat split; try lra; field.
  - unfold plane_visible, dot3, qrot. cbn. lra.
  - cbn. lra.
  - left. reflexivity.
  - right. left. reflexivity.
  - right. right. left. reflexivity.
  - right. right. right. left. reflexivity.
  - unfold not_collinear. apply NCL. cbn. lra.
  - unfold not_collinear. apply NCL. cbn. lra.
  - unfold not_collinear. apply NCL. cbn. lra.
  - unfold not_collinear. apply NCL. cbn. lra.
  - exact flip_inv.
  - intros r c q _ _ _. apply H32.
  - apply HS.
  - pose proof (square_conditioned p SM) as WC. fold p3d in WC. destruct SM as (U & M).
    assert (V : in_sight flip p p3d) by (intros x Hx; rewrite M; destruct Hx as [<-|[<-|[<-|[<-|[]]]]]; unfold mvec, papp, qrot, flip, mk33, of3, vlist; cbn; lra).
    assert (ER : image_error flip p p2d p3d = 0) by (unfold p2d, p3d; cbn [image_error]; unfold point_error; rewrite !M; unfold mvec, papp, qrot, flip, mk33, of3, vlist; cbn; field).
    destruct (back_identity_inverse gesvd 8 6 0 _ (HG _ _ _) WC (Rle_refl 0)) as (C & EB & _).
    exists svd, svd32, svd33, gesvd, p, C. split; [exact H32|]. split; [exact H33|]. split; [exact HG|]. split; [|split; assumption].
    unfold compute_pose. rewrite EI. cbv zeta. rewrite (reprojection_error_is_sum flip p p2d p3d U eq_refl V), ER.
    unfold single_camera_error. change (2 * length p3d)%nat with 8%nat. rewrite EB. unfold Rdiv. rewrite Rmult_0_l, sqrt_0. reflexivity.
Qed.

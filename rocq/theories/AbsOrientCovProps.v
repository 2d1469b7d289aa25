(** The covariance of a pose estimated from pairs of points (C147, C148). *)
From Coq Require Import Reals Lra Lia List Arith Classical ClassicalEpsilon.
From Coquelicot Require Import Coquelicot.
Import ListNotations.
From Verif Require Import ToolTipProps TsaiLenzProofs AbsOrientProofs AbsOrientProps OrthoIterProofs.
From Verif Require Import Quat QuatProofs Mat LinAlg LinAlgProps DltProofs Jacobians JacobiansProofs AbsOrient BackProp BackPropProps AbsOrientCov ContractsProps.
Open Scope R_scope.

(** * Specification *)
(** the pose with errors: e = (error of the translation, imaginary part of the quaternion of the error of the
    rotation), the convention of ErrorPose *)
Definition disturbed_pose (p : pose) (e : vect) : pose :=
  P (qmul (rot p) (Q (e 3%nat) (e 4%nat) (e 5%nat) (sqrt (1 - (e 3%nat * e 3%nat + e 4%nat * e 4%nat + e 5%nat * e 5%nat)))))
    (V3 (vx (tra p) + e 0%nat) (vy (tra p) + e 1%nat) (vz (tra p) + e 2%nat)).
(** the coordinates of all transformed points, one after the other *)
Definition stacked (b : list vec3) (p : pose) : vect := fun i => of3 (papp p (nth (i / 3) b v3zero)) (i mod 3)%nat.
(** first order motion of the point v *)
Definition velocity (q : quat) (x : vect) (v : vec3) : vec3 :=
  v3add (V3 (x 0%nat) (x 1%nat) (x 2%nat)) (qrot q (v3scale 2 (cross3 (V3 (x 3%nat) (x 4%nat) (x 5%nat)) v))).
(** lengths are measured in a unit that is c times smaller *)
Definition unit_of (c : R) (i : nat) : R := if (i <? 3)%nat then c else 1.

(** * Lemmas *)
Lemma row_div i k : (k < 3)%nat -> ((3 * i + k) / 3 = i)%nat.
Proof. intros Hk. symmetry. apply (Nat.div_unique _ 3 i k); lia. Qed.
Lemma row_mod i k : (k < 3)%nat -> ((3 * i + k) mod 3 = k)%nat.
Proof. intros Hk. symmetry. apply (Nat.mod_unique _ 3 i k); lia. Qed.
Lemma row_split r : (r = 3 * (r / 3) + r mod 3)%nat /\ (r mod 3 < 3)%nat.
Proof. split; [apply Nat.div_mod; lia|apply Nat.mod_upper_bound; lia]. Qed.
Lemma points_row q b i k j : (k < 3)%nat ->
  points_jac q b (3 * i + k)%nat j = motion_jac (quat_error_jac (of3 (nth i b v3zero)) (vlist [qx q; qy q; qz q; qw q])) k j.
Proof. intros Hk. unfold points_jac, motion_jac. rewrite row_div, row_mod by exact Hk. reflexivity. Qed.
Lemma error_velocity q v d k : unit q -> (k < 3)%nat ->
  mvec 3 (quat_error_jac (of3 v) (vlist [qx q; qy q; qz q; qw q])) d k = of3 (qrot q (v3scale 2 (cross3 (V3 (d 0%nat) (d 1%nat) (d 2%nat)) v))) k.
Proof.
  intros U Hk. destruct v as [a b c], q as [x y z w]. unfold unit, qnorm in U. cbn [qx qy qz qw] in U.
  assert (E : w * w = 1 - x * x - y * y - z * z) by lra.
  idx k Hk; unfold mvec, quat_error_jac, mlist, vlist, of3, qrot, v3scale, cross3; cbn [sum nth vx vy vz qx qy qz qw vlist]; ring [E].
Qed.
Lemma points_velocity q b x i k : unit q -> (k < 3)%nat -> mvec 6 (points_jac q b) x (3 * i + k)%nat = of3 (velocity q x (nth i b v3zero)) k.
Proof.
  intros U Hk. transitivity (mvec 6 (motion_jac (quat_error_jac (of3 (nth i b v3zero)) (vlist [qx q; qy q; qz q; qw q]))) x k).
  - unfold mvec. apply sum_ext. intros j _. rewrite points_row by exact Hk. reflexivity.
  - change 6%nat with (3 + 3)%nat. rewrite mvec_motion by exact Hk. rewrite error_velocity by assumption. unfold velocity. cbn [Nat.add].
    set (w := qrot q _). idx k Hk; unfold of3, vlist, v3add; cbn; ring.
Qed.
Lemma sum_triples n (f : nat -> R) : sum (3 * n) f = sum n (fun i => f (3 * i)%nat + f (3 * i + 1)%nat + f (3 * i + 2)%nat).
Proof.
  induction n as [|n IH]; [reflexivity|]. replace (3 * S n)%nat with (S (S (S (3 * n)))) by lia. cbn [sum]. rewrite IH.
  replace (S (3 * n))%nat with (3 * n + 1)%nat by lia. replace (S (3 * n + 1))%nat with (3 * n + 2)%nat by lia. ring.
Qed.
Lemma sum_nth (f : vec3 -> R) b : sum (length b) (fun i => f (nth i b v3zero)) = lsum f b.
Proof.
  induction b as [|v b IH]; [reflexivity|]. cbn [length]. change (S (length b)) with (1 + length b)%nat. rewrite sum_split. cbn [sum nth Nat.add]. rewrite IH.
  unfold lsum. cbn [fold_right]. ring.
Qed.
Lemma points_energy q b x : unit q -> energy (3 * length b) 6 (points_jac q b) x = lsum (fun v => sq3 (velocity q x v)) b.
Proof.
  intros U. unfold energy. rewrite sum_triples, <- sum_nth. apply sum_ext. intros i Hi.
  replace (3 * i)%nat with (3 * i + 0)%nat at 1 2 by lia. rewrite !points_velocity by (assumption || lia). unfold of3, vlist, sq3, dot3. cbn [nth]. ring.
Qed.

(** * C147: the Jacobian and what the points determine *)
Theorem points_jacobian p b : rigid p ->
  derivative 6 (3 * length b) (fun e => stacked b (disturbed_pose p e)) (fun _ => 0) (points_jac (rot p) b).
Proof.
  intros U g e Hc HS r Hr. destruct (row_split r) as [ER Hk]. set (i := (r / 3)%nat) in *. set (k := (r mod 3)%nat) in *. clearbody i k. subst r.
  set (v := nth i b v3zero). set (inp := vlist [vx (tra p); vy (tra p); vz (tra p); qx (rot p); qy (rot p); qz (rot p); qw (rot p)]).
  assert (UI : unit_at 3 inp). { unfold unit_at, inp. destruct p as [[x y z w] t]. exact U. }
  pose proof (disturbed_point_deriv (of3 v) inp UI g e Hc HS k Hk) as D.
  replace (mvec 6 (points_jac (rot p) b) e (3 * i + k)%nat) with (mvec 6 (motion_jac (quat_error_jac (of3 v) (fun j => inp (3 + j)%nat))) e k).
  - eapply is_derive_ext; [|exact D]. intros h. cbv beta. unfold stacked. rewrite row_div, row_mod by exact Hk. fold v.
    unfold disturbed_point, disturbed_rotate, papp, disturbed_pose, at_time, inp, quat_of, vec_of. cbn [rot tra Nat.add].
    replace (V3 (of3 v 0%nat) (of3 v 1%nat) (of3 v 2%nat)) with v by (destruct v as [a1 a2 a3]; reflexivity).
    replace (Q (vlist _ 3%nat) _ _ _) with (rot p) by (destruct p as [[x y z w] t]; reflexivity).
    set (w := qrot _ v). match goal with |- @eq _ ?a ?b => change (@eq R a b) end. idx k Hk; unfold of3, vlist, v3add; cbn; ring.
  - unfold mvec. apply sum_ext. intros j _. rewrite points_row by exact Hk. reflexivity.
Qed.
Print Assumptions points_jacobian.
(** some change of the pose is not visible in the points, to first order, exactly when they lie on a line *)
Theorem points_observable q b : unit q -> b <> [] ->
  (non_collinear b <-> forall x, energy (3 * length b) 6 (points_jac q b) x = 0 -> forall i, (i < 6)%nat -> x i = 0).
Proof.
  intros U NE. split.
  - intros (a & c & d & Ia & Ic & Id & N) x E. rewrite points_energy in E by exact U.
    assert (Z := lsum_zero (fun v => sq3 (velocity q x v)) b (fun v _ => sq3_nonneg _) E).
    assert (Z' : forall v, In v b -> velocity q x v = v3zero). { intros v Hv. apply dot3_zero. exact (Z v Hv). }
    set (t := V3 (x 0%nat) (x 1%nat) (x 2%nat)). set (w := V3 (x 3%nat) (x 4%nat) (x 5%nat)).
    assert (DF : forall u v, In u b -> In v b -> cross3 (v3sub u v) w = v3zero).
    { intros u v Hu Hv. assert (A := Z' u Hu). assert (B := Z' v Hv). unfold velocity in A, B. fold t w in A, B.
      assert (C : qrot q (v3scale (-2) (cross3 (v3sub u v) w)) = v3zero).
      { transitivity (v3sub (v3add t (qrot q (v3scale 2 (cross3 w u)))) (v3add t (qrot q (v3scale 2 (cross3 w v))))).
        - replace (v3scale (-2) (cross3 (v3sub u v) w)) with (v3sub (v3scale 2 (cross3 w u)) (v3scale 2 (cross3 w v))).
          + rewrite qrot_sub. apply v3_ext; cbn; ring.
          + destruct u as [u0 u1 u2], v as [v0 v1 v2]. apply v3_ext; cbn; ring.
        - rewrite A, B. apply v3_ext; cbn; ring. }
      apply (scale_zero (-2)); [lra|]. rewrite <- (qrot_conj_l q _ U), C. apply v3_ext; cbn; ring. }
    assert (W : w = v3zero) by (apply (common_direction (v3sub c a) (v3sub d a)); auto).
    assert (T : t = v3zero).
    { assert (A := Z' a Ia). unfold velocity in A. fold t w in A. rewrite W in A. rewrite <- A. destruct t as [t0 t1 t2], a as [a0 a1 a2]. apply v3_ext; cbn; ring. }
    intros i Hi. unfold w in W. unfold t in T. injection W. injection T. intros. idx i Hi; assumption.
  - intros H. apply NNPP. intros NC. destruct b as [|a b']; [congruence|]. set (b := a :: b') in *.
    assert (L : forall c d, In c b -> In d b -> cross3 (v3sub c a) (v3sub d a) = v3zero).
    { intros c d Hc Hd. destruct (v3_eq_dec_zero (cross3 (v3sub c a) (v3sub d a))) as [Z|Z]; [exact Z|]. exfalso. apply NC. exists a, c, d. repeat split; try assumption. left; reflexivity. }
    assert (D : exists u, u <> v3zero /\ forall d, In d b -> cross3 u (v3sub d a) = v3zero).
    { destruct (classic (exists c, In c b /\ v3sub c a <> v3zero)) as [(c & Hc & Nc)|NO].
      - exists (v3sub c a). split; [exact Nc|]. intros d Hd. apply L; assumption.
      - exists (V3 1 0 0). split; [intros E; injection E; lra|]. intros d Hd. destruct (v3_eq_dec_zero (v3sub d a)) as [->|N]; [apply v3_ext; cbn; ring|].
        exfalso. apply NO. exists d. split; assumption. }
    destruct D as (u & Nu & Hu). set (t := v3opp (qrot q (v3scale 2 (cross3 u a)))).
    set (x := vlist [vx t; vy t; vz t; vx u; vy u; vz u]).
    assert (E : energy (3 * length b) 6 (points_jac q b) x = 0).
    { rewrite points_energy by exact U. transitivity (lsum (fun _ : vec3 => 0) b); [|rewrite lsum_const; ring]. apply lsum_ext. intros d Hd.
      replace (velocity q x d) with v3zero; [unfold sq3, dot3; cbn; ring|]. unfold velocity, x. unfold vlist. cbn [nth].
      replace (V3 (vx t) (vy t) (vz t)) with t by (destruct t; reflexivity). replace (V3 (vx u) (vy u) (vz u)) with u by (destruct u; reflexivity). unfold t.
      replace (cross3 u d) with (v3add (cross3 u a) (cross3 u (v3sub d a))).
      - rewrite Hu by exact Hd. replace (v3add (cross3 u a) v3zero) with (cross3 u a) by (apply v3_ext; cbn; ring). set (w := qrot _ _). apply v3_ext; cbn; ring.
      - destruct u as [u0 u1 u2], a as [a0 a1 a2], d as [d0 d1 d2]. apply v3_ext; cbn; ring. }
    apply Nu. assert (X := H x E). assert (X3 := X 3%nat ltac:(lia)). assert (X4 := X 4%nat ltac:(lia)). assert (X5 := X 5%nat ltac:(lia)). unfold x, vlist in X3, X4, X5. cbn [nth] in *.
    apply v3_ext; assumption.
Qed.
Print Assumptions points_observable.

(** * C148: the covariance *)
Lemma covariance_parts gesvd a p b C : pose_covariance gesvd a p b = Some C ->
  exists err, (2 <= length b)%nat /\ pose_residual p a b = Some err /\ back_identity gesvd (3 * length b) 6 err (points_jac (rot p) b) = Some C.
Proof.
  unfold pose_covariance. destruct (Nat.ltb_spec (3 * length b) 6) as [|G]; [discriminate|]. destruct (pose_residual p a b) as [err|]; [|discriminate].
  intros E. exists err. repeat split; [lia|exact E].
Qed.
(** with a well conditioned Jacobian: the residual times the inverse of J^T J, always symmetric and positive
    semidefinite *)
Theorem pose_covariance_inverse gesvd a p b err : length a = length b -> pose_residual p a b = Some err -> (2 <= length b)%nat ->
  let m := (3 * length b)%nat in let J := points_jac (rot p) b in
  gesvd_ok m 6 J (gesvd m 6%nat J) -> well_conditioned m 6 J ->
  exists C, pose_covariance gesvd a p b = Some C /\ inverse_times 6 err (information m (fun _ => 1) J) C /\
    (forall i j, C i j = C j i) /\ forall x, 0 <= vdot 6 x (mvec 6 C x).
Proof.
  intros L ER H2 m J HG HW. destruct (residual_underestimates p a b err L ER) as [E0 _].
  destruct (back_identity_inverse gesvd m 6 err J HG HW E0) as (C & EB & I). exists C. split.
  - unfold pose_covariance. rewrite (proj2 (Nat.ltb_ge _ _)) by lia. rewrite ER. exact EB.
  - split; [exact I|]. exact (back_identity_covariance _ _ _ _ _ _ EB).
Qed.
Print Assumptions pose_covariance_inverse.
(** with the origin in the centre of the points, the errors of translation and rotation are independent and each
    coordinate of the translation has the n-th part of the residual as its variance *)
Lemma information_block q b i j : unit q -> lsum vx b = 0 -> lsum vy b = 0 -> lsum vz b = 0 -> (i < 3)%nat -> (j < 6)%nat ->
  information (3 * length b) (fun _ => 1) (points_jac q b) i j = INR (length b) * eye i j.
Proof.
  intros U Sx Sy Sz Hi Hj. unfold information. rewrite sum_triples.
  assert (J0 : (j < 3)%nat \/ exists k, (k < 3)%nat /\ j = (3 + k)%nat). { destruct (le_lt_dec 3 j); [right; exists (j - 3)%nat; lia|left; assumption]. }
  destruct J0 as [J3|(k & Hk & ->)].
  - rewrite (sum_ext _ _ (fun _ => eye i j)); [rewrite sum_const; ring|]. intros l _.
    replace (3 * l)%nat with (3 * l + 0)%nat at 1 2 by lia. rewrite !points_row by lia. unfold motion_jac.
    rewrite !(proj2 (Nat.ltb_lt _ 3)) by assumption. idx i Hi; idx j J3; unfold eye; cbn; ring.
  - rewrite (sum_ext _ _ (fun l => quat_error_jac (of3 (nth l b v3zero)) (vlist [qx q; qy q; qz q; qw q]) i k)).
    + assert (LIN : exists f0 f1 f2, forall v, quat_error_jac (of3 v) (vlist [qx q; qy q; qz q; qw q]) i k = f0 * vx v + f1 * vy v + f2 * vz v).
      { exists (quat_error_jac (of3 (V3 1 0 0)) (vlist [qx q; qy q; qz q; qw q]) i k), (quat_error_jac (of3 (V3 0 1 0)) (vlist [qx q; qy q; qz q; qw q]) i k), (quat_error_jac (of3 (V3 0 0 1)) (vlist [qx q; qy q; qz q; qw q]) i k).
        intros v. idx i Hi; idx k Hk; unfold quat_error_jac, mlist, vlist, of3; cbn [nth vx vy vz]; unfold vlist; cbn [nth vx vy vz]; ring. }
      destruct LIN as (f0 & f1 & f2 & LIN). rewrite (sum_ext _ _ (fun l => (fun v => f0 * vx v + f1 * vy v + f2 * vz v) (nth l b v3zero))) by (intros; apply LIN).
      rewrite (sum_nth (fun v => f0 * vx v + f1 * vy v + f2 * vz v)). transitivity (f0 * lsum vx b + f1 * lsum vy b + f2 * lsum vz b).
      * clear. induction b as [|v b IH]; unfold lsum in *; cbn [fold_right]; [ring|]. rewrite IH. ring.
      * rewrite Sx, Sy, Sz. unfold eye. rewrite (proj2 (Nat.eqb_neq _ _)) by lia. ring.
    + intros l _. replace (3 * l)%nat with (3 * l + 0)%nat at 1 2 by lia. rewrite !points_row by lia. unfold motion_jac.
      rewrite !(proj2 (Nat.ltb_lt _ 3)) by assumption. rewrite (proj2 (Nat.ltb_ge _ _)) by lia. replace (3 + k - 3)%nat with k by lia.
      idx i Hi; unfold eye; cbn [Nat.eqb]; ring.
Qed.
Theorem centred_covariance gesvd a p b err : rigid p -> length a = length b -> pose_residual p a b = Some err -> (2 <= length b)%nat ->
  lsum vx b = 0 -> lsum vy b = 0 -> lsum vz b = 0 ->
  let m := (3 * length b)%nat in let J := points_jac (rot p) b in
  gesvd_ok m 6 J (gesvd m 6%nat J) -> well_conditioned m 6 J ->
  exists C, pose_covariance gesvd a p b = Some C /\ forall i j, (i < 3)%nat -> (j < 6)%nat -> C i j = err / INR (length b) * eye i j.
Proof.
  intros U L ER H2 Sx Sy Sz m J HG HW. destruct (pose_covariance_inverse gesvd a p b err L ER H2 HG HW) as (C & EC & [_ I] & _). exists C. split; [exact EC|].
  intros i j Hi Hj. specialize (I i j ltac:(lia) Hj). unfold mmul in I.
  rewrite (sum_ext 6 _ (fun k => (INR (length b) * C k j) * eye i k)) in I.
  - rewrite (sum_eye 6 i (fun k => INR (length b) * C k j)) in I by lia. unfold mscale in I.
    assert (N : 0 < INR (length b)) by (apply lt_0_INR; lia). replace (C i j) with (INR (length b) * C i j / INR (length b)) by (field; lra). rewrite I. field. lra.
  - intros k Hk. fold m J. unfold m, J. rewrite information_block by assumption. ring.
Qed.
Print Assumptions centred_covariance.
(** changes of the pose that the points do not show get variance zero *)
Theorem unseen_is_certain_refuted gesvd a p b C x : rigid p -> pose_covariance gesvd a p b = Some C ->
  let m := (3 * length b)%nat in let J := points_jac (rot p) b in
  gesvd_ok m 6 J (gesvd m 6%nat J) -> energy m 6 J x = 0 -> vdot 6 x (mvec 6 C x) = 0.
Proof.
  intros U E m J HG HE. destruct (covariance_parts _ _ _ _ _ E) as (err & H2 & _ & EB). unfold back_identity in EB. fold m J in EB.
  destruct (gesvd m 6%nat J) as [s Vt]. destruct HG as [W F]. cbn [fst snd] in F.
  assert (S0 : 0 < s 0%nat).
  { assert (F' := F). destruct F' as (HA & _ & _ & _ & P & SD). assert (P0 := P 0%nat ltac:(lia)). destruct (Rle_lt_or_eq_dec _ _ P0) as [G|Z]; [exact G|exfalso].
    assert (A := HA 0%nat 0%nat ltac:(unfold m; lia) ltac:(lia)). rewrite sum_zero in A.
    - unfold J, points_jac, eye in A. cbn in A. lra.
    - intros k Hk. assert (s k = 0) as ->; [|ring]. assert (P1 := P k Hk). assert (P2 := SD 0%nat k ltac:(lia)). lra. }
  rewrite (full_svd_energy _ _ _ _ _ _ _ F) in HE.
  unfold from_svd in EB. cbn [fst snd] in EB. assert (L := limits_spec (s 0%nat) (sqrt err) s 6). destruct (limits _ _ _ _) as [v|]; [|discriminate]. injection EB. intros <-. clear EB E.
  assert (V : forall k, (k < 6)%nat -> v k * mvec 6 Vt x k = 0).
  { intros k Hk. assert (T := sum_nonneg_zero 6 _ (fun k _ => Rmult_le_pos _ _ (Rle_0_sqr (s k)) (Rle_0_sqr (mvec 6 Vt x k))) HE k Hk). unfold Rsqr in T.
    destruct (Req_dec (s k) 0) as [Z|N].
    - specialize (L k Hk). unfold limit in L. rewrite Z in L. destruct (Rlt_dec 0 (s 0%nat * / 100000000)) as [|N]; [injection L as <-; ring|lra].
    - apply Rmult_integral in T. destruct T as [T|T]; [exfalso; apply Rmult_integral in T; tauto|]. apply Rmult_integral in T. destruct T as [T|T]; rewrite T; ring. }
  transitivity (sum 6 (fun k => (v k * mvec 6 Vt x k) * (v k * mvec 6 Vt x k))).
  - unfold vdot. rewrite (sum_ext 6 (fun i => _ * mvec 6 _ x i) (fun i => sum 6 (fun j => sum 6 (fun k => (v k * Vt k i * x i) * (v k * Vt k j * x j))))).
    + rewrite (sum_ext 6 _ (fun i => sum 6 (fun k => sum 6 (fun j => (v k * Vt k i * x i) * (v k * Vt k j * x j))))) by (intros; apply sum_swap). rewrite sum_swap.
      apply sum_ext. intros k _.
      assert (EV : v k * mvec 6 Vt x k = sum 6 (fun i => v k * Vt k i * x i)) by (unfold mvec; rewrite <- sum_scal_l; apply sum_ext; intros; ring).
      rewrite EV, sum_product. reflexivity.
    + intros i _. unfold mvec at 1. rewrite <- sum_scal_l. apply sum_ext. intros j _. rewrite upper_product_spectral. unfold spectral.
      transitivity (sum 6 (fun k => v k * v k * (Vt k i * Vt k j)) * (x i * x j)); [ring|]. rewrite <- sum_scal_r. apply sum_ext. intros; ring.
  - apply sum_zero. intros k Hk. rewrite V by exact Hk. ring.
Qed.
Print Assumptions unseen_is_certain_refuted.
(** the factor is a length, not the square of one: in other units of length the result is another covariance *)
Lemma points_jac_scale q c b r j : (r < 3 * length b)%nat -> (j < 6)%nat ->
  points_jac q (map (v3scale c) b) r j = (if (j <? 3)%nat then 1 else c) * points_jac q b r j.
Proof.
  intros Hr Hj. unfold points_jac. destruct (j <? 3)%nat eqn:E; [ring|]. apply Nat.ltb_ge in E.
  replace v3zero with (v3scale c v3zero) at 1 by (apply v3_ext; cbn; ring). rewrite map_nth. set (v := nth _ b v3zero).
  destruct (row_split r) as [_ Hk]. set (k := (r mod 3)%nat) in *. clearbody k v. destruct v as [v0 v1 v2].
  assert (J0 : exists l, (l < 3)%nat /\ j = (3 + l)%nat) by (exists (j - 3)%nat; lia). destruct J0 as (l & Hl & ->). replace (3 + l - 3)%nat with l by lia.
  idx k Hk; idx l Hl; unfold quat_error_jac, mlist, vlist, of3, v3scale; cbn [nth vx vy vz]; unfold vlist; cbn [nth vx vy vz]; ring.
Qed.
Lemma residual_scale c p a b err : 0 < c -> pose_residual p a b = Some err ->
  pose_residual (pscale p c) (map (v3scale c) a) (map (v3scale c) b) = Some (c * err).
Proof.
  intros Hc. unfold pose_residual. rewrite map_length. destruct (length a =? 0)%nat; [discriminate|]. intros E. injection E as <-. f_equal.
  unfold Rdiv. rewrite <- Rmult_assoc. f_equal. revert b. induction a as [|u a IH]; intros [|v b]; unfold lsum in *; cbn [combine map fold_right]; try ring.
  rewrite IH. rewrite Rmult_plus_distr_l. f_equal. cbn [fst snd]. unfold point_error, norm3.
  transitivity (sqrt ((c * c) * dot3 (v3sub u (papp p v)) (v3sub u (papp p v)))).
  - f_equal. unfold papp, pscale. cbn [rot tra]. rewrite qrot_scale. set (w := qrot _ _). unfold dot3, v3sub, v3add, v3scale. cbn [vx vy vz]. ring.
  - rewrite sqrt_mult_alt by nra. rewrite sqrt_square by lra. reflexivity.
Qed.

Lemma inverse_scale c d err M C M' : c <> 0 -> (forall i, d i <> 0) -> inverse_times 6 err M C ->
  (forall i j, (i < 6)%nat -> (j < 6)%nat -> M' i j = d i * d j * M i j) ->
  inverse_times 6 (c * err) M' (fun i j => c * C i j / (d i * d j)).
Proof.
  intros Hc Hd [A B] HM. split; intros i j Hi Hj.
  - unfold mmul. rewrite (sum_ext 6 _ (fun k => c * d j / d i * (C i k * M k j))).
    + rewrite sum_scal_l. change (sum 6 (fun k => C i k * M k j)) with (mmul 6 C M i j). rewrite A by assumption. unfold mscale, eye.
      destruct (Nat.eqb_spec i j) as [->|N]; [field; apply Hd|field; apply Hd].
    + intros k Hk. rewrite HM by assumption. field. split; apply Hd.
  - unfold mmul. rewrite (sum_ext 6 _ (fun k => c * d i / d j * (M i k * C k j))).
    + rewrite sum_scal_l. change (sum 6 (fun k => M i k * C k j)) with (mmul 6 M C i j). rewrite B by assumption. unfold mscale, eye.
      destruct (Nat.eqb_spec i j) as [->|N]; [field; apply Hd|field; apply Hd].
    + intros k Hk. rewrite HM by assumption. field. split; apply Hd.
Qed.
Section Units.
Variables (gesvd : gesvd_o) (a : list vec3) (p : pose) (b : list vec3) (err c : R).
Let b' := map (v3scale c) b.
Let a' := map (v3scale c) a.
Let m := (3 * length b)%nat.
Hypotheses (L : length a = length b) (ER : pose_residual p a b = Some err) (Pos : 0 < err) (H2 : (2 <= length b)%nat) (Hc : 0 < c)
  (HG : gesvd_ok m 6 (points_jac (rot p) b) (gesvd m 6%nat (points_jac (rot p) b))) (HW : well_conditioned m 6 (points_jac (rot p) b))
  (HG' : gesvd_ok m 6 (points_jac (rot p) b') (gesvd m 6%nat (points_jac (rot p) b'))) (HW' : well_conditioned m 6 (points_jac (rot p) b')).
(** both results exist; the second is the c-th part of the first in the new units *)
Theorem covariance_units : exists C C', pose_covariance gesvd a p b = Some C /\ pose_covariance gesvd a' (pscale p c) b' = Some C' /\
  forall i j, (i < 6)%nat -> (j < 6)%nat -> C' i j = unit_of c i * unit_of c j * C i j / c.
Proof.
  destruct (pose_covariance_inverse gesvd a p b err L ER H2 HG HW) as (C & EC & I & _).
  assert (ML : length b' = length b) by apply map_length.
  destruct (pose_covariance_inverse gesvd a' (pscale p c) b' (c * err)) as (C' & EC' & I' & _).
  { unfold a', b'. rewrite !map_length. exact L. } { apply residual_scale; assumption. } { rewrite ML. exact H2. }
  { rewrite ML. exact HG'. } { rewrite ML. exact HW'. }
  exists C, C'. split; [exact EC|]. split; [exact EC'|]. cbn [rot pscale] in I'. rewrite ML in I'. fold m in I'.
  set (d := fun j : nat => if (j <? 3)%nat then 1 else c). assert (Hd : forall i, d i <> 0) by (intros i; unfold d; destruct (i <? 3)%nat; lra).
  assert (IS := inverse_scale c d err _ C (information m (fun _ => 1) (points_jac (rot p) b')) ltac:(lra) Hd I).
  intros i j Hi Hj. assert (E : meq 6 6 C' (fun i j => c * C i j / (d i * d j))).
  { apply (inverse_times_unique 6 (c * err) (information m (fun _ => 1) (points_jac (rot p) b'))); [nra|exact I'|]. apply IS. intros k l Hk Hl. unfold information. rewrite <- sum_scal_l.
    apply sum_ext. intros r Hr. unfold b'. rewrite !points_jac_scale by assumption. unfold d. ring. }
  rewrite (E i j Hi Hj). unfold d, unit_of. destruct (i <? 3)%nat, (j <? 3)%nat; field; lra.
Qed.
(** the same data in metres and in millimetres give different covariances *)
Theorem covariance_units_refuted : c <> 1 -> exists C C', pose_covariance gesvd a p b = Some C /\ pose_covariance gesvd a' (pscale p c) b' = Some C' /\
  ~ meq 6 6 C' (fun i j => unit_of c i * unit_of c j * C i j).
Proof.
  intros N1. destruct covariance_units as (C & C' & EC & EC' & E). exists C, C'. split; [exact EC|]. split; [exact EC'|]. intros EQ.
  destruct (pose_covariance_inverse gesvd a p b err L ER H2 HG HW) as (D & ED & [I _] & _). rewrite EC in ED. injection ED. intros <-.
  assert (Z : forall j, (j < 6)%nat -> C 0%nat j = 0).
  { intros j Hj. assert (A := E 0%nat j ltac:(lia) Hj). rewrite (EQ 0%nat j) in A by lia. set (s := unit_of c 0%nat * unit_of c j) in *.
    assert (S0 : s <> 0) by (unfold s, unit_of; destruct (j <? 3)%nat; cbn; nra).
    apply (f_equal (fun t => t * c)) in A. replace (s * C 0%nat j / c * c) with (s * C 0%nat j) in A by (field; lra).
    assert (A' : (s * (c - 1)) * C 0%nat j = 0) by lra. apply Rmult_integral in A'. destruct A' as [A'|A']; [apply Rmult_integral in A'; destruct A'; [contradiction|lra]|exact A']. }
  specialize (I 0%nat 0%nat ltac:(lia) ltac:(lia)). unfold mmul, mscale in I. rewrite sum_zero in I; [unfold eye in I; cbn in I; lra|]. intros k Hk. rewrite Z by exact Hk. ring.
Qed.
End Units.
Print Assumptions covariance_units_refuted.
(** undefined for fewer than two points *)
Theorem covariance_too_few gesvd a p b : (length b < 2)%nat -> pose_covariance gesvd a p b = None.
Proof. intros H. unfold pose_covariance. rewrite (proj2 (Nat.ltb_lt _ _)) by lia. reflexivity. Qed.

(** * Cases *)
Definition octahedron : list vec3 := [V3 1 0 0; V3 (-1) 0 0; V3 0 1 0; V3 0 (-1) 0; V3 0 0 1; V3 0 0 (-1)].
Lemma octahedron_energy c x : energy 18 6 (points_jac qone (map (v3scale c) octahedron)) x =
  6 * (x 0%nat * x 0%nat + x 1%nat * x 1%nat + x 2%nat * x 2%nat) + 16 * (c * c) * (x 3%nat * x 3%nat + x 4%nat * x 4%nat + x 5%nat * x 5%nat).
Proof.
  transitivity (lsum (fun v => sq3 (velocity qone x v)) (map (v3scale c) octahedron)); [exact (points_energy qone (map (v3scale c) octahedron) x ltac:(unfold unit, qnorm, qone; cbn; ring))|]. unfold lsum, octahedron. cbn [map fold_right]. unfold velocity. rewrite !qrot_one.
  unfold sq3, dot3, v3add, v3scale, cross3. cbn [vx vy vz]. ring.
Qed.
Lemma octahedron_conditioned c : 0 < c <= 1000 -> 1 <= c -> well_conditioned 18 6 (points_jac qone (map (v3scale c) octahedron)).
Proof.
  intros Hc H1. split; [lia|]. intros x y X Y. rewrite !octahedron_energy. unfold vdot in X, Y. cbn [sum] in X, Y.
  pose proof (Rle_0_sqr (x 0%nat)). pose proof (Rle_0_sqr (x 1%nat)). pose proof (Rle_0_sqr (x 2%nat)). pose proof (Rle_0_sqr (x 3%nat)). pose proof (Rle_0_sqr (x 4%nat)). pose proof (Rle_0_sqr (x 5%nat)).
  pose proof (Rle_0_sqr (y 0%nat)). pose proof (Rle_0_sqr (y 1%nat)). pose proof (Rle_0_sqr (y 2%nat)). pose proof (Rle_0_sqr (y 3%nat)). pose proof (Rle_0_sqr (y 4%nat)). pose proof (Rle_0_sqr (y 5%nat)).
  unfold Rsqr in *. set (xt := x 0%nat * x 0%nat + x 1%nat * x 1%nat + x 2%nat * x 2%nat). set (xr := x 3%nat * x 3%nat + x 4%nat * x 4%nat + x 5%nat * x 5%nat).
  set (yt := y 0%nat * y 0%nat + y 1%nat * y 1%nat + y 2%nat * y 2%nat). set (yr := y 3%nat * y 3%nat + y 4%nat * y 4%nat + y 5%nat * y 5%nat).
  assert (XS : xt + xr = 1) by (unfold xt, xr; lra). assert (YS : yt + yr = 1) by (unfold yt, yr; lra).
  assert (X0 : 0 <= xt) by (unfold xt; lra). assert (X1 : 0 <= xr) by (unfold xr; lra). assert (Y0 : 0 <= yt) by (unfold yt; lra). assert (Y1 : 0 <= yr) by (unfold yr; lra).
  assert (CC : 1 <= c * c <= 1000000) by nra. assert (A : 6 <= 6 * xt + 16 * (c * c) * xr) by nra. assert (B : 6 * yt + 16 * (c * c) * yr <= 16000000) by nra. lra.
Qed.
(** measured points twice as far from the origin: residual 1/3, each coordinate of the translation gets variance 1/18 *)
Example octahedron_covariance : exists gesvd C, pose_covariance gesvd (map (v3scale 2) octahedron) pone octahedron = Some C /\
  non_collinear octahedron /\ forall i, (i < 3)%nat -> C i i = / 18.
Proof.
  destruct (gesvd_exists 18 6 (points_jac qone octahedron)) as (sv & HG). exists (fun _ _ _ => sv).
  assert (R1 : pose_residual pone (map (v3scale 2) octahedron) octahedron = Some (/ 3)).
  { assert (PE : forall v, dot3 v v = 1 -> point_error pone (v3scale 2 v) v = 1).
    { intros v H. unfold point_error, papp, pone. cbn [rot tra]. rewrite qrot_one. unfold norm3. rewrite <- sqrt_1. f_equal. rewrite <- H. destruct v as [v0 v1 v2]. unfold dot3. cbn. ring. }
    unfold pose_residual, octahedron. cbn [length map Nat.eqb]. f_equal. unfold lsum. cbn [combine fold_right fst snd]. rewrite !PE by (unfold dot3; cbn; ring). cbn [INR]. field. }
  assert (EO : map (v3scale 1) octahedron = octahedron) by (unfold octahedron; cbn [map]; repeat f_equal; apply v3_ext; cbn; ring).
  destruct (centred_covariance (fun _ _ _ => sv) (map (v3scale 2) octahedron) pone octahedron (/ 3)) as (C & EC & D).
  - unfold rigid, unit, qnorm; cbn; ring.
  - apply map_length.
  - exact R1.
  - cbn; lia.
  - unfold lsum, octahedron; cbn; ring.
  - unfold lsum, octahedron; cbn; ring.
  - unfold lsum, octahedron; cbn; ring.
  - exact HG.
  - pose proof (octahedron_conditioned 1 ltac:(lra) ltac:(lra)) as W. rewrite EO in W. exact W.
  - exists C. split; [exact EC|]. split.
    + exists (V3 1 0 0), (V3 (-1) 0 0), (V3 0 1 0). repeat split; [cbn; tauto|cbn; tauto|cbn; tauto|]. intros E. injection E. unfold octahedron. cbn. lra.
    + intros i Hi. rewrite D by lia. unfold eye. rewrite Nat.eqb_refl. cbn [length octahedron INR]. field.
Qed.
(** 1000 times as many millimetres *)
Example octahedron_units : exists gesvd C C', pose_covariance gesvd (map (v3scale 2) octahedron) pone octahedron = Some C /\
  pose_covariance gesvd (map (v3scale 1000) (map (v3scale 2) octahedron)) (pscale pone 1000) (map (v3scale 1000) octahedron) = Some C' /\
  ~ meq 6 6 C' (fun i j => unit_of 1000 i * unit_of 1000 j * C i j).
Proof.
  assert (G : exists gesvd : gesvd_o, forall m n A, gesvd_ok m n A (gesvd m n A)).
  { exists (fun m n A => epsilon (inhabits (fun _ => 0, eye)) (gesvd_ok m n A)). intros m n A. apply epsilon_spec. apply gesvd_exists. }
  destruct G as (gesvd & HG). exists gesvd.
  assert (R1 : pose_residual pone (map (v3scale 2) octahedron) octahedron = Some (/ 3)).
  { assert (PE : forall v, dot3 v v = 1 -> point_error pone (v3scale 2 v) v = 1).
    { intros v H. unfold point_error, papp, pone. cbn [rot tra]. rewrite qrot_one. unfold norm3. rewrite <- sqrt_1. f_equal. rewrite <- H. destruct v as [v0 v1 v2]. unfold dot3. cbn. ring. }
    unfold pose_residual, octahedron. cbn [length map Nat.eqb]. f_equal. unfold lsum. cbn [combine fold_right fst snd]. rewrite !PE by (unfold dot3; cbn; ring). cbn [INR]. field. }
  assert (EO : map (v3scale 1) octahedron = octahedron) by (unfold octahedron; cbn [map]; repeat f_equal; apply v3_ext; cbn; ring).
  apply (covariance_units_refuted gesvd _ pone octahedron (/ 3) 1000).
  - apply map_length.
  - exact R1.
  - lra.
  - cbn; lia.
  - lra.
  - apply HG.
  - pose proof (octahedron_conditioned 1 ltac:(lra) ltac:(lra)) as W. rewrite EO in W. exact W.
  - apply HG.
  - exact (octahedron_conditioned 1000 ltac:(lra) ltac:(lra)).
  - lra.
Qed.
(** two points leave the rotation about the line through them open, but its variance is reported as zero *)
Example two_points_certain : exists gesvd C, pose_covariance gesvd [V3 2 0 0; V3 (-2) 0 0] pone [V3 1 0 0; V3 (-1) 0 0] = Some C /\ C 3%nat 3%nat = 0.
Proof.
  set (b := [V3 1 0 0; V3 (-1) 0 0]). destruct (gesvd_exists 6 6 (points_jac qone b)) as (sv & HG).
  assert (U : unit qone) by (unfold unit, qnorm; cbn; ring).
  set (g := fun (_ _ : nat) (_ : mat) => sv : vect * mat). destruct (pose_covariance g [V3 2 0 0; V3 (-2) 0 0] pone b) as [C|] eqn:E.
  - exists g, C. split; [exact E|]. set (x := vlist [0; 0; 0; 1; 0; 0]).
    pose proof (unseen_is_certain_refuted g _ pone b C x U E HG) as H. cbn [rot pone length b] in H. change (3 * 2)%nat with 6%nat in H.
    assert (EX : energy 6 6 (points_jac qone b) x = 0).
    { transitivity (lsum (fun v => sq3 (velocity qone x v)) b); [exact (points_energy qone b x U)|]. unfold lsum, b. cbn [fold_right]. unfold velocity. rewrite !qrot_one. unfold x, vlist. unfold sq3, dot3. cbn. ring. }
    specialize (H EX). revert H. unfold vdot, mvec, x, vlist. cbn [sum nth]. intros H. lra.
  - exfalso. unfold pose_covariance in E. cbn [length b] in E. change (3 * 2 <? 6)%nat with false in E. cbv iota in E. unfold pose_residual in E. cbn [length Nat.eqb] in E.
    change (3 * 2)%nat with 6%nat in E. change (rot pone) with qone in E.
    apply (proj1 (back_identity_undefined g 6 6 _ (points_jac qone b) ltac:(lia) HG)) with (i := 0%nat) (j := 0%nat) in E; [|lia|lia].
    unfold points_jac, eye in E. cbn in E. lra.
Qed.

(** Lemmas about AbsOrient.v. *)
From Coq Require Import Reals Lra Lia List Arith.
Import ListNotations.
From Verif Require Import Mat Quat QuatProofs AbsOrient.
Open Scope R_scope.

Lemma v3_ext a b : vx a = vx b -> vy a = vy b -> vz a = vz b -> a = b.
Proof. destruct a, b. cbn. intros. subst. reflexivity. Qed.

(** ** sums *)
Section Sums.
Context {A : Type}.
Implicit Types (f g : A -> R) (l : list A).
Lemma lsum_ext f g l : (forall x, In x l -> f x = g x) -> lsum f l = lsum g l.
Proof. induction l as [|x l IH]; intros H; [reflexivity|]. cbn. rewrite H by (left; reflexivity). f_equal. apply IH. intros. apply H. right; assumption. Qed.
Lemma lsum_plus f g l : lsum (fun x => f x + g x) l = lsum f l + lsum g l.
Proof. induction l as [|x l IH]; cbn; [ring|]. unfold lsum in *. rewrite IH. ring. Qed.
Lemma lsum_scale c f l : lsum (fun x => c * f x) l = c * lsum f l.
Proof. induction l as [|x l IH]; cbn; [ring|]. unfold lsum in *. rewrite IH. ring. Qed.
Lemma lsum_const c l : lsum (fun _ => c) l = INR (length l) * c.
Proof. induction l as [|x l IH]; cbn [length]; [cbn; ring|]. rewrite S_INR. cbn. unfold lsum in IH. rewrite IH. ring. Qed.
Lemma lsum_nonneg f l : (forall x, In x l -> 0 <= f x) -> 0 <= lsum f l.
Proof. induction l as [|x l IH]; intros H; cbn; [lra|]. assert (0 <= f x) by (apply H; left; reflexivity). assert (0 <= lsum f l) by (apply IH; intros; apply H; right; assumption). unfold lsum in *. lra. Qed.
Lemma lsum_zero f l : (forall x, In x l -> 0 <= f x) -> lsum f l = 0 -> forall x, In x l -> f x = 0.
Proof.
  induction l as [|y l IH]; intros H E x Hx; [destruct Hx|]. cbn in E.
  assert (0 <= f y) by (apply H; left; reflexivity).
  assert (0 <= lsum f l) by (apply lsum_nonneg; intros; apply H; right; assumption). unfold lsum in *.
  destruct Hx as [<-|Hx]; [lra|]. apply IH; [intros; apply H; right; assumption|lra|exact Hx].
Qed.
End Sums.
Lemma lsum_map {A B} (f : B -> R) (h : A -> B) l : lsum f (map h l) = lsum (fun x => f (h x)) l.
Proof. induction l as [|x l IH]; [reflexivity|]. cbn. unfold lsum in *. rewrite IH. reflexivity. Qed.
Lemma v3sum_comp l : v3sum l = V3 (lsum vx l) (lsum vy l) (lsum vz l).
Proof. induction l as [|x l IH]; [reflexivity|]. cbn. unfold lsum in *. unfold v3sum in IH. rewrite IH. reflexivity. Qed.

(** ** centroids *)
(** the deviations from the centroid add up to zero *)
Lemma centroid_zero l : l <> [] -> let c := centroid (length l) l in
  lsum (fun x => vx (v3sub x c)) l = 0 /\ lsum (fun x => vy (v3sub x c)) l = 0 /\ lsum (fun x => vz (v3sub x c)) l = 0.
Proof.
  intros N. cbv zeta. assert (P : INR (length l) <> 0) by (apply not_0_INR; destruct l; [congruence|discriminate]).
  unfold centroid. rewrite v3sum_comp. cbn [v3scale v3sub vx vy vz].
  assert (G : forall (f : vec3 -> R), lsum (fun x => f x - / INR (length l) * lsum f l) l = 0).
  { intros f. transitivity (lsum f l + lsum (fun _ => - (/ INR (length l) * lsum f l)) l).
    - rewrite <- lsum_plus. apply lsum_ext. intros. ring.
    - rewrite lsum_const. field. exact P. }
  repeat split; apply G.
Qed.

(** ** Horn's matrix *)
Definition quatv (q : quat) : vect := fun i => match i with 0 => qw q | 1 => qx q | 2 => qy q | 3 => qz q | _ => 0%R end%nat.
(** the vector part of q (0,v) conj q, for any quaternion *)
Definition qsand (q : quat) (v : vec3) : vec3 :=
  let r := qmul (qmul q (imag v)) (qconj q) in V3 (qx r) (qy r) (qz r).
Lemma qsand_rot q v : unit q -> qsand q v = qrot q v.
Proof.
  intros U. unfold qsand. rewrite <- qrot_conjugation by exact U. generalize (qrot q v). intros [a b c]. reflexivity.
Qed.
Lemma horn_m_cons lr ps lc rc i j : horn_m (lr :: ps) lc rc i j =
  v3nth (v3sub (snd lr) rc) i * v3nth (v3sub (fst lr) lc) j + horn_m ps lc rc i j.
Proof. reflexivity. Qed.
Lemma horn_quad ps lc rc q : quad 4 (horn_n (horn_m ps lc rc)) (quatv q) =
  lsum (fun lr => dot3 (v3sub (fst lr) lc) (qsand q (v3sub (snd lr) rc))) ps.
Proof.
  induction ps as [|[l r] ps IH].
  - unfold quad, vdot, mvec, horn_n, horn_m, quatv, mlist. cbn. ring.
  - cbn [lsum fold_right]. fold (lsum (fun lr => dot3 (v3sub (fst lr) lc) (qsand q (v3sub (snd lr) rc))) ps). rewrite <- IH. clear IH.
    unfold quad, vdot, mvec, horn_n. cbn [sum]. unfold mlist, quatv. cbn [List.nth].
    rewrite !horn_m_cons. cbn [fst snd]. set (a := v3sub l lc). set (b := v3sub r rc). set (m := horn_m ps lc rc).
    destruct a as [a1 a2 a3], b as [b1 b2 b3], q as [x y z w].
    unfold dot3, qsand, imag, qmul, qconj, v3nth. cbn [qx qy qz qw vx vy vz]. ring.
Qed.
(** squared distance after rotation *)
Definition sq3 (v : vec3) : R := dot3 v v.
Lemma sq3_nonneg v : 0 <= sq3 v.
Proof. unfold sq3, dot3. nra. Qed.
Lemma sq3_zero v : sq3 v = 0 -> v = v3zero.
Proof. unfold sq3, dot3. destruct v as [x y z]. cbn. intros H. unfold v3zero. f_equal; nra. Qed.
Lemma sq3_sub_rot a b q : unit q -> sq3 (v3sub a (qrot q b)) = sq3 a + sq3 b - 2 * dot3 a (qrot q b).
Proof.
  intros U. assert (H := qrot_dot q b b U). unfold sq3. rewrite <- H. destruct (qrot q b), a. unfold dot3. cbn. ring.
Qed.
Lemma lsum_combine_l {A} (f : vec3 -> R) (l1 : list vec3) (l2 : list A) : length l1 = length l2 ->
  lsum (fun lr => f (fst lr)) (combine l1 l2) = lsum f l1.
Proof.
  revert l2. induction l1 as [|x l1 IH]; intros [|y l2] L; try discriminate; [reflexivity|]. cbn in *. unfold lsum in *. rewrite IH by lia. reflexivity.
Qed.
Lemma lsum_combine_r {A} (f : vec3 -> R) (l1 : list A) (l2 : list vec3) : length l1 = length l2 ->
  lsum (fun lr => f (snd lr)) (combine l1 l2) = lsum f l2.
Proof.
  revert l2. induction l1 as [|x l1 IH]; intros [|y l2] L; try discriminate; [reflexivity|]. cbn in *. unfold lsum in *. rewrite IH by lia. reflexivity.
Qed.

(** ** the eigenvalue decomposition *)
(** ascending eigenvalues, orthonormal eigenvectors in the columns of v *)
Definition syev4_contract (N : mat) (w : vect) (v : mat) : Prop :=
  meq 4 4 N (fun i j => sum 4 (fun k => v i k * w k * v j k)) /\
  meq 4 4 (mmul 4 (tr v) v) eye /\ meq 4 4 (mmul 4 v (tr v)) eye /\
  (forall i j, (i <= j < 4)%nat -> w i <= w j).
Lemma syev4_quad N w v x : syev4_contract N w v ->
  quad 4 N x = sum 4 (fun k => w k * (mvec 4 (tr v) x k * mvec 4 (tr v) x k)) /\
  vdot 4 x x = sum 4 (fun k => mvec 4 (tr v) x k * mvec 4 (tr v) x k).
Proof.
  intros (E & _ & O & _). split.
  - rewrite (quad_ext 4 _ _ x E). unfold quad, vdot, mvec, tr. cbn [sum]. ring.
  - transitivity (quad 4 (mmul 4 v (tr v)) x).
    + rewrite (quad_ext 4 _ _ x O). unfold quad. apply vdot_ext; [intros ? ?; reflexivity|]. intros i Hi. symmetry. apply mvec_eye. exact Hi.
    + unfold quad, vdot, mvec, mmul, tr. cbn [sum]. ring.
Qed.
Lemma syev4_max N w v x : syev4_contract N w v -> quad 4 N x <= w 3%nat * vdot 4 x x.
Proof.
  intros C. destruct (syev4_quad N w v x C) as [-> ->]. destruct C as (_ & _ & _ & A).
  pose proof (A 0%nat 3%nat ltac:(lia)). pose proof (A 1%nat 3%nat ltac:(lia)). pose proof (A 2%nat 3%nat ltac:(lia)).
  cbn [sum]. set (a := mvec 4 (tr v) x 0%nat). set (b := mvec 4 (tr v) x 1%nat). set (c := mvec 4 (tr v) x 2%nat). set (d := mvec 4 (tr v) x 3%nat).
  pose proof (Rle_0_sqr a). pose proof (Rle_0_sqr b). pose proof (Rle_0_sqr c). unfold Rsqr in *.
  assert (w 0%nat * (a * a) <= w 3%nat * (a * a)) by (apply Rmult_le_compat_r; assumption).
  assert (w 1%nat * (b * b) <= w 3%nat * (b * b)) by (apply Rmult_le_compat_r; assumption).
  assert (w 2%nat * (c * c) <= w 3%nat * (c * c)) by (apply Rmult_le_compat_r; assumption). lra.
Qed.
Lemma syev4_last N w v : syev4_contract N w v ->
  vdot 4 (fun i => v i 3%nat) (fun i => v i 3%nat) = 1 /\ quad 4 N (fun i => v i 3%nat) = w 3%nat.
Proof.
  intros C. destruct (syev4_quad N w v (fun i => v i 3%nat) C) as [Q D]. destruct C as (_ & O & _ & _).
  assert (Y : forall k, (k < 4)%nat -> mvec 4 (tr v) (fun i => v i 3%nat) k = eye k 3%nat).
  { intros k Hk. rewrite <- (O k 3%nat Hk ltac:(lia)). reflexivity. }
  cbn [sum] in Q, D. rewrite !Y in Q, D by lia. unfold eye in Q, D. cbn [Nat.eqb] in Q, D. split; [rewrite D; ring|rewrite Q; ring].
Qed.
Lemma syev4_trace N w v : syev4_contract N w v -> sum 4 (fun i => N i i) = sum 4 w.
Proof.
  intros (E & O & _ & _). transitivity (sum 4 (fun k => w k * mmul 4 (tr v) v k k)).
  - transitivity (sum 4 (fun i => sum 4 (fun k => v i k * w k * v i k))); [apply sum_ext; intros i Hi; apply E; exact Hi|].
    unfold mmul, tr. cbn [sum]. ring.
  - apply sum_ext. intros k Hk. rewrite (O k k Hk Hk). unfold eye. rewrite Nat.eqb_refl. ring.
Qed.

(** Lemmas about the orthogonal iteration. *)
From Coq Require Import Reals List Arith Bool Lra Lia Psatz.
Import ListNotations.
From Verif Require Import Mat Quat QuatProofs AbsOrient AbsOrientProofs AbsOrientProps OrthoIter.
Open Scope R_scope.

Lemma zip_length {A B C} (f : A -> B -> C) l m : length l = length m -> length (zip_with f l m) = length l.
Proof. intros H. unfold zip_with. rewrite map_length, combine_length. lia. Qed.
Lemma combine_map_l {A B C} (f : A -> B) (l : list A) (m : list C) :
  combine (map f l) m = map (fun ab => (f (fst ab), snd ab)) (combine l m).
Proof. revert m. induction l as [|a l IH]; intros [|c m]; cbn; [reflexivity..|]. rewrite IH. reflexivity. Qed.
Lemma combine_map_r {A B C} (f : C -> B) (l : list A) (m : list C) :
  combine l (map f m) = map (fun ab => (fst ab, f (snd ab))) (combine l m).
Proof. revert m. induction l as [|a l IH]; intros [|c m]; cbn; [reflexivity..|]. rewrite IH. reflexivity. Qed.
Lemma combine_zip_l {A B C} (f : A -> B -> C) (l : list A) (m : list B) :
  combine (zip_with f l m) m = map (fun ab => (f (fst ab) (snd ab), snd ab)) (combine l m).
Proof. unfold zip_with. revert m. induction l as [|a l IH]; intros [|c m]; cbn; [reflexivity..|]. rewrite IH. reflexivity. Qed.
Lemma fold_lsum {A} (f : A -> R) l : fold_right Rplus 0 (map f l) = lsum f l.
Proof. induction l as [|x l IH]; cbn; [reflexivity|]. rewrite IH. reflexivity. Qed.
Lemma lsum_le {A} (f g : A -> R) l : (forall x, In x l -> f x <= g x) -> lsum f l <= lsum g l.
Proof.
  induction l as [|x l IH]; intros H; cbn; [lra|]. assert (f x <= g x) by (apply H; left; reflexivity).
  assert (lsum f l <= lsum g l) by (apply IH; intros; apply H; right; assumption). unfold lsum in *. lra.
Qed.
Lemma v3sum_map {A} (f : A -> vec3) l : v3sum (map f l) = V3 (lsum (fun a => vx (f a)) l) (lsum (fun a => vy (f a)) l) (lsum (fun a => vz (f a)) l).
Proof. rewrite v3sum_comp, !lsum_map. reflexivity. Qed.

(** ** The projection onto a line of sight *)
Definition onto (v y : vec3) : vec3 := v3scale (dot3 v y / dot3 v v) v.
Lemma los_onto v y : mv3 (los v) y = onto v y.
Proof. destruct v, y. unfold mv3, los, onto, v3scale, v3nth, dot3. cbn. apply v3_ext; cbn; unfold Rdiv; ring. Qed.
Lemma off_onto v y : mv3 (msub eye (los v)) y = v3sub y (onto v y).
Proof. destruct v, y. unfold mv3, msub, eye, los, onto, v3scale, v3sub, v3nth, dot3. cbn. apply v3_ext; cbn; unfold Rdiv; ring. Qed.

Lemma onto_linear v y z c : onto v (v3add y (v3scale c z)) = v3add (onto v y) (v3scale c (onto v z)).
Proof. destruct v, y, z. unfold onto, v3add, v3scale, dot3. cbn. apply v3_ext; cbn; unfold Rdiv; ring. Qed.
Lemma onto_add v y z : onto v (v3add y z) = v3add (onto v y) (onto v z).
Proof. destruct v, y, z. unfold onto, v3add, v3scale, dot3. cbn. apply v3_ext; cbn; unfold Rdiv; ring. Qed.
(** the remainder is orthogonal to the line *)
Lemma off_orth v y z : dot3 v v <> 0 -> dot3 (v3sub y (onto v y)) (onto v z) = 0.
Proof.
  intros H. unfold onto. generalize (dot3 v z / dot3 v v). intros c.
  transitivity (c * (dot3 y v - dot3 v y / dot3 v v * dot3 v v)).
  - destruct v, y. unfold v3sub, v3scale, dot3. cbn. ring.
  - replace (dot3 v y / dot3 v v * dot3 v v) with (dot3 v y) by (field; exact H). destruct v, y. unfold dot3. cbn. ring.
Qed.
(** and shorter than the distance to any other point of the line *)
Lemma off_least v y z : dot3 v v <> 0 -> sq3 (v3sub y (onto v y)) <= sq3 (v3sub y (onto v z)).
Proof.
  intros H. assert (O := off_orth v y (v3sub y z) H).
  assert (E : v3sub y (onto v z) = v3add (v3sub y (onto v y)) (onto v (v3sub y z))).
  { destruct v, y, z. unfold onto, v3add, v3sub, v3scale, dot3. cbn. apply v3_ext; cbn; unfold Rdiv; ring. }
  rewrite E. set (a := v3sub y (onto v y)) in *. set (b := onto v (v3sub y z)) in *.
  assert (S : sq3 (v3add a b) = sq3 a + 2 * dot3 a b + sq3 b) by (destruct a, b; unfold sq3, dot3, v3add; cbn; ring).
  rewrite S, O. pose proof (sq3_nonneg b). lra.
Qed.
Lemma off_sum v y d : dot3 v v <> 0 ->
  sq3 (v3sub (v3add y d) (onto v (v3add y d))) =
  sq3 (v3sub y (onto v y)) + 2 * dot3 d (v3sub y (onto v y)) + sq3 (v3sub d (onto v d)).
Proof.
  intros H. rewrite onto_add. assert (O := off_orth v y d H).
  set (a := v3sub y (onto v y)) in *.
  assert (E : v3sub (v3add y d) (v3add (onto v y) (onto v d)) = v3add a (v3sub d (onto v d))).
  { unfold a. apply v3_ext; cbn; ring. }
  rewrite E. set (b := onto v d) in *. clearbody a b. clear E.
  transitivity (sq3 a + 2 * dot3 a (v3sub d b) + sq3 (v3sub d b)); [destruct a, b, d; unfold sq3, dot3, v3add; cbn; ring|].
  replace (dot3 a (v3sub d b)) with (dot3 d a - dot3 a b) by (destruct a, b, d; unfold dot3; cbn; ring).
  rewrite O. ring.
Qed.

(** ** Rotation matrices as linear maps *)
Lemma mv3_qmat q x : unit q -> mv3 (qmat q) x = qrot q x.
Proof.
  destruct q as [a b c d], x as [x y z]. unfold unit, qnorm. cbn [qx qy qz qw]. intros U.
  assert (E : d * d = 1 - a * a - b * b - c * c) by lra.
  unfold mv3, qmat, qrot, mk33. cbn [vx vy vz qx qy qz qw Nat.eqb]. apply v3_ext; cbn [vx vy vz]; ring [E].
Qed.
Lemma mv3_add m x y : mv3 m (v3add x y) = v3add (mv3 m x) (mv3 m y).
Proof. unfold mv3. apply v3_ext; cbn; ring. Qed.
Lemma mv3_sum {A} m (f : A -> vec3) l : mv3 m (v3sum (map f l)) = v3sum (map (fun a => mv3 m (f a)) l).
Proof.
  induction l as [|x l IH]; [unfold mv3; apply v3_ext; cbn; ring|].
  cbn [map v3sum fold_right]. fold (v3sum (map f l)). rewrite mv3_add, IH. reflexivity.
Qed.

(** sum of all entries *)
Lemma centered_sum l : l <> [] -> v3sum (shift_to_center l) = v3zero.
Proof.
  intros N. unfold shift_to_center. rewrite v3sum_map. destruct (centroid_zero l N) as (A & B & C).
  cbv zeta in A, B, C. rewrite A, B, C. reflexivity.
Qed.
Lemma centered_centroid l : l <> [] -> forall n, centroid n (shift_to_center l) = v3zero.
Proof. intros N n. unfold centroid. rewrite centered_sum by exact N. unfold v3scale, v3zero. apply v3_ext; cbn; ring. Qed.

(** ** Translation *)
Lemma mv3_meq A B y : meq 3 3 A B -> mv3 A y = mv3 B y.
Proof. intros H. unfold mv3. rewrite !H by lia. reflexivity. Qed.
Lemma mv3_mmul A B y : mv3 (mmul 3 A B) y = mv3 A (mv3 B y).
Proof. unfold mv3, mmul. cbn [sum vx vy vz]. apply v3_ext; cbn [vx vy vz]; ring. Qed.
Lemma mv3_eye y : mv3 eye y = y.
Proof. unfold mv3, eye. apply v3_ext; cbn; ring. Qed.
Lemma mv3_scale c A y : mv3 (mscale c A) y = v3scale c (mv3 A y).
Proof. unfold mv3, mscale. apply v3_ext; cbn; ring. Qed.
Lemma mv3_msub A B y : mv3 (msub A B) y = v3sub (mv3 A y) (mv3 B y).
Proof. unfold mv3, msub. apply v3_ext; cbn; ring. Qed.
Lemma mv3_msum vs y : mv3 (msum vs) y = v3sum (map (fun v => mv3 v y) vs).
Proof.
  induction vs as [|v vs IH]; [unfold mv3, msum, mzero; apply v3_ext; cbn; ring|].
  cbn [map]. change (msum (v :: vs)) with (madd v (msum vs)). change (v3sum (mv3 v y :: map (fun v => mv3 v y) vs)) with (v3add (mv3 v y) (v3sum (map (fun v => mv3 v y) vs))). rewrite <- IH. unfold mv3, madd. apply v3_ext; cbn [vx vy vz v3add]; ring.
Qed.
Lemma v3scale_scale a b x : v3scale a (v3scale b x) = v3scale (a * b) x.
Proof. apply v3_ext; cbn; ring. Qed.

Section Error.
Variable images : list (R * R).
Variable object : list vec3.
Hypothesis Hlen : length images = length object.
Hypothesis Hne : object <> [].

Notation hom := (homogeneous images).
Notation X := (p3d object).
Let L := combine hom X.
Let n := length images.

Definition gap (v y : vec3) : R := sq3 (v3sub y (onto v y)).

Lemma p3d_length : length X = n.
Proof. unfold p3d, shift_to_center. rewrite map_length. symmetry. exact Hlen. Qed.
Lemma hom_length : length hom = n.
Proof. unfold homogeneous. rewrite map_length. reflexivity. Qed.
Lemma L_length : length L = n.
Proof. unfold L. rewrite combine_length, hom_length, p3d_length. apply Nat.min_id. Qed.
Lemma n_pos : 0 < INR n.
Proof. apply lt_0_INR. unfold n. rewrite Hlen. destruct object; [congruence|cbn; lia]. Qed.
Lemma p3d_ne : X <> [].
Proof. intros E. pose proof p3d_length as P. rewrite E in P. pose proof n_pos as Q. rewrite <- P in Q. cbn in Q. lra. Qed.
Lemma hom_sees v : In v hom -> dot3 v v <> 0.
Proof.
  unfold homogeneous. rewrite in_map_iff. intros ((a & b) & <- & _). unfold dot3. cbn [vx vy vz fst snd].
  pose proof (Rle_0_sqr a) as A. pose proof (Rle_0_sqr b) as B. unfold Rsqr in *. lra.
Qed.
Lemma L_sees v x : In (v, x) L -> dot3 v v <> 0.
Proof. intros H. apply hom_sees. exact (in_combine_l _ _ _ _ H). Qed.

Lemma error_lsum (g : vec3 -> vec3) : total_error (sights images) (map g X) = lsum (fun vx => gap (fst vx) (g (snd vx))) L.
Proof.
  unfold total_error, sights, zip_with. rewrite combine_map_l, combine_map_r, !map_map, fold_lsum. apply lsum_ext.
  intros [v x] _. cbn [fst snd]. unfold object_space_error. rewrite off_onto. reflexivity.
Qed.
Lemma sum_X : forall r : mat, v3sum (map (fun vx => mv3 r (snd vx)) L) = v3zero.
Proof.
  intros r. rewrite <- (mv3_sum r (fun vx : vec3 * vec3 => snd vx) L).
  assert (E : map (fun vx : vec3 * vec3 => snd vx) L = X).
  { unfold L. pose proof (eq_trans hom_length (eq_sym p3d_length)) as Q. revert Q. generalize hom X. intros l m.
    revert m. induction l as [|a l IH]; intros [|b m] Q; cbn in *; try discriminate; [reflexivity|]. rewrite IH by lia. reflexivity. }
  rewrite E. unfold p3d. rewrite centered_sum by exact Hne. unfold mv3. apply v3_ext; cbn; ring.
Qed.
Lemma map_fst_L : map fst L = hom.
Proof.
  unfold L. pose proof (eq_trans hom_length (eq_sym p3d_length)) as Q. revert Q. generalize hom X. intros l m.
  revert m. induction l as [|a l IH]; intros [|b m] Q; cbn in *; try discriminate; [reflexivity|]. rewrite IH by lia. reflexivity.
Qed.

(** the matrix that is inverted *)
Definition spread_matrix : mat := msub eye (mscale (/ INR (length (sights images))) (msum (sights images))).
Definition translation (inv : mat -> mat) (r : mat) : vec3 := estimate_translation (sights images) r X (t_factor inv (sights images)).

Lemma translation_balances inv r : meq 3 3 (mmul 3 spread_matrix (inv spread_matrix)) eye ->
  v3sum (map (fun vx => let y := v3add (mv3 r (snd vx)) (translation inv r) in v3sub y (onto (fst vx) y)) L) = v3zero.
Proof.
  intros HI. set (t := translation inv r).
  set (b := v3sum (map (fun vx => onto (fst vx) (mv3 r (snd vx))) L)).
  assert (Ls : length (sights images) = n) by (unfold sights; rewrite map_length; apply hom_length).
  assert (Et : mv3 spread_matrix t = v3scale (/ INR n) b).
  { unfold t, translation, estimate_translation, t_factor. fold spread_matrix. rewrite mv3_scale, Ls.
    assert (EB : v3sum (zip_with mv3 (sights images) (map (mv3 r) X)) = b).
    { unfold b, zip_with, sights. rewrite combine_map_l, combine_map_r, !map_map. f_equal. apply map_ext. intros [v x]. cbn [fst snd]. apply los_onto. }
    rewrite EB.
    assert (SC : forall c m y, mv3 m (v3scale c y) = v3scale c (mv3 m y)) by (intros; unfold mv3; apply v3_ext; cbn; ring).
    rewrite SC, <- mv3_mmul, (mv3_meq _ _ _ HI), mv3_eye. reflexivity. }
  assert (ES : mv3 spread_matrix t = v3sub t (v3scale (/ INR n) (v3sum (map (fun vx => onto (fst vx) t) L)))).
  { unfold spread_matrix. rewrite mv3_msub, mv3_eye, mv3_scale, mv3_msum, Ls. unfold sights. rewrite map_map. f_equal. f_equal. f_equal.
    rewrite <- map_fst_L, map_map. apply map_ext. intros [v x]. apply los_onto. }
  rewrite ES in Et. clear ES. pose proof (sum_X r) as SX. unfold b in Et.
  rewrite v3sum_map in *. rewrite v3sum_map in Et. cbv zeta. cbn [v3sub v3add v3zero vx vy vz] in *.
  pose proof (f_equal vx SX) as X1. pose proof (f_equal vy SX) as X2. pose proof (f_equal vz SX) as X3.
  pose proof (f_equal vx Et) as T1. pose proof (f_equal vy Et) as T2. pose proof (f_equal vz Et) as T3.
  cbn [v3scale v3sub vx vy vz] in X1, X2, X3, T1, T2, T3. pose proof n_pos as Hn.
  assert (Go : forall (c : vec3 -> R) (a : vec3 * vec3), (forall y z, c (v3add y z) = c y + c z) ->
     c (onto (fst a) (v3add (mv3 r (snd a)) t)) = c (onto (fst a) (mv3 r (snd a))) + c (onto (fst a) t))
    by (intros c a Hc; rewrite onto_add; apply Hc).
  assert (F : forall (c : vec3 -> R), (forall y z, c (v3add y z) = c y + c z) ->
     lsum (fun a => c (mv3 r (snd a))) L = 0 ->
     c t - / INR n * lsum (fun a => c (onto (fst a) t)) L = / INR n * lsum (fun a => c (onto (fst a) (mv3 r (snd a)))) L ->
     lsum (fun a => c (mv3 r (snd a)) + c t - c (onto (fst a) (v3add (mv3 r (snd a)) t))) L = 0).
  { intros c Hc H1 H2.
    rewrite (lsum_ext _ (fun a => c (mv3 r (snd a)) + (c t + (-1 * c (onto (fst a) (mv3 r (snd a))) + -1 * c (onto (fst a) t)))))
      by (intros a _; rewrite (Go c a Hc); ring).
    rewrite !lsum_plus, !lsum_scale, lsum_const, L_length, H1.
    apply (Rmult_eq_compat_l (INR n)) in H2.
    replace (INR n * (c t - / INR n * lsum (fun a => c (onto (fst a) t)) L)) with (INR n * c t - lsum (fun a => c (onto (fst a) t)) L) in H2 by (field; lra).
    replace (INR n * (/ INR n * lsum (fun a => c (onto (fst a) (mv3 r (snd a)))) L)) with (lsum (fun a => c (onto (fst a) (mv3 r (snd a)))) L) in H2 by (field; lra).
    lra. }
  unfold v3zero. f_equal.
  - apply (F vx); [reflexivity|exact X1|exact T1].
  - apply (F vy); [reflexivity|exact X2|exact T2].
  - apply (F vz); [reflexivity|exact X3|exact T3].
Qed.

Lemma translation_least inv r t' : meq 3 3 (mmul 3 spread_matrix (inv spread_matrix)) eye ->
  total_error (sights images) (map (fun x => v3add (mv3 r x) (translation inv r)) X) <=
  total_error (sights images) (map (fun x => v3add (mv3 r x) t') X).
Proof.
  intros HI. rewrite !error_lsum. set (t := translation inv r) in *. set (d := v3sub t' t).
  pose proof (translation_balances inv r HI) as Z. fold t in Z. cbv zeta in Z.
  assert (E : lsum (fun vx => gap (fst vx) (v3add (mv3 r (snd vx)) t')) L =
    lsum (fun vx => gap (fst vx) (v3add (mv3 r (snd vx)) t)) L +
    (2 * lsum (fun vx => let y := v3add (mv3 r (snd vx)) t in dot3 d (v3sub y (onto (fst vx) y))) L +
     lsum (fun vx => gap (fst vx) d) L)).
  { rewrite <- lsum_scale, <- !lsum_plus. apply lsum_ext. intros [v x] Hin. cbn [fst snd]. cbv zeta.
    replace (v3add (mv3 r x) t') with (v3add (v3add (mv3 r x) t) d) by (unfold d; apply v3_ext; cbn; ring).
    unfold gap. rewrite off_sum by exact (L_sees v x Hin). ring. }
  rewrite E.
  assert (D : lsum (fun vx => let y := v3add (mv3 r (snd vx)) t in dot3 d (v3sub y (onto (fst vx) y))) L = 0).
  { rewrite v3sum_map in Z. pose proof (f_equal vx Z) as Z1. pose proof (f_equal vy Z) as Z2. pose proof (f_equal vz Z) as Z3.
    cbn [vx vy vz v3zero] in Z1, Z2, Z3. unfold dot3. cbv zeta. rewrite !lsum_plus, !lsum_scale. rewrite Z1, Z2, Z3. ring. }
  rewrite D. pose proof (lsum_nonneg (fun vx => gap (fst vx) d) L (fun _ _ => sq3_nonneg _)). lra.
Qed.
End Error.

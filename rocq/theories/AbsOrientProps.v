(** Scale and absolute orientation from 3D-3D correspondences (C48, C49, C96, C97). *)
From Coq Require Import Reals Lra Lia List Arith.
Import ListNotations.
From Verif Require Import Mat Quat QuatProofs AbsOrient AbsOrientProofs.
Open Scope R_scope.

(** * C48: scale *)
Lemma similarity_centroid s q t right : right <> [] ->
  let f r := v3add (v3scale s (qrot q r)) t in
  centroid (length right) (map f right) = f (centroid (length right) right).
Proof.
  intros N. cbv zeta. assert (P : INR (length right) <> 0) by (apply not_0_INR; destruct right; [congruence|discriminate]).
  unfold centroid. set (n := / INR (length right)).
  assert (G : v3sum (map (fun r => v3add (v3scale s (qrot q r)) t) right) =
    v3add (v3scale s (qrot q (v3sum right))) (v3scale (INR (length right)) t)).
  { clear N P n. induction right as [|r l IH].
    - unfold qrot. cbn. apply v3_ext; cbn; ring.
    - cbn [map v3sum fold_right length]. fold (v3sum l). fold (v3sum (map (fun r => v3add (v3scale s (qrot q r)) t) l)). rewrite IH, S_INR, qrot_add.
      apply v3_ext; cbn [v3add v3scale vx vy vz]; ring. }
  rewrite G, qrot_scale. apply v3_ext; cbn [v3add v3scale vx vy vz]; unfold n; field; exact P.
Qed.
Lemma spread_similarity s q t right c : unit q ->
  let f r := v3add (v3scale s (qrot q r)) t in
  spread (f c) (map f right) = s * s * spread c right.
Proof.
  intros U. cbv zeta. unfold spread. rewrite lsum_map, <- lsum_scale. apply lsum_ext. intros r _.
  assert (E : v3sub (v3add (v3scale s (qrot q r)) t) (v3add (v3scale s (qrot q c)) t) = v3scale s (qrot q (v3sub r c))).
  { assert (D : qrot q (v3sub r c) = v3sub (qrot q r) (qrot q c)).
    { assert (SO : v3sub r c = v3add r (v3opp c)) by (apply v3_ext; cbn; ring). rewrite SO, qrot_add, qrot_opp. apply v3_ext; cbn [v3add v3opp v3sub vx vy vz]; ring. }
    rewrite D. apply v3_ext; cbn [v3add v3scale v3sub vx vy vz]; ring. }
  rewrite E. transitivity (s * s * dot3 (qrot q (v3sub r c)) (qrot q (v3sub r c))); [unfold dot3; cbn [v3scale vx vy vz]; ring|].
  rewrite qrot_dot by exact U. reflexivity.
Qed.
Lemma spread_nonneg c l : 0 <= spread c l.
Proof. apply lsum_nonneg. intros x _. apply (sq3_nonneg (v3sub x c)). Qed.
Lemma spread_zero c l : spread c l = 0 -> forall x, In x l -> x = c.
Proof.
  intros E x Hx. assert (H := lsum_zero _ _ (fun y _ => sq3_nonneg (v3sub y c)) E x Hx). apply sq3_zero in H.
  assert (A := f_equal vx H). assert (B := f_equal vy H). assert (C := f_equal vz H). cbn [v3sub v3zero vx vy vz] in A, B, C.
  apply v3_ext; lra.
Qed.
Theorem scale_recovers s q t right : 0 < s -> unit q -> (exists a b, In a right /\ In b right /\ a <> b) ->
  estimate_scale (map (fun r => v3add (v3scale s (qrot q r)) t) right) right = Some s.
Proof.
  intros S U (a & b & Ha & Hb & Nab). assert (N : right <> []) by (intros E; rewrite E in Ha; destruct Ha).
  unfold estimate_scale. rewrite map_length. rewrite (similarity_centroid s q t right N).
  unfold estimate_scale_about. rewrite spread_similarity by exact U. set (c := centroid (length right) right).
  destruct (Req_EM_T (spread c right) 0) as [Z|NZ].
  - exfalso. apply Nab. rewrite (spread_zero c right Z a Ha), (spread_zero c right Z b Hb). reflexivity.
  - f_equal. replace (s * s * spread c right / spread c right) with (s * s) by (field; exact NZ). apply sqrt_square. lra.
Qed.
(** coinciding points have no scale: division by zero *)
Theorem scale_undefined left right a : right <> [] -> length left = length right -> (forall x, In x right -> x = a) -> estimate_scale left right = None.
Proof.
  intros N L H. unfold estimate_scale, estimate_scale_about. rewrite L. set (c := centroid (length right) right).
  assert (P : INR (length right) <> 0) by (apply not_0_INR; destruct right; [congruence|discriminate]).
  assert (C : c = a).
  { unfold c, centroid. assert (G : v3sum right = v3scale (INR (length right)) a).
    { clear -H. induction right as [|x l IH]; [unfold v3sum; cbn; apply v3_ext; cbn; ring|]. cbn [v3sum fold_right length]. fold (v3sum l).
      rewrite IH by (intros; apply H; right; assumption). rewrite (H x) by (left; reflexivity). rewrite S_INR. apply v3_ext; cbn; ring. }
    rewrite G. apply v3_ext; cbn; field; exact P. }
  assert (Z : spread c right = 0).
  { unfold spread. transitivity (lsum (fun _ : vec3 => 0) right); [|rewrite lsum_const; ring]. apply lsum_ext. intros x Hx. rewrite C, (H x Hx). unfold dot3. cbn. ring. }
  rewrite Z. destruct (Req_EM_T 0 0); [reflexivity|congruence].
Qed.
(** the result only depends on the shapes: it is the ratio of the root mean square radii *)
Theorem scale_is_ratio left right v : estimate_scale left right = Some v -> length left = length right ->
  0 <= v /\ v * v * spread (centroid (length right) right) right = spread (centroid (length left) left) left.
Proof.
  unfold estimate_scale, estimate_scale_about. intros E L. rewrite L in *. destruct (Req_EM_T _ 0) as [|NZ]; [discriminate|].
  injection E as <-. split; [apply sqrt_pos|]. pose proof (spread_nonneg (centroid (length right) left) left). pose proof (spread_nonneg (centroid (length right) right) right).
  rewrite sqrt_sqrt; [field; exact NZ|]. apply Rmult_le_pos; [assumption|]. left. apply Rinv_0_lt_compat. lra.
Qed.

(** * C49: Horn's matrix *)
Theorem horn_objective left right lc rc q :
  quad 4 (horn_n (horn_m (combine left right) lc rc)) (quatv q) =
  lsum (fun lr => dot3 (v3sub (fst lr) lc) (qsand q (v3sub (snd lr) rc))) (combine left right).
Proof. apply horn_quad. Qed.
(** what the non-unit quaternion does to a point: q p conj(q), a rotation scaled by |q|^2 *)
Theorem qsand_scaled_rotation q v c : unit q -> qsand (qscale c q) v = v3scale (c * c) (qrot q v).
Proof.
  intros U. rewrite <- (qsand_rot q v U). unfold qsand, imag. apply v3_ext; cbn; ring.
Qed.
(** sum of squared distances *)
Definition cost (p : pose) (left right : list vec3) : R := lsum (fun lr => sq3 (v3sub (fst lr) (papp p (snd lr)))) (combine left right).
Definition rotation_cost (q : quat) (lc rc : vec3) (left right : list vec3) : R :=
  lsum (fun lr => sq3 (v3sub (v3sub (fst lr) lc) (qrot q (v3sub (snd lr) rc)))) (combine left right).
Theorem rotation_cost_quadratic q lc rc left right : unit q -> length left = length right ->
  rotation_cost q lc rc left right = spread lc left + spread rc right - 2 * quad 4 (horn_n (horn_m (combine left right) lc rc)) (quatv q).
Proof.
  intros U L. unfold rotation_cost. rewrite horn_objective.
  rewrite (lsum_ext _ (fun lr => (sq3 (v3sub (fst lr) lc) + sq3 (v3sub (snd lr) rc)) + (-2) * dot3 (v3sub (fst lr) lc) (qsand q (v3sub (snd lr) rc)))).
  - rewrite lsum_plus, lsum_plus, lsum_scale, (lsum_combine_l (fun x => sq3 (v3sub x lc))), (lsum_combine_r (fun x => sq3 (v3sub x rc))) by exact L.
    unfold spread, sq3. ring.
  - intros [l r] _. cbn [fst snd]. rewrite sq3_sub_rot, (qsand_rot q) by exact U. ring.
Qed.
(** a unit quaternion maximises the form exactly when its rotation has the least squared error *)
Theorem form_maximal_iff_rotation_optimal q lc rc left right : unit q -> length left = length right ->
  ((forall r, unit r -> quad 4 (horn_n (horn_m (combine left right) lc rc)) (quatv r) <= quad 4 (horn_n (horn_m (combine left right) lc rc)) (quatv q)) <->
   (forall r, unit r -> rotation_cost q lc rc left right <= rotation_cost r lc rc left right)).
Proof.
  intros U L. split; intros H r Ur; specialize (H r Ur); rewrite !rotation_cost_quadratic in * by assumption; lra.
Qed.

Definition horn_of (left right : list vec3) (lc rc : vec3) : mat := horn_n (horn_m (combine left right) lc rc).
Definition syev_correct (syev : syev4_oracle) (N : mat) : Prop := forall w v, syev N = Some (w, v) -> syev4_contract N w v.

(** the returned rotation is a unit quaternion with least squared error *)
Theorem rotation_optimal syev left right lc rc q : length left = length right ->
  syev_correct syev (horn_of left right lc rc) -> estimate_rotation syev left right lc rc = Some q ->
  unit q /\ forall r, unit r -> rotation_cost q lc rc left right <= rotation_cost r lc rc left right.
Proof.
  intros L SC. unfold estimate_rotation. fold (horn_of left right lc rc).
  destruct (syev (horn_of left right lc rc)) as [[w v]|] eqn:ES; [|discriminate]. specialize (SC w v ES).
  destruct (Rle_dec (w 3%nat) 0); [discriminate|]. intros E. injection E as <-.
  destruct (syev4_last _ _ _ SC) as [D Qv]. set (q := Q _ _ _ _).
  assert (U : unit q) by (unfold unit, qnorm, q; unfold vdot in D; cbn [sum] in D; cbn; lra).
  assert (QQ : quad 4 (horn_of left right lc rc) (quatv q) = w 3%nat).
  { rewrite <- Qv. unfold quad, vdot, mvec, quatv, q. cbn [sum qx qy qz qw]. reflexivity. }
  split; [exact U|]. apply form_maximal_iff_rotation_optimal; [exact U|exact L|]. intros r Ur. fold (horn_of left right lc rc). rewrite QQ.
  assert (H := syev4_max _ _ _ (quatv r) SC). assert (VR : vdot 4 (quatv r) (quatv r) = 1).
  { unfold unit, qnorm in Ur. unfold vdot, quatv. cbn [sum]. lra. }
  rewrite VR in H. lra.
Qed.

(** the squared error splits into the error of the rotation about the centroids and of the centroids *)
Lemma cost_split q t left right : length left = length right -> left <> [] ->
  let n := length left in let lc := centroid n left in let rc := centroid n right in
  cost (P q t) left right = rotation_cost q lc rc left right + INR n * sq3 (v3sub lc (v3add (qrot q rc) t)).
Proof.
  intros L N. cbv zeta. set (lc := centroid (length left) left). set (rc := centroid (length left) right).
  set (d := v3sub lc (v3add (qrot q rc) t)). unfold cost, rotation_cost.
  set (e := fun lr : vec3 * vec3 => v3sub (v3sub (fst lr) lc) (qrot q (v3sub (snd lr) rc))).
  assert (LIN : forall a b, qrot q (v3sub a b) = v3sub (qrot q a) (qrot q b)).
  { intros a b. assert (SO : v3sub a b = v3add a (v3opp b)) by (apply v3_ext; cbn; ring). rewrite SO, qrot_add, qrot_opp. apply v3_ext; cbn [v3add v3opp v3sub vx vy vz]; ring. }
  assert (E : forall lr, sq3 (v3sub (fst lr) (papp (P q t) (snd lr))) = sq3 (e lr) + (2 * dot3 (e lr) d + sq3 d)).
  { intros [l r]. unfold e, d. cbn [fst snd]. unfold papp. cbn [rot tra]. rewrite LIN. unfold sq3, dot3. destruct (qrot q r), (qrot q rc), l, lc, t. cbn. ring. }
  rewrite (lsum_ext _ (fun lr => sq3 (e lr) + (2 * dot3 (e lr) d + sq3 d))) by (intros; apply E).
  rewrite lsum_plus, lsum_plus, lsum_scale, lsum_const, combine_length, <- L, Nat.min_id.
  assert (Z : lsum (fun lr => dot3 (e lr) d) (combine left right) = 0).
  { assert (RN : right <> []) by (intros ->; destruct left; [congruence|discriminate]).
    assert (CL := centroid_zero left N). assert (CR := centroid_zero right RN). cbv zeta in CL, CR. rewrite <- L in CR. fold lc in CL. fold rc in CR.
    destruct CL as (L1 & L2 & L3). destruct CR as (R1 & R2 & R3).
    rewrite (lsum_ext _ (fun lr => (fun x => dot3 (v3sub x lc) d) (fst lr) + (fun x => -1 * dot3 (qrot q (v3sub x rc)) d) (snd lr))).
    - rewrite lsum_plus, (lsum_combine_l (fun x => dot3 (v3sub x lc) d)), (lsum_combine_r (fun x => -1 * dot3 (qrot q (v3sub x rc)) d)) by exact L.
      assert (A : lsum (fun x => dot3 (v3sub x lc) d) left = 0).
      { transitivity (vx d * lsum (fun x => vx (v3sub x lc)) left + vy d * lsum (fun x => vy (v3sub x lc)) left + vz d * lsum (fun x => vz (v3sub x lc)) left); [|rewrite L1, L2, L3; ring].
        rewrite <- !lsum_scale, <- !lsum_plus. apply lsum_ext. intros. unfold dot3. ring. }
      assert (B : lsum (fun x => -1 * dot3 (qrot q (v3sub x rc)) d) right = 0).
      { set (k := fun u => -1 * dot3 (qrot q u) d).
        transitivity (k (V3 1 0 0) * lsum (fun x => vx (v3sub x rc)) right + k (V3 0 1 0) * lsum (fun x => vy (v3sub x rc)) right + k (V3 0 0 1) * lsum (fun x => vz (v3sub x rc)) right); [|rewrite R1, R2, R3; ring].
        rewrite <- !lsum_scale, <- !lsum_plus. apply lsum_ext. intros x _. unfold k, qrot, dot3. cbn. ring. }
      rewrite A, B. ring.
    - intros [l r] _. unfold e. cbv beta. cbn [fst snd]. unfold dot3. cbn [v3sub vx vy vz]. set (R1x := vx (qrot _ _)). set (R1y := vy (qrot _ _)). set (R1z := vz (qrot _ _)). ring. }
  rewrite Z. change (lsum (fun lr => sq3 (v3sub (v3sub (fst lr) lc) (qrot q (v3sub (snd lr) rc)))) (combine left right)) with (lsum (fun lr => sq3 (e lr)) (combine left right)). ring.
Qed.
(** the returned pose is rigid and no rigid pose has a smaller sum of squared distances *)
Theorem pose_optimal syev left right p : length left = length right -> left <> [] ->
  syev_correct syev (horn_of left right (centroid (length left) left) (centroid (length left) right)) ->
  estimate_pose syev left right = Some p ->
  rigid p /\ forall p', rigid p' -> cost p left right <= cost p' left right.
Proof.
  intros L N SC. unfold estimate_pose. set (lc := centroid (length left) left) in *. set (rc := centroid (length left) right) in *.
  destruct (estimate_rotation syev left right lc rc) as [q|] eqn:E; [|discriminate]. intros EP. injection EP as <-.
  destruct (rotation_optimal syev left right lc rc q L SC E) as [U O]. split; [exact U|]. intros [q' t'] U'.
  rewrite !(cost_split _ _ left right L N). fold lc rc. specialize (O q' U').
  assert (Z : sq3 (v3sub lc (v3add (qrot q rc) (v3sub lc (qrot q rc)))) = 0).
  { unfold sq3, dot3. cbn [v3sub v3add vx vy vz]. ring. }
  rewrite Z. pose proof (sq3_nonneg (v3sub lc (v3add (qrot q' rc) t'))). pose proof (pos_INR (length left)).
  assert (0 <= INR (length left) * sq3 (v3sub lc (v3add (qrot q' rc) t'))) by (apply Rmult_le_pos; assumption). lra.
Qed.

(** ** when it fails *)
Theorem rotation_fails_iff syev left right lc rc w v : syev (horn_of left right lc rc) = Some (w, v) -> syev4_contract (horn_of left right lc rc) w v ->
  (estimate_rotation syev left right lc rc = None <->
   forall i j, (i < 3)%nat -> (j < 3)%nat -> horn_m (combine left right) lc rc i j = 0).
Proof.
  intros ES C. unfold estimate_rotation. fold (horn_of left right lc rc). rewrite ES.
  assert (TR := syev4_trace _ _ _ C). destruct (syev4_last _ _ _ C) as [D Qv]. assert (CC := C). destruct C as (E & _ & _ & A).
  assert (T0 : sum 4 (fun i => horn_of left right lc rc i i) = 0).
  { unfold horn_of, horn_n, mlist. cbn [sum List.nth]. ring. }
  rewrite T0 in TR. cbn [sum] in TR.
  pose proof (A 0%nat 1%nat ltac:(lia)). pose proof (A 1%nat 2%nat ltac:(lia)). pose proof (A 2%nat 3%nat ltac:(lia)).
  destruct (Rle_dec (w 3%nat) 0) as [W|W].
  - split; [|reflexivity]. intros _.
    assert (W0 : w 0%nat = 0) by lra. assert (W1 : w 1%nat = 0) by lra. assert (W2 : w 2%nat = 0) by lra. assert (W3 : w 3%nat = 0) by lra.
    assert (NZ : forall i j, (i < 4)%nat -> (j < 4)%nat -> horn_of left right lc rc i j = 0).
    { intros i j Hi Hj. rewrite (E i j Hi Hj). cbn [sum]. rewrite W0, W1, W2, W3. ring. }
    set (m := horn_m (combine left right) lc rc).
    assert (N00 := NZ 0%nat 0%nat ltac:(lia) ltac:(lia)). assert (N11 := NZ 1%nat 1%nat ltac:(lia) ltac:(lia)). assert (N22 := NZ 2%nat 2%nat ltac:(lia) ltac:(lia)). assert (N33 := NZ 3%nat 3%nat ltac:(lia) ltac:(lia)).
    assert (N01 := NZ 0%nat 1%nat ltac:(lia) ltac:(lia)). assert (N02 := NZ 0%nat 2%nat ltac:(lia) ltac:(lia)). assert (N03 := NZ 0%nat 3%nat ltac:(lia) ltac:(lia)).
    assert (N12 := NZ 1%nat 2%nat ltac:(lia) ltac:(lia)). assert (N13 := NZ 1%nat 3%nat ltac:(lia) ltac:(lia)). assert (N23 := NZ 2%nat 3%nat ltac:(lia) ltac:(lia)).
    unfold horn_of, horn_n, mlist in *. cbn [List.nth] in *. fold m in N00, N11, N22, N33, N01, N02, N03, N12, N13, N23.
    intros i j Hi Hj. idx i Hi; idx j Hj; lra.
  - split; [discriminate|]. intros Z. exfalso. apply W. rewrite <- Qv. right.
    unfold horn_of, horn_n, quad, vdot, mvec, mlist. cbn [sum List.nth]. rewrite !Z by lia. ring.
Qed.

(** * exact data *)
Definition non_collinear (l : list vec3) : Prop :=
  exists a b c, In a l /\ In b l /\ In c l /\ cross3 (v3sub b a) (v3sub c a) <> v3zero.
Lemma basis_expansion u v x : let n := cross3 u v in
  v3scale (dot3 n n) x = v3add (v3scale (dot3 x (cross3 v n)) u) (v3add (v3scale (dot3 x (cross3 n u)) v) (v3scale (dot3 x n) n)).
Proof. destruct u as [a b c], v as [d e f], x as [x y z]. unfold cross3, dot3. cbn. apply v3_ext; cbn; ring. Qed.
Lemma qrot_sub q a b : qrot q (v3sub a b) = v3sub (qrot q a) (qrot q b).
Proof. assert (SO : v3sub a b = v3add a (v3opp b)) by (apply v3_ext; cbn; ring). rewrite SO, qrot_add, qrot_opp. apply v3_ext; cbn [v3add v3opp v3sub vx vy vz]; ring. Qed.
Lemma motions_agree p p' l : rigid p -> rigid p' -> non_collinear l -> (forall x, In x l -> papp p x = papp p' x) -> forall x, papp p x = papp p' x.
Proof.
  intros U U' (a & b & c & Ha & Hb & Hc & NC) H.
  assert (D : forall x, In x l -> qrot (rot p) (v3sub x a) = qrot (rot p') (v3sub x a)).
  { intros x Hx. rewrite !qrot_sub. assert (E1 := H x Hx). assert (E2 := H a Ha). unfold papp in E1, E2.
    assert (A1 := f_equal vx E1). assert (A2 := f_equal vy E1). assert (A3 := f_equal vz E1).
    assert (B1 := f_equal vx E2). assert (B2 := f_equal vy E2). assert (B3 := f_equal vz E2).
    cbn [v3add vx vy vz] in A1, A2, A3, B1, B2, B3. apply v3_ext; cbn [v3sub vx vy vz]; lra. }
  set (u := v3sub b a) in *. set (v := v3sub c a) in *. set (n := cross3 u v) in *.
  assert (Du := D b Hb). assert (Dv := D c Hc). fold u in Du. fold v in Dv.
  assert (Dn : qrot (rot p) n = qrot (rot p') n) by (unfold n; rewrite !qrot_cross by assumption; rewrite Du, Dv; reflexivity).
  assert (NN : dot3 n n <> 0) by (intros Z; apply NC, sq3_zero, Z).
  assert (R : forall x, qrot (rot p) x = qrot (rot p') x).
  { intros x. assert (E := basis_expansion u v x). cbv zeta in E. fold n in E.
    assert (S : qrot (rot p) (v3scale (dot3 n n) x) = qrot (rot p') (v3scale (dot3 n n) x)).
    { rewrite E, !qrot_add, !qrot_scale, Du, Dv, Dn. reflexivity. }
    rewrite !qrot_scale in S. set (k := dot3 n n) in *.
    assert (A1 := f_equal vx S). assert (A2 := f_equal vy S). assert (A3 := f_equal vz S). cbn [v3scale vx vy vz] in A1, A2, A3.
    apply v3_ext; eapply Rmult_eq_reg_l; eassumption. }
  assert (T : tra p = tra p').
  { assert (E := H a Ha). unfold papp in E. rewrite R in E.
    assert (A1 := f_equal vx E). assert (A2 := f_equal vy E). assert (A3 := f_equal vz E). cbn [v3add vx vy vz] in A1, A2, A3. apply v3_ext; lra. }
  intros x. unfold papp. rewrite R, T. reflexivity.
Qed.
Lemma cost_exact p right : cost p (map (papp p) right) right = 0.
Proof.
  unfold cost. transitivity (lsum (fun _ : vec3 * vec3 => 0) (combine (map (papp p) right) right)); [|rewrite lsum_const; ring].
  apply lsum_ext. intros [l r] Hi. assert (E : l = papp p r).
  { clear -Hi. induction right as [|x t IH]; [destruct Hi|]. cbn in Hi. destruct Hi as [E|Hi]; [injection E as <- <-; reflexivity|apply IH, Hi]. }
  cbn [fst snd]. rewrite E. unfold sq3, dot3. cbn [v3sub vx vy vz]. ring.
Qed.
Lemma cost_zero p left right : length left = length right -> cost p left right = 0 -> left = map (papp p) right.
Proof.
  intros L Z. assert (H := lsum_zero _ _ (fun lr (_ : In lr (combine left right)) => sq3_nonneg (v3sub (fst lr) (papp p (snd lr)))) Z). clear Z.
  revert right L H. induction left as [|a l IH]; intros [|b r] L H; try discriminate; [reflexivity|]. cbn [map]. f_equal.
  - assert (E := H (a, b) (or_introl eq_refl)). cbn [fst snd] in E. apply sq3_zero in E.
    assert (A1 := f_equal vx E). assert (A2 := f_equal vy E). assert (A3 := f_equal vz E). cbn [v3sub v3zero vx vy vz] in A1, A2, A3. apply v3_ext; lra.
  - apply IH; [cbn in L; lia|]. intros x Hx. apply H. right. exact Hx.
Qed.
(** if the left points are the moved right points and these are not on a line, the motion is found *)
Theorem pose_exact syev p right w v : rigid p -> non_collinear right ->
  let left := map (papp p) right in
  let N := horn_of left right (centroid (length left) left) (centroid (length left) right) in
  syev N = Some (w, v) -> syev4_contract N w v ->
  exists p', estimate_pose syev left right = Some p' /\ rigid p' /\ forall x, papp p' x = papp p x.
Proof.
  intros R NC. cbv zeta. set (left := map (papp p) right). intros ES C.
  assert (L : length left = length right) by apply map_length.
  assert (RN : right <> []) by (intros E; destruct NC as (a & _ & _ & Ha & _); rewrite E in Ha; destruct Ha).
  assert (LN : left <> []) by (intros E; apply RN; destruct right; [reflexivity|discriminate]).
  set (lc := centroid (length left) left) in *. set (rc := centroid (length left) right) in *.
  assert (SC : syev_correct syev (horn_of left right lc rc)).
  { intros w' v' E'. rewrite ES in E'. assert (w = w') by congruence. assert (v = v') by congruence. subst. exact C. }
  destruct (estimate_pose syev left right) as [p'|] eqn:EP.
  - exists p'. split; [reflexivity|]. destruct (pose_optimal syev left right p' L LN SC EP) as [R' O]. split; [exact R'|].
    specialize (O p R). assert (CE : cost p left right = 0) by apply cost_exact. rewrite CE in O.
    assert (P0 : 0 <= cost p' left right) by (apply lsum_nonneg; intros; apply sq3_nonneg).
    assert (CZ := cost_zero p' left right L ltac:(lra)).
    intros x. apply (motions_agree p' p right R' R NC). intros y Hy.
    assert (M : map (papp p') right = map (papp p) right) by (rewrite <- CZ; reflexivity).
    clear -M Hy. induction right as [|z t IH]; [destruct Hy|]. cbn in M. assert (papp p' z = papp p z) by congruence. assert (map (papp p') t = map (papp p) t) by congruence.
    destruct Hy as [<-|Hy]; [assumption|apply IH; assumption].
  - exfalso. unfold estimate_pose in EP. fold lc rc in EP.
    destruct (estimate_rotation syev left right lc rc) eqn:ER; [discriminate|].
    assert (Z := proj1 (rotation_fails_iff syev left right lc rc w v ES C) ER).
    assert (ZQ : quad 4 (horn_of left right lc rc) (quatv (rot p)) = 0).
    { unfold horn_of, horn_n, quad, vdot, mvec, mlist. cbn [sum List.nth]. rewrite !Z by lia. ring. }
    assert (RC := rotation_cost_quadratic (rot p) lc rc left right R L). fold (horn_of left right lc rc) in RC. rewrite ZQ in RC.
    assert (CS := cost_split (rot p) (tra p) left right L LN). cbv zeta in CS. fold lc rc in CS.
    assert (PE : P (rot p) (tra p) = p) by (destruct p; reflexivity). rewrite PE in CS. rewrite (cost_exact p right : cost p left right = 0) in CS.
    pose proof (sq3_nonneg (v3sub lc (v3add (qrot (rot p) rc) (tra p)))). pose proof (pos_INR (length left)).
    assert (0 <= INR (length left) * sq3 (v3sub lc (v3add (qrot (rot p) rc) (tra p)))) by (apply Rmult_le_pos; assumption).
    assert (0 <= rotation_cost (rot p) lc rc left right) by (apply lsum_nonneg; intros; apply sq3_nonneg).
    pose proof (spread_nonneg lc left). pose proof (spread_nonneg rc right).
    assert (SZ : spread rc right = 0) by lra. destruct NC as (a & b & c & Ha & Hb & Hc & NC). apply NC.
    rewrite (spread_zero rc right SZ a Ha), (spread_zero rc right SZ b Hb), (spread_zero rc right SZ c Hc). unfold cross3, v3zero. apply v3_ext; cbn; ring.
Qed.
(** the old interface: the pose takes the left points to the right points *)
Theorem absolute_orientation_exact syev p left w v : rigid p -> non_collinear left ->
  let right := map (papp p) left in
  let N := horn_of right left (centroid (length right) right) (centroid (length right) left) in
  syev N = Some (w, v) -> syev4_contract N w v ->
  forall x, papp (calculate_absolute_orientation syev left right) x = papp p x.
Proof.
  intros R NC. cbv zeta. intros ES C x. destruct (pose_exact syev p left w v R NC ES C) as (p' & E & _ & A).
  unfold calculate_absolute_orientation. rewrite E. apply A.
Qed.
(** documented to throw when no eigenvalue is positive; it returns the identity *)
Theorem absolute_orientation_failure_refuted syev a n w v :
  let l := repeat a (S n) in
  let N := horn_of l l (centroid (length l) l) (centroid (length l) l) in
  syev N = Some (w, v) -> syev4_contract N w v ->
  w 3%nat <= 0 /\ calculate_absolute_orientation syev l l = pone.
Proof.
  cbv zeta. set (l := repeat a (S n)). intros ES C.
  assert (LL : length l = S n) by apply repeat_length.
  assert (CA : centroid (length l) l = a).
  { unfold centroid. rewrite LL. assert (G : v3sum l = v3scale (INR (S n)) a).
    { unfold l. generalize (S n). intros k. induction k as [|k IH]; [unfold v3sum; cbn; apply v3_ext; cbn; ring|].
      cbn [repeat v3sum fold_right]. fold (v3sum (repeat a k)). rewrite IH, S_INR. apply v3_ext; cbn [v3add v3scale vx vy vz]; ring. }
    rewrite G. assert (INR (S n) <> 0) by (apply not_0_INR; discriminate). apply v3_ext; cbn [v3scale vx vy vz]; field; assumption. }
  rewrite CA in *.
  assert (Z : forall i j, (i < 3)%nat -> (j < 3)%nat -> horn_m (combine l l) a a i j = 0).
  { intros i j _ _. unfold horn_m. transitivity (lsum (fun _ : vec3 * vec3 => 0) (combine l l)); [|rewrite lsum_const; ring].
    apply lsum_ext. intros [x y] Hi. assert (Hx := in_combine_l _ _ _ _ Hi). assert (Hy := in_combine_r _ _ _ _ Hi).
    apply repeat_spec in Hx. apply repeat_spec in Hy. subst x y. cbn [fst snd].
    assert (V : v3sub a a = v3zero) by (apply v3_ext; cbn; ring). rewrite V. unfold v3zero, v3nth. cbn. destruct i as [|[|]], j as [|[|]]; ring. }
  assert (F := proj2 (rotation_fails_iff syev l l a a w v ES C) Z). split.
  - unfold estimate_rotation in F. fold (horn_of l l a a) in F. rewrite ES in F. destruct (Rle_dec (w 3%nat) 0); [assumption|discriminate].
  - unfold calculate_absolute_orientation, estimate_pose. rewrite CA, F. reflexivity.
Qed.

(** * C96: the residual *)
Definition rms_distance (p : pose) (a b : list vec3) : R := sqrt (cost p a b / INR (length a)).
Lemma lsum_cauchy {A} (f : A -> R) l : lsum f l * lsum f l <= INR (length l) * lsum (fun x => f x * f x) l.
Proof.
  induction l as [|x l IH]; [cbn; lra|]. change (lsum f (x :: l)) with (f x + lsum f l). change (lsum (fun x => f x * f x) (x :: l)) with (f x * f x + lsum (fun x => f x * f x) l).
  change (length (x :: l)) with (S (length l)). rewrite S_INR. set (n := INR (length l)) in *. set (s := lsum f l) in *. set (q := lsum (fun x => f x * f x) l) in *.
  assert (N : 0 <= n) by apply pos_INR.
  destruct (Req_dec n 0) as [Z|NZ].
  - assert (SZ : s = 0) by (apply Rsqr_0_uniq; unfold Rsqr; rewrite Z in IH; pose proof (Rle_0_sqr s) as SS; unfold Rsqr in SS; lra). assert (Q : 0 <= q) by (apply lsum_nonneg; intros; nra). rewrite Z, SZ. nra.
  - assert (0 <= n * (f x - s / n) * (f x - s / n)).
    { rewrite Rmult_assoc. apply Rmult_le_pos; [exact N|apply Rle_0_sqr]. }
    assert (E : n * (f x - s / n) * (f x - s / n) = n * f x * f x - 2 * s * f x + s * s / n) by (field; exact NZ).
    assert (s * s / n <= q). { apply (Rmult_le_reg_l n); [lra|]. replace (n * (s * s / n)) with (s * s) by (field; exact NZ). exact IH. }
    nra.
Qed.
Lemma norm3_nonneg v : 0 <= norm3 v. Proof. apply sqrt_pos. Qed.
Lemma norm3_sq v : norm3 v * norm3 v = sq3 v.
Proof. unfold norm3. rewrite sqrt_sqrt; [reflexivity|apply sq3_nonneg]. Qed.
(** at most a third of the documented root-mean-square error *)
Theorem residual_underestimates p a b r : length a = length b -> pose_residual p a b = Some r -> 0 <= r /\ 3 * r <= rms_distance p a b.
Proof.
  intros L. unfold pose_residual. destruct (length a =? 0)%nat eqn:E0; [discriminate|]. apply Nat.eqb_neq in E0. intros E. injection E as <-.
  set (s := lsum _ _). assert (N : 0 < INR (length a)) by (apply lt_0_INR; lia).
  assert (S0 : 0 <= s) by (apply lsum_nonneg; intros; apply norm3_nonneg). split.
  - apply Rmult_le_pos; [exact S0|]. left. apply Rinv_0_lt_compat. lra.
  - replace (3 * (s / (3 * INR (length a)))) with (s / INR (length a)) by (field; lra).
    assert (P0 : 0 <= s / INR (length a)) by (apply Rmult_le_pos; [exact S0|left; apply Rinv_0_lt_compat, N]).
    unfold rms_distance. rewrite <- (sqrt_square (s / INR (length a)) P0). apply sqrt_le_1_alt.
    assert (C := lsum_cauchy (fun ab => point_error p (fst ab) (snd ab)) (combine a b)). fold s in C. rewrite combine_length, <- L, Nat.min_id in C.
    assert (CE : lsum (fun x => point_error p (fst x) (snd x) * point_error p (fst x) (snd x)) (combine a b) = cost p a b).
    { apply lsum_ext. intros. apply norm3_sq. }
    rewrite CE in C. apply (Rmult_le_reg_l (INR (length a) * INR (length a))); [nra|].
    replace (INR (length a) * INR (length a) * (s / INR (length a) * (s / INR (length a)))) with (s * s) by (field; lra).
    replace (INR (length a) * INR (length a) * (cost p a b / INR (length a))) with (INR (length a) * cost p a b) by (field; lra). exact C.
Qed.
(** zero exactly when the pose maps every point to its partner *)
Theorem residual_zero_iff p a b : a <> [] -> length a = length b -> (pose_residual p a b = Some 0 <-> a = map (papp p) b).
Proof.
  intros N L. unfold pose_residual. destruct (length a =? 0)%nat eqn:E0; [apply Nat.eqb_eq in E0; destruct a; [congruence|discriminate]|]. apply Nat.eqb_neq in E0.
  assert (P : 0 < INR (length a)) by (apply lt_0_INR; lia). split.
  - intros E. assert (Z : lsum (fun ab => point_error p (fst ab) (snd ab)) (combine a b) / (3 * INR (length a)) = 0) by congruence.
    apply (cost_zero p a b L). unfold cost.
    assert (Z' : lsum (fun ab => point_error p (fst ab) (snd ab)) (combine a b) = 0).
    { set (s := lsum _ _) in *. replace s with (s / (3 * INR (length a)) * (3 * INR (length a))) by (field; lra). rewrite Z. ring. }
    assert (H := lsum_zero _ _ (fun ab (_ : In ab (combine a b)) => norm3_nonneg (v3sub (fst ab) (papp p (snd ab)))) Z').
    transitivity (lsum (fun _ : vec3 * vec3 => 0) (combine a b)); [|rewrite lsum_const; ring]. apply lsum_ext. intros x Hx. rewrite <- norm3_sq.
    specialize (H x Hx). cbv beta in H. rewrite H. ring.
  - intros ->. f_equal. assert (Z : lsum (fun ab => point_error p (fst ab) (snd ab)) (combine (map (papp p) b) b) = 0).
    { transitivity (lsum (fun _ : vec3 * vec3 => 0) (combine (map (papp p) b) b)); [|rewrite lsum_const; ring]. apply lsum_ext. intros x Hx.
      assert (H := lsum_zero _ _ (fun lr (_ : In lr (combine (map (papp p) b) b)) => sq3_nonneg (v3sub (fst lr) (papp p (snd lr)))) (cost_exact p b) x Hx). cbv beta in H.
      unfold point_error, norm3. change (sqrt (sq3 (v3sub (fst x) (papp p (snd x)))) = 0). rewrite H. apply sqrt_0. }
    rewrite Z. field. rewrite map_length in *. lra.
Qed.
Theorem residual_rms_refuted : exists p a b r, rigid p /\ pose_residual p a b = Some r /\
  r = 1 /\ rms_distance p a b = 3 /\ sqrt (cost p a b / (3 * INR (length a))) <> r.
Proof.
  exists pone, [V3 3 0 0], [V3 0 0 0], 1.
  assert (A : papp pone (V3 0 0 0) = V3 0 0 0) by (apply v3_ext; cbn; ring).
  assert (C : cost pone [V3 3 0 0] [V3 0 0 0] = 9) by (unfold cost, lsum; cbn [combine fold_right fst snd]; rewrite A; unfold sq3, dot3; cbn; ring).
  split; [unfold rigid, unit, qnorm; cbn; ring|]. split; [|split; [reflexivity|split]].
  - unfold pose_residual. cbn [length Nat.eqb]. f_equal. unfold lsum. cbn [combine fold_right fst snd]. unfold point_error. rewrite A. unfold norm3.
    replace (sqrt _) with 3; [cbn; field|]. symmetry. transitivity (sqrt (3 * 3)); [f_equal; cbn; ring|apply sqrt_square; lra].
  - unfold rms_distance. rewrite C. transitivity (sqrt (3 * 3)); [f_equal; cbn; field|apply sqrt_square; lra].
  - rewrite C. intros E. assert (F : sqrt (9 / (3 * INR (length [V3 3 0 0]))) * sqrt (9 / (3 * INR (length [V3 3 0 0]))) = 1) by (rewrite E; ring).
    rewrite sqrt_sqrt in F; [|cbn; lra]. cbn in F. lra.
Qed.

(** * a case meeting the hypotheses: half turn about z *)
Definition ao_right : list vec3 := [V3 1 0 0; V3 (-1) 0 0; V3 0 1 0; V3 0 (-1) 0].
Definition ao_pose : pose := P (Q 0 0 1 0) (V3 1 2 3).
Definition ao_syev : syev4_oracle := fun N => Some (vlist [N 0%nat 0%nat; N 1%nat 1%nat; N 2%nat 2%nat; N 3%nat 3%nat], eye).
Example ao_found : exists p', estimate_pose ao_syev (map (papp ao_pose) ao_right) ao_right = Some p' /\ rigid p' /\ forall x, papp p' x = papp ao_pose x.
Proof.
  set (l := map (papp ao_pose) ao_right).
  assert (CL : centroid 4 l = V3 1 2 3) by (unfold centroid, l, ao_right, ao_pose, papp, qrot; apply v3_ext; cbn; field).
  assert (CR : centroid 4 ao_right = V3 0 0 0) by (unfold centroid, ao_right; apply v3_ext; cbn; field).
  assert (N : forall i j, (i < 4)%nat -> (j < 4)%nat -> horn_of l ao_right (V3 1 2 3) (V3 0 0 0) i j = mlist [[-4; 0; 0; 0]; [0; 0; 0; 0]; [0; 0; 0; 0]; [0; 0; 0; 4]] i j).
  { intros i j Hi Hj. unfold horn_of, horn_n, horn_m, l, ao_right, ao_pose, papp, qrot, lsum, mlist, v3nth. idx i Hi; idx j Hj; cbn; ring. }
  refine (pose_exact ao_syev ao_pose ao_right _ _ _ _ eq_refl _).
  - unfold rigid, unit, qnorm; cbn; ring.
  - exists (V3 1 0 0), (V3 (-1) 0 0), (V3 0 1 0). unfold ao_right. cbn [In]. repeat split; auto. intros E. assert (F := f_equal vz E). cbn in F. lra.
  - fold l. change (length l) with 4%nat. rewrite CL, CR. unfold syev4_contract. split; [|split; [|split]].
    + intros i j Hi Hj. rewrite N by assumption. rewrite !N by lia. unfold eye, vlist, mlist. idx i Hi; idx j Hj; cbn; ring.
    + intros i j Hi Hj. unfold eye. idx i Hi; idx j Hj; cbn; ring.
    + intros i j Hi Hj. unfold eye. idx i Hi; idx j Hj; cbn; ring.
    + intros i j Hij. rewrite !N by lia. destruct Hij as [H1 H2]. unfold vlist, mlist. assert (Hi : (i < 4)%nat) by lia. idx i Hi; idx j H2; try (exfalso; lia); cbn; lra.
Qed.
Example scale_case : estimate_scale (map (fun r => v3add (v3scale 2 (qrot (Q 0 0 1 0) r)) (V3 5 5 5)) ao_right) ao_right = Some 2.
Proof.
  apply scale_recovers; [lra|unfold unit, qnorm; cbn; ring|]. exists (V3 1 0 0), (V3 0 1 0). unfold ao_right. cbn [In]. repeat split; auto.
  intros E. assert (F := f_equal vx E). cbn in F. lra.
Qed.
Example coinciding_case : calculate_absolute_orientation (fun _ => Some (fun _ => 0, eye)) (repeat (V3 1 2 3) 3) (repeat (V3 1 2 3) 3) = pone.
Proof.
  unfold calculate_absolute_orientation, estimate_pose, estimate_rotation. destruct (Rle_dec 0 0); [reflexivity|lra].
Qed.

Print Assumptions scale_recovers.
Print Assumptions scale_undefined.
Print Assumptions scale_is_ratio.
Print Assumptions horn_objective.
Print Assumptions rotation_optimal.
Print Assumptions pose_optimal.
Print Assumptions pose_exact.
Print Assumptions absolute_orientation_exact.
Print Assumptions absolute_orientation_failure_refuted.
Print Assumptions residual_underestimates.
Print Assumptions residual_rms_refuted.

(** C54, C70-C72: limits and intersections of conics, classification, quadrics, covariance.
    Properties of the model in Conic.v *)
From Coq Require Import Reals List Arith Bool Lia Lra Psatz.
Import ListNotations.
From Verif Require Import Mat Quat LinAlg LinAlgProofs LinAlgProps Conic ConicProofs ConicProps.
Open Scope R_scope.

(** ** C70: limits and intersections *)
Lemma sorted2_spec p q : let r := sorted2 p q in
  fst r <= snd r /\ ((fst r = p /\ snd r = q) \/ (fst r = q /\ snd r = p)).
Proof. unfold sorted2; destruct (Rlt_dec p q); cbn; lra. Qed.
Lemma sorted2_le p q : q <= p -> sorted2 p q = (q, p).
Proof. intro H. unfold sorted2. destruct (Rlt_dec p q); [lra|reflexivity]. Qed.
Lemma sorted2_ge p q : p <= q -> sorted2 p q = (p, q).
Proof. intro H. unfold sorted2. destruct (Rlt_dec p q); [reflexivity|]. replace q with p by lra. reflexivity. Qed.
Lemma poly_y k x y : 4 * ca k * poly k x y = (2 * ca k * x + cb k * y + cd k) ^ 2 -
  4 * ((cb k * cb k / 4 - ca k * cc k) * (y * y) + 2 * (cb k * cd k / 4 - ca k * ce k / 2) * y + (cd k * cd k / 4 - ca k * cf k)).
Proof. unfold poly. field. Qed.
Lemma poly_x k x y : 4 * cc k * poly k x y = (2 * cc k * y + cb k * x + ce k) ^ 2 -
  4 * ((cb k * cb k / 4 - ca k * cc k) * (x * x) + 2 * (cb k * ce k / 4 - cc k * cd k / 2) * x + (ce k * ce k / 4 - cc k * cf k)).
Proof. unfold poly. field. Qed.
(** the coordinate of every point of an ellipse lies between the limits, and both limits are attained *)
Definition is_range (P : R -> Prop) (lim : point2) : Prop :=
  (forall y, P y -> fst lim <= y <= snd lim) /\ P (fst lim) /\ P (snd lim).
Lemma root_values A B C r : A <> 0 -> r * r = B * B - A * C ->
  A * ((- B + r) / A * ((- B + r) / A)) + 2 * B * ((- B + r) / A) + C = 0 /\
  A * ((- B - r) / A * ((- B - r) / A)) + 2 * B * ((- B - r) / A) + C = 0.
Proof.
  intros N E. split.
  - transitivity ((r * r - (B * B - A * C)) / A); [field; exact N|rewrite E; field; exact N].
  - transitivity ((r * r - (B * B - A * C)) / A); [field; exact N|rewrite E; field; exact N].
Qed.
Theorem upper_lower_exact k lim : disc k < 0 -> upper_lower k = Some lim -> is_range (fun y => exists x, poly k x y = 0) lim.
Proof.
  intros Hd H. unfold upper_lower in H. destruct k as [a b c d e f]; cbn [ca cb cc cd ce cf] in *. unfold disc in Hd; cbn [ca cb cc] in Hd.
  set (A := b * b / 4 - a * c). set (B := b * d / 4 - a * e / 2). set (C := d * d / 4 - a * f).
  assert (HA : A < 0) by (unfold A; lra).
  match type of H with (if Rlt_dec ?g 0 then _ else _) = _ => assert (EG : g = 64 * (B * B - A * C)) by (unfold A, B, C; field);
    destruct (Rlt_dec g 0) as [|G]; [discriminate|]; rewrite EG in H; rewrite EG in G end.
  destruct (Req_EM_T _ 0) as [|N] in H; [discriminate|]. injection H as <-.
  set (r := sqrt (B * B - A * C)). assert (Pr : 0 <= r) by apply sqrt_pos.
  assert (Sr : r * r = B * B - A * C) by (apply sqrt_sqrt; lra).
  assert (ER : sqrt (64 * (B * B - A * C)) = 8 * r).
  { rewrite sqrt_mult by lra. replace 64 with (8 * 8) by ring. rewrite sqrt_square by lra. reflexivity. }
  rewrite ER.
  assert (L : 4 * (b * (1 / 2) * (b * (1 / 2)) - a * c) * 2 = 8 * A) by (unfold A; field).
  assert (M : 8 * (b * (1 / 2) * (d * (1 / 2)) - a * (e * (1 / 2))) = 8 * B) by (unfold B; field).
  rewrite L, M.
  replace (- (8 * B / (8 * A) + 8 * r / (8 * A))) with ((- B - r) / A) by (field; lra).
  replace (- (8 * B / (8 * A) - 8 * r / (8 * A))) with ((- B + r) / A) by (field; lra).
  assert (O : (- B + r) / A <= (- B - r) / A).
  { assert (/ A < 0) by (apply Rinv_lt_0_compat, HA). unfold Rdiv. nra. }
  rewrite (sorted2_le _ _ O). cbn [fst snd].
  assert (Na : a <> 0) by (intro Z; rewrite Z in Hd; nra).
  assert (AT : forall y, A * (y * y) + 2 * B * y + C = 0 -> exists x, poly (Con a b c d e f) x y = 0).
  { intros y Hy. exists (- (b * y + d) / (2 * a)).
    assert (K := poly_y (Con a b c d e f) (- (b * y + d) / (2 * a)) y). cbn [ca cb cc cd ce cf] in K.
    fold A B C in K. rewrite Hy in K.
    assert (Z : 2 * a * (- (b * y + d) / (2 * a)) + b * y + d = 0) by (field; exact Na).
    rewrite Z in K. apply Rmult_eq_reg_l with (4 * a); [|lra]. rewrite K. ring. }
  destruct (root_values A B C r ltac:(lra) Sr) as [R1 R2].
  split; [|split]; [|apply AT; exact R1|apply AT; exact R2].
  intros y [x Hx]. apply (quadratic_between A B C y r HA Pr Sr).
  assert (K := poly_y (Con a b c d e f) x y). rewrite Hx in K. cbn [ca cb cc cd ce cf] in K. fold A B C in K.
  assert (S := pow2_ge_0 (2 * a * x + b * y + d)). lra.
Qed.
Theorem left_right_exact k lim : disc k < 0 -> left_right k = Some lim -> is_range (fun x => exists y, poly k x y = 0) lim.
Proof.
  intros Hd H. unfold left_right in H. destruct k as [a b c d e f]; cbn [ca cb cc cd ce cf] in *. unfold disc in Hd; cbn [ca cb cc] in Hd.
  set (A := b * b / 4 - a * c). set (B := b * e / 4 - c * d / 2). set (C := e * e / 4 - c * f).
  assert (HA : A < 0) by (unfold A; lra).
  destruct (Req_EM_T c 0) as [|Nc]; [discriminate|].
  match type of H with (if Rlt_dec ?g 0 then _ else _) = _ => 
    assert (EG : g * (c * c) = B * B - A * C) by (unfold A, B, C; field; exact Nc); set (g0 := g) in *;
    destruct (Rlt_dec g0 0) as [|G]; [discriminate|] end.
  destruct (Req_EM_T _ 0) as [|N] in H; [discriminate|]. injection H as <-.
  set (r := Rabs c * sqrt g0).
  assert (Pr : 0 <= r) by (apply Rmult_le_pos; [apply Rabs_pos|apply sqrt_pos]).
  assert (SG : sqrt g0 * sqrt g0 = g0) by (apply sqrt_sqrt; lra).
  assert (Sr : r * r = B * B - A * C).
  { unfold r. rewrite <- EG. transitivity ((Rabs c * Rabs c) * (sqrt g0 * sqrt g0)); [ring|].
    rewrite SG, <- Rabs_mult, Rabs_right by nra. ring. }
  assert (E1 : (b * (1 / 2) * (e * (1 / 2)) - c * (d * (1 / 2)) + c * sqrt g0) / (a * c - b * (1 / 2) * (b * (1 / 2))) = (- B - c * sqrt g0) / A).
  { unfold A, B. field. split; [lra|]. intro Z; apply N; lra. }
  assert (E2 : - (- (b * (1 / 2)) * (e * (1 / 2)) + c * (d * (1 / 2)) + c * sqrt g0) / (a * c - b * (1 / 2) * (b * (1 / 2))) = (- B + c * sqrt g0) / A).
  { unfold A, B. field. split; [lra|]. intro Z; apply N; lra. }
  rewrite E1, E2.
  assert (O : (- B + r) / A <= (- B - r) / A).
  { assert (/ A < 0) by (apply Rinv_lt_0_compat, HA). unfold Rdiv. nra. }
  assert (ST : sorted2 ((- B - c * sqrt g0) / A) ((- B + c * sqrt g0) / A) = ((- B + r) / A, (- B - r) / A)).
  { unfold r, Rabs in *. destruct (Rcase_abs c).
    - replace (- B - c * sqrt g0) with (- B + - c * sqrt g0) by ring. replace (- B + c * sqrt g0) with (- B - - c * sqrt g0) by ring.
      apply sorted2_ge. exact O.
    - apply sorted2_le. exact O. }
  rewrite ST. cbn [fst snd].
  assert (AT : forall x, A * (x * x) + 2 * B * x + C = 0 -> exists y, poly (Con a b c d e f) x y = 0).
  { intros x Hx. exists (- (b * x + e) / (2 * c)).
    assert (K := poly_x (Con a b c d e f) x (- (b * x + e) / (2 * c))). cbn [ca cb cc cd ce cf] in K.
    fold A B C in K. rewrite Hx in K.
    assert (Z : 2 * c * (- (b * x + e) / (2 * c)) + b * x + e = 0) by (field; exact Nc).
    rewrite Z in K. apply Rmult_eq_reg_l with (4 * c); [|lra]. rewrite K. ring. }
  destruct (root_values A B C r ltac:(lra) Sr) as [R1 R2].
  split; [|split]; [|apply AT; exact R1|apply AT; exact R2].
  intros x [y Hy]. apply (quadratic_between A B C x r HA Pr Sr).
  assert (K := poly_x (Con a b c d e f) x y). rewrite Hy in K. cbn [ca cb cc cd ce cf] in K. fold A B C in K.
  assert (S := pow2_ge_0 (2 * c * y + b * x + e)). lra.
Qed.
(** the limits exist as soon as the ellipse has a point *)
Theorem limits_defined k x y : disc k < 0 -> poly k x y = 0 ->
  (exists l, upper_lower k = Some l) /\ (exists l, left_right k = Some l).
Proof.
  intros Hd Hp. destruct k as [a b c d e f]. unfold disc in Hd; cbn [ca cb cc] in Hd.
  assert (Na : a <> 0) by (intro Z; rewrite Z in Hd; nra). assert (Nc : c <> 0) by (intro Z; rewrite Z in Hd; nra).
  assert (Q : forall A B C z, A < 0 -> 0 <= A * (z * z) + 2 * B * z + C -> 0 <= B * B - A * C).
  { intros A B C z HA Hz. assert (A * (A * (z * z) + 2 * B * z + C) <= 0) by nra. assert (S := Rle_0_sqr (A * z + B)). unfold Rsqr in S. nra. }
  split.
  - assert (K := poly_y (Con a b c d e f) x y). rewrite Hp in K. cbn [ca cb cc cd ce cf] in K.
    assert (S := pow2_ge_0 (2 * a * x + b * y + d)).
    assert (G := Q (b * b / 4 - a * c) (b * d / 4 - a * e / 2) (d * d / 4 - a * f) y ltac:(lra) ltac:(lra)).
    unfold upper_lower; cbn [ca cb cc cd ce cf]. destruct (Rlt_dec _ 0) as [Z|]; [exfalso; lra|].
    destruct (Req_EM_T _ 0) as [Z|]; [exfalso; lra|]. eexists; reflexivity.
  - assert (K := poly_x (Con a b c d e f) x y). rewrite Hp in K. cbn [ca cb cc cd ce cf] in K.
    assert (S := pow2_ge_0 (2 * c * y + b * x + e)).
    assert (G := Q (b * b / 4 - a * c) (b * e / 4 - c * d / 2) (e * e / 4 - c * f) x ltac:(lra) ltac:(lra)).
    unfold left_right; cbn [ca cb cc cd ce cf]. destruct (Req_EM_T c 0); [contradiction|].
    match goal with |- context [Rlt_dec ?g 0] => assert (EG : g = ((b * e / 4 - c * d / 2) * (b * e / 4 - c * d / 2)
      - (b * b / 4 - a * c) * (e * e / 4 - c * f)) * / (c * c)) by (field; exact Nc); destruct (Rlt_dec g 0) as [Z|] end.
    + exfalso. rewrite EG in Z. assert (0 < / (c * c)) by (apply Rinv_0_lt_compat; nra).
      assert (0 <= ((b * e / 4 - c * d / 2) * (b * e / 4 - c * d / 2)
      - (b * b / 4 - a * c) * (e * e / 4 - c * f)) * / (c * c)) by (apply Rmult_le_pos; lra). lra.
    + destruct (Req_EM_T _ 0) as [Z|]; [exfalso; lra|]. eexists; reflexivity.
Qed.
Theorem horizontal_intersection_exact k y : ca k <> 0 ->
  match horizontal_intersection k y with
  | Some (x1, x2) => x1 <= x2 /\ forall x, poly k x y = 0 <-> (x = x1 \/ x = x2)
  | None => forall x, poly k x y <> 0
  end.
Proof.
  intro Na. unfold horizontal_intersection. destruct k as [a b c d e f]; cbn [ca cb cc cd ce cf] in *.
  set (B := b * (1/2) * y + d * (1/2)). set (C := (c * y + e) * y + f).
  assert (E : forall x, a * poly (Con a b c d e f) x y = (a * x + B) * (a * x + B) - (B * B - a * C)).
  { intro x. unfold poly, B, C; cbn [ca cb cc cd ce cf]. field. }
  destruct (Rlt_dec (B * B - a * C) 0) as [L|G].
  - intros x Z. specialize (E x). rewrite Z in E. assert (S := Rle_0_sqr (a * x + B)). unfold Rsqr in S. lra.
  - destruct (Req_EM_T a 0); [contradiction|].
    set (r := sqrt (B * B - a * C)). assert (Sr : r * r = B * B - a * C) by (apply sqrt_sqrt; lra).
    assert (F : forall x, poly (Con a b c d e f) x y = 0 <-> (x = (- B + r) / a \/ x = (- B - r) / a)).
    { intro x. specialize (E x). rewrite <- Sr in E. split.
      - intro Z. rewrite Z in E. assert (P : (a * x + B - r) * (a * x + B + r) = 0) by lra.
        apply Rmult_integral in P. destruct P as [P|P]; [left|right];
          apply Rmult_eq_reg_l with a; try exact Na; field_simplify; try exact Na; lra.
      - intro Z. apply Rmult_eq_reg_l with a; [|exact Na]. rewrite E.
        destruct Z as [Z|Z]; rewrite Z; field; exact Na. }
    assert (S := sorted2_spec ((- B + r) / a) ((- B - r) / a)). cbv zeta in S.
    destruct (sorted2 ((- B + r) / a) ((- B - r) / a)) as [x1 x2]. cbn [fst snd] in S.
    destruct S as [S1 S2]. split; [exact S1|]. intro x. rewrite F.
    destruct S2 as [[-> ->]|[-> ->]]; tauto.
Qed.
Example ex_limits : exists l, upper_lower (Con 1 0 4 0 0 (-4)) = Some l.
Proof. apply (limits_defined (Con 1 0 4 0 0 (-4)) 2 0); [unfold disc|unfold poly]; cbn [ca cb cc cd ce cf]; lra. Qed.
Print Assumptions upper_lower_exact. Print Assumptions left_right_exact. Print Assumptions limits_defined.
Print Assumptions horizontal_intersection_exact.

(** ** C71: classification *)
Definition times (l : R) (k : conic) : conic := Con (l * ca k) (l * cb k) (l * cc k) (l * cd k) (l * ce k) (l * cf k).
Lemma same_points l k x y : l <> 0 -> (poly (times l k) x y = 0 <-> poly k x y = 0).
Proof.
  intro N. assert (E : poly (times l k) x y = l * poly k x y) by (unfold times, poly; cbn [ca cb cc cd ce cf]; ring).
  rewrite E. split; intro Z; [apply Rmult_integral in Z; tauto|rewrite Z; ring].
Qed.
Theorem classification_exclusive k : 
  (is_ellipse k = true <-> disc k < 0) /\ (is_hyperbola k = true <-> 0 < disc k) /\
  (is_ellipse k = true -> is_hyperbola k = false) /\
  (is_ellipse k = false -> is_hyperbola k = false -> forall eps, 0 < eps -> is_parabola eps k = true).
Proof.
  unfold is_ellipse, is_hyperbola, is_parabola.
  destruct (Rlt_dec (disc k) 0), (Rlt_dec 0 (disc k)); repeat split; intros; try discriminate; try lra; try reflexivity.
  replace (disc k) with 0 by lra. rewrite Rabs_R0. destruct (Rlt_dec 0 eps); [reflexivity|lra].
Qed.
(** ellipse / hyperbola do not depend on the scale of the equation, translation, flipping or scaling axes *)
Theorem classification_invariant k l t h sA sB : l <> 0 -> sA <> 0 -> sB <> 0 ->
  (is_ellipse (times l k) = is_ellipse k /\ is_hyperbola (times l k) = is_hyperbola k) /\
  (is_ellipse (translate_conic t k) = is_ellipse k /\ conic_det (translate_conic t k) = conic_det k) /\
  (is_ellipse (flip_conic h k) = is_ellipse k /\ conic_det (flip_conic h k) = conic_det k) /\
  is_ellipse (scale_conic sA sB k) = is_ellipse k.
Proof.
  intros Hl HA HB.
  assert (S : forall p q c, 0 < c -> disc p = c * disc q -> is_ellipse p = is_ellipse q /\ is_hyperbola p = is_hyperbola q).
  { intros p q c Hc E. unfold is_ellipse, is_hyperbola. rewrite E.
    destruct (Rlt_dec (c * disc q) 0), (Rlt_dec (disc q) 0), (Rlt_dec 0 (c * disc q)), (Rlt_dec 0 (disc q)); split; try reflexivity; exfalso; nra. }
  assert (P : forall c, c <> 0 -> 0 < c * c) by (intros; nra).
  split; [|split; [|split]].
  - apply S with (c := l * l); [apply P, Hl|]. unfold disc, times; cbn [ca cb cc]; ring.
  - split.
    + apply (S _ _ 1); [lra|]. unfold disc, translate_conic; cbn [ca cb cc]; ring.
    + destruct k as [a b c d e f], t as [t1 t2]; unfold conic_det, translate_conic; cbn [ca cb cc cd ce cf fst snd]; field.
  - split.
    + apply (S _ _ 1); [lra|]. unfold disc, flip_conic; cbn [ca cb cc]; field.
    + destruct k as [a b c d e f]; unfold conic_det, flip_conic; cbn [ca cb cc cd ce cf fst snd]; field.
  - apply S with (c := (1 / sA * (1 / sB)) * (1 / sA * (1 / sB))).
    + apply P. apply Rmult_integral_contrapositive_currified; apply Rmult_integral_contrapositive_currified; try lra; apply Rinv_neq_0_compat; assumption.
    + unfold disc, scale_conic; cbn [ca cb cc]; ring.
Qed.
(** the tests with a tolerance do depend on the scale: any conic is called a parabola and degenerate
    after multiplying its equation by a small number *)
Theorem tolerance_scale_refuted k eps : 0 < eps -> exists l, l <> 0 /\
  (forall x y, poly (times l k) x y = 0 <-> poly k x y = 0) /\
  is_parabola eps (times l k) = true /\ is_degenerate eps (times l k) = true.
Proof.
  intro He. set (m := 1 + Rabs (disc k) + Rabs (conic_det k) + / eps).
  assert (Pd := Rabs_pos (disc k)). assert (Pt := Rabs_pos (conic_det k)).
  assert (Pi : 0 < / eps) by (apply Rinv_0_lt_compat, He).
  assert (Pm : 1 < m) by (unfold m; lra).
  set (l := / m). assert (Pl : 0 < l) by (apply Rinv_0_lt_compat; lra).
  assert (LM : l * m = 1) by (unfold l; field; lra).
  assert (L1 : l < 1) by nra.
  assert (Ld : l * Rabs (disc k) < 1) by (assert (Rabs (disc k) < m) by (unfold m; lra); nra).
  assert (Lt : l * Rabs (conic_det k) < 1) by (assert (Rabs (conic_det k) < m) by (unfold m; lra); nra).
  assert (Le : l < eps). { assert (/ eps < m) by (unfold m; lra).
    assert (eps * / eps = 1) by (field; lra). assert (1 < eps * m) by nra. nra. }
  exists l. split; [lra|]. split; [intros; apply same_points; lra|].
  unfold is_parabola, is_degenerate.
  assert (E1 : disc (times l k) = (l * l) * disc k) by (unfold disc, times; cbn [ca cb cc]; ring).
  assert (E2 : conic_det (times l k) = (l * l * l) * conic_det k) by (destruct k as [a b c d e f]; unfold conic_det, times; cbn [ca cb cc cd ce cf]; ring).
  rewrite E1, E2, !Rabs_mult, (Rabs_right l) by lra.
  destruct (Rlt_dec (l * l * Rabs (disc k)) eps) as [_|Z].
  2:{ exfalso; apply Z. assert (l * (l * Rabs (disc k)) < eps) by nra. lra. }
  destruct (Rlt_dec (l * l * l * Rabs (conic_det k)) eps) as [_|Z]; [split; reflexivity|].
  exfalso; apply Z. assert (0 <= l * Rabs (conic_det k)) by (apply Rmult_le_pos; lra).
  assert (l * (l * Rabs (conic_det k)) < 1) by nra.
  assert (0 <= l * (l * Rabs (conic_det k))) by (apply Rmult_le_pos; lra).
  assert (l * (l * (l * Rabs (conic_det k))) < eps) by nra. lra.
Qed.
(** with tolerance zero the circle test is exact *)
Theorem circle_exact k : is_circle 0 k = true <-> cb k = 0 /\ ca k = cc k /\ ca k <> 0.
Proof.
  unfold is_circle, disc. destruct (Rlt_dec 0 (Rabs (cb k))) as [H|H].
  - split; [discriminate|]. intros [Z _]. rewrite Z, Rabs_R0 in H. lra.
  - assert (B : cb k = 0). { assert (N := Rabs_pos (cb k)). destruct (Req_dec (cb k) 0) as [E|E]; [exact E|]. apply Rabs_pos_lt in E. lra. }
    destruct (Rlt_dec 0 (Rabs (ca k - cc k))) as [H2|H2].
    + split; [discriminate|]. intros (_ & E & _). rewrite E in H2. replace (cc k - cc k) with 0 in H2 by ring. rewrite Rabs_R0 in H2; lra.
    + assert (E : ca k = cc k). { destruct (Req_dec (ca k - cc k) 0) as [E|E]; [lra|]. apply Rabs_pos_lt in E. lra. }
      rewrite B, E. destruct (Rlt_dec (0 * 0 - 4 * cc k * cc k) 0) as [L|G].
      * split; [|reflexivity]. intros _. repeat split; try reflexivity. intro Z. rewrite Z in L. lra.
      * split; [discriminate|]. intros (_ & _ & N). exfalso. apply G. assert (0 < cc k * cc k) by nra. lra.
Qed.
Print Assumptions classification_exclusive. Print Assumptions classification_invariant.
Print Assumptions tolerance_scale_refuted. Print Assumptions circle_exact.

(** ** C54: quadrics *)
(** the symmetric 4x4 matrix of a quadric *)
Definition quadric_matrix (k : quadric) : mat := mlist [
  [ ka k; kf k; kg k; kp k ]; [ kf k; kb k; kh k; kq k ]; [ kg k; kh k; kc k; kr k ]; [ kp k; kq k; kr k; kd k ] ].
Theorem quadric_line_conic_exact P k : meq 3 3 (conic_matrix (quadric_line_conic P k)) (mmul 4 (mmul 4 P (quadric_matrix k)) (tr P)).
Proof.
  intros i j Hi Hj. destruct k as [a b c f g h p q r d]. small Hi; small Hj;
    cbv [conic_matrix quadric_line_conic mmul sum quadric_matrix mlist nth tr ka kb kc kd kf kg kh kp kq kr ca cb cc cd ce cf]; field.
Qed.
Theorem project_quadric_exact P k c : project_quadric P k = Some c ->
  meq 3 3 (mmul 3 (mmul 4 (mmul 4 P (quadric_matrix k)) (tr P)) (conic_matrix c)) eye.
Proof.
  intros H i j Hi Hj. destruct (conic_inverse_exact _ _ H) as [L _].
  rewrite <- L by assumption. apply mmul_ext_l; intros l Hl. symmetry. apply quadric_line_conic_exact; assumption.
Qed.
Theorem project_ellipsoid_agrees P l : project_ellipsoid P l = project_quadric P (ellipsoid_quadric l).
Proof.
  unfold project_ellipsoid, project_quadric. f_equal. destruct l.
  unfold ellipsoid_line_conic, ellipsoid_quadric, quadric_line_conic. f_equal; ring.
Qed.
(** an image line meets the back-projected plane: its value under the line conic is the quadric form of
    the plane through the camera centre and the line *)
Theorem line_conic_backprojection P k l :
  quad 3 (conic_matrix (quadric_line_conic P k)) l = quad 4 (quadric_matrix k) (mvec 3 (tr P) l).
Proof.
  destruct k as [a b c f g h p q r d]. cbv [quad vdot mvec conic_matrix quadric_line_conic sum quadric_matrix mlist nth tr ka kb kc kd kf kg kh kp kq kr ca cb cc cd ce cf]. field.
Qed.
(** a point in the solid ellipsoid, and a plane n.X + w = 0 *)
Definition in_ellipsoid (l : ellipsoid) (x y z : R) : Prop :=
  ((x - lp l) / la l) ^ 2 + ((y - lq l) / lb l) ^ 2 + ((z - lr l) / lc l) ^ 2 <= 1.
Definition meets (l : ellipsoid) (n : vect) : Prop :=
  exists x y z, in_ellipsoid l x y z /\ n 0%nat * x + n 1%nat * y + n 2%nat * z + n 3%nat = 0.
(** the quadric of an ellipsoid is its dual: its form on a plane is non-negative exactly when the plane
    meets the ellipsoid, so it vanishes exactly for the tangent planes *)
Theorem ellipsoid_quadric_dual l n : 0 < la l -> 0 < lb l -> 0 < lc l ->
  (n 0%nat <> 0 \/ n 1%nat <> 0 \/ n 2%nat <> 0) ->
  (0 <= quad 4 (quadric_matrix (ellipsoid_quadric l)) n <-> meets l n).
Proof.
  intros Pa Pb Pc Hn. destruct l as [a b c p q r]; cbn [la lb lc] in *.
  set (n0 := n 0%nat) in *. set (n1 := n 1%nat) in *. set (n2 := n 2%nat) in *. set (w := n 3%nat).
  set (g := n0 * p + n1 * q + n2 * r + w).
  set (N := (a * n0) * (a * n0) + (b * n1) * (b * n1) + (c * n2) * (c * n2)).
  assert (E : quad 4 (quadric_matrix (ellipsoid_quadric (Ell a b c p q r))) n = N - g * g).
  { cbv [quad vdot mvec sum quadric_matrix ellipsoid_quadric mlist nth ka kb kc kd kf kg kh kp kq kr].
    fold n0 n1 n2 w. unfold N, g. ring. }
  rewrite E.
  assert (PN : 0 < N).
  { unfold N. assert (Sq : forall u v, 0 < u -> v <> 0 -> 0 < (u * v) * (u * v)).
    { intros u v Hu Hv. assert (u * v <> 0) by (apply Rmult_integral_contrapositive_currified; lra). nra. }
    assert (S0 := Rle_0_sqr (a * n0)). assert (S1 := Rle_0_sqr (b * n1)). assert (S2 := Rle_0_sqr (c * n2)). unfold Rsqr in *.
    destruct Hn as [H|[H|H]]; [assert (X := Sq a n0 Pa H)|assert (X := Sq b n1 Pb H)|assert (X := Sq c n2 Pc H)]; lra. }
  unfold meets, in_ellipsoid. cbn [la lb lc lp lq lr]. split.
  - intro H. exists (p - g / N * (a * a * n0)), (q - g / N * (b * b * n1)), (r - g / N * (c * c * n2)). split.
    + apply Rle_trans with ((g * g) / N).
      * right. transitivity ((g / N) ^ 2 * N); [unfold N; field; repeat split; try lra; unfold N in PN; lra|].
        field. lra.
      * apply Rmult_le_reg_r with N; [exact PN|]. unfold Rdiv. rewrite Rmult_assoc, Rinv_l by lra. lra.
    + fold n0 n1 n2 w. transitivity (g - g / N * N); [unfold g, N; field|field; lra]. unfold N in PN; lra.
  - intros (x & y & z & I & Z). fold n0 n1 n2 w in Z.
    set (u := (x - p) / a) in *. set (v := (y - q) / b) in *. set (t := (z - r) / c) in *.
    assert (X : x = p + a * u) by (unfold u; field; lra). assert (Y : y = q + b * v) by (unfold v; field; lra).
    assert (T : z = r + c * t) by (unfold t; field; lra).
    assert (G : g = - ((a * n0) * u + (b * n1) * v + (c * n2) * t)).
    { unfold g. rewrite X, Y, T in Z. lra. }
    rewrite G. unfold N. set (A := a * n0) in *. set (B := b * n1) in *. set (C := c * n2) in *.
    assert (CS : (A * u + B * v + C * t) * (A * u + B * v + C * t) <= (A*A+B*B+C*C) * (u*u+v*v+t*t)).
    { assert (S1 := Rle_0_sqr (A * v - B * u)). assert (S2 := Rle_0_sqr (A * t - C * u)). assert (S3 := Rle_0_sqr (B * t - C * v)).
      unfold Rsqr in *. lra. }
    assert (I' : u*u+v*v+t*t <= 1) by lra. fold A B C in PN. unfold N in PN. fold A B C in PN.
    assert ((A*A+B*B+C*C) * (u*u+v*v+t*t) <= (A*A+B*B+C*C) * 1) by (apply Rmult_le_compat_l; lra).
    lra.
Qed.
(** consequently the line conic of a projected ellipsoid is non-negative exactly on the image lines whose
    plane meets it *)
Theorem project_ellipsoid_silhouette P l c n : 0 < la l -> 0 < lb l -> 0 < lc l ->
  let plane := mvec 3 (tr P) n in
  (plane 0%nat <> 0 \/ plane 1%nat <> 0 \/ plane 2%nat <> 0) -> project_ellipsoid P l = Some c ->
  exists lc, conic_inverse c = Some lc /\ (0 <= quad 3 (conic_matrix lc) n <-> meets l plane).
Proof.
  intros Ha Hb Hc plane Hp H. rewrite project_ellipsoid_agrees in H. unfold project_quadric in H.
  exists (quadric_line_conic P (ellipsoid_quadric l)). split; [apply conic_inverse_involutive, H|].
  rewrite line_conic_backprojection. apply ellipsoid_quadric_dual; assumption.
Qed.
(** a point of the projected conic is the contact point of a tangent line *)
Theorem point_conic_contact k k' (x : vect) : conic_inverse k = Some k' ->
  (quad 3 (conic_matrix k') x = 0 <-> exists l, veq 3 x (mvec 3 (conic_matrix k) l) /\ quad 3 (conic_matrix k) l = 0).
Proof.
  intro H. destruct (conic_inverse_exact _ _ H) as [L R].
  assert (S : forall (M Mi : mat) (v : vect), meq 3 3 (mmul 3 M Mi) eye -> veq 3 (mvec 3 M (mvec 3 Mi v)) v).
  { intros M Mi v E i Hi. rewrite <- mvec_mmul. rewrite <- (mvec_eye 3 v i Hi).
    apply sum_ext; intros l Hl. rewrite E by assumption. reflexivity. }
  split.
  - intro Z. exists (mvec 3 (conic_matrix k') x). split.
    + intros i Hi. symmetry. apply S; assumption.
    + rewrite <- Z. unfold quad. transitivity (vdot 3 (mvec 3 (conic_matrix k') x) x).
      * apply sum_ext; intros i Hi. rewrite S by assumption. reflexivity.
      * unfold vdot. apply sum_ext; intros; ring.
  - intros (l & E & Z). rewrite <- Z. unfold quad. transitivity (vdot 3 x l).
    + apply sum_ext; intros i Hi. f_equal. transitivity (mvec 3 (conic_matrix k') (mvec 3 (conic_matrix k) l) i).
      * apply sum_ext; intros j Hj. rewrite E by assumption. reflexivity.
      * apply S; assumption.
    + unfold vdot. apply sum_ext; intros i Hi. rewrite E by assumption. ring.
Qed.
(** a spheroid (radius, height, x, y) stands on the ground plane: the plane z = 0 touches it *)
Theorem spheroid_on_ground s0 s1 s2 s3 :
  quad 4 (quadric_matrix (ellipsoid_quadric (spheroid_ellipsoid s0 s1 s2 s3))) (vlist [0; 0; 1; 0]) = 0 /\
  forall P, project_spheroid P s0 s1 s2 s3 = project_quadric P (ellipsoid_quadric (Ell s0 s0 s1 s2 s3 s1)).
Proof.
  split.
  - cbv [quad vdot mvec sum quadric_matrix ellipsoid_quadric spheroid_ellipsoid mlist vlist nth ka kb kc kd kf kg kh kp kq kr]. ring.
  - intro P. apply project_ellipsoid_agrees.
Qed.
Example ex_project_sphere : exists c, project_ellipsoid (mlist [[1;0;0;0];[0;1;0;0];[0;0;1;0]]) (Ell 1 1 1 0 0 2) = Some c.
Proof.
  apply conic_det_exact. unfold ellipsoid_line_conic, conic_det. cbv [mlist nth]. lra.
Qed.
Print Assumptions project_quadric_exact. Print Assumptions project_ellipsoid_agrees. Print Assumptions ellipsoid_quadric_dual.
Print Assumptions project_ellipsoid_silhouette. Print Assumptions point_conic_contact. Print Assumptions spheroid_on_ground.

(** ** C72: covariance of an estimated conic *)
(** the weight is the squared gradient length times the variance, for the convention
    a x^2 + 2 b x y + c y^2 + 2 d x + 2 e y + f *)
Definition doubled (k : conic) : conic := Con (ca k) (2 * cb k) (cc k) (2 * cd k) (2 * ce k) (cf k).
Theorem cov_weight_exact s k x y : cov_weight s k x y =
  s * (grad_x (doubled k) x y * grad_x (doubled k) x y + grad_y (doubled k) x y * grad_y (doubled k) x y).
Proof. destruct k as [a b c d e f]; unfold cov_weight, grad_x, grad_y, doubled; cbn [ca cb cc cd ce cf]; ring. Qed.
Theorem design_exact k x y : vdot 6 (design x y) (vlist [ca k; cb k; cc k; cd k; ce k; cf k]) = poly (doubled k) x y.
Proof. cbv [vdot sum design vlist nth poly doubled ca cb cc cd ce cf]. ring. Qed.
(** for the convention of every other conic function, the model of the measurement is wrong *)
Theorem design_convention_refuted : exists k x y, poly k x y = 0 /\
  vdot 6 (design x y) (vlist [ca k; cb k; cc k; cd k; ce k; cf k]) <> 0.
Proof.
  exists (Con 1 0 1 (-2) 0 0), 2, 0. rewrite design_exact. unfold poly, doubled; cbn [ca cb cc cd ce cf]. lra.
Qed.
Lemma inv_cov_psd s k pts : 0 < s -> forall acc m, symm 6 acc -> psd 6 acc -> inv_cov s k pts acc = Some m -> symm 6 m /\ psd 6 m.
Proof.
  intro Hs. induction pts as [|[x y] l IH]; intros acc m S P H; cbn [inv_cov] in H.
  - injection H as <-. split; assumption.
  - destruct (Req_EM_T _ 0) as [|N]; [discriminate|].
    set (w := cov_weight s k x y) in *.
    assert (W : 0 < w). { unfold w in *. rewrite cov_weight_exact in *.
      set (gx := grad_x (doubled k) x y) in *. set (gy := grad_y (doubled k) x y) in *.
      assert (0 <= s * (gx * gx + gy * gy)) by (apply Rmult_le_pos; [lra|nra]). lra. }
    apply IH in H; [exact H| |].
    + intros i j Hi Hj. unfold madd. rewrite (S i j Hi Hj). f_equal. unfold Rdiv. ring.
    + intro v. specialize (P v).
      assert (E : quad 6 (madd acc (fun i j => design x y i * design x y j / w)) v =
                  quad 6 acc v + vdot 6 (design x y) v * vdot 6 (design x y) v / w).
      { unfold quad, vdot, mvec, madd. 
        assert (E1 : forall i, sum 6 (fun l0 => (acc i l0 + design x y i * design x y l0 / w) * v l0) =
          sum 6 (fun l0 => acc i l0 * v l0) + design x y i / w * sum 6 (fun l0 => design x y l0 * v l0)).
        { intro i. rewrite <- sum_scal_l, <- sum_plus. apply sum_ext; intros; field; lra. }
        transitivity (sum 6 (fun i => v i * sum 6 (fun l0 => acc i l0 * v l0) +
          (design x y i * v i) * (/ w * sum 6 (fun l0 => design x y l0 * v l0)))).
        - apply sum_ext; intros i _. rewrite E1. field; lra.
        - rewrite sum_plus, sum_scal_r. field; lra. }
      rewrite E. set (z := vdot 6 (design x y) v).
      assert (0 <= z * z / w) by (apply Rmult_le_pos; [nra|left; apply Rinv_0_lt_compat, W]). lra.
Qed.
(** the information matrix is symmetric and positive semidefinite *)
Theorem conic_inv_cov_valid k pts m : conic_inv_cov k pts = Some m -> symm 6 m /\ psd 6 m.
Proof.
  unfold conic_inv_cov. destruct (Req_EM_T _ 0); [discriminate|]. apply inv_cov_psd; [lra| |].
  - intros i j _ _; reflexivity.
  - intro v. unfold quad, vdot, mvec, mzero. right. symmetry. apply sum_zero; intros i _.
    rewrite sum_zero; [ring|]. intros; ring.
Qed.
(** every point adds the square of its design vector, weighted with the squared length of the conic over the squared gradient
    (for a variance of 1/10000); the scale of the conic does not matter *)
Lemma inv_cov_sum s k pts : forall acc m, inv_cov s k pts acc = Some m -> forall i j,
  m i j = acc i j + fold_right Rplus 0 (map (fun p => design (fst p) (snd p) i * design (fst p) (snd p) j / cov_weight s k (fst p) (snd p)) pts).
Proof.
  induction pts as [|[x y] l IH]; intros acc m H i j; cbn [inv_cov] in H.
  - injection H as <-. cbn. ring.
  - destruct (Req_EM_T _ 0); [discriminate|]. rewrite (IH _ _ H). unfold madd. cbn [map fold_right fst snd]. ring.
Qed.
Theorem conic_inv_cov_exact k pts m : conic_inv_cov k pts = Some m -> forall i j,
  m i j = fold_right Rplus 0 (map (fun p : point2 => let (x, y) := p in
    10000 * (ca k * ca k + cb k * cb k + cc k * cc k + cd k * cd k + ce k * ce k + cf k * cf k) * (design x y i * design x y j) /
    (grad_x (doubled k) x y * grad_x (doubled k) x y + grad_y (doubled k) x y * grad_y (doubled k) x y)) pts).
Proof.
  unfold conic_inv_cov. destruct (Req_EM_T _ 0) as [|N]; [discriminate|]. intros H i j. rewrite (inv_cov_sum _ _ _ _ _ H). unfold mzero. rewrite Rplus_0_l. clear H. f_equal. apply map_ext. intros [x y]. cbn [fst snd].
  rewrite cov_weight_exact. set (L := conic_len k) in *.
  assert (LL : L * L = ca k * ca k + cb k * cb k + cc k * cc k + cd k * cd k + ce k * ce k + cf k * cf k).
  { unfold L, conic_len, norm2. rewrite sqrt_sqrt; [unfold inner_fixed, vlist; cbn; ring|]. unfold inner_fixed, vlist; cbn. assert (S := Rle_0_sqr). unfold Rsqr in S. assert (S1 := S (ca k)). assert (S2 := S (cb k)). assert (S3 := S (cc k)). assert (S4 := S (cd k)). assert (S5 := S (ce k)). assert (S6 := S (cf k)). lra. }
  rewrite <- LL. replace (grad_x (doubled (unit_conic k)) x y) with (grad_x (doubled k) x y / L) by (unfold grad_x, doubled, unit_conic; fold L; cbn [ca cb cc cd ce cf]; field; exact N).
  replace (grad_y (doubled (unit_conic k)) x y) with (grad_y (doubled k) x y / L) by (unfold grad_y, doubled, unit_conic; fold L; cbn [ca cb cc cd ce cf]; field; exact N).
  generalize (grad_x (doubled k) x y) (grad_y (doubled k) x y). intros gx gy. destruct (Req_EM_T (gx * gx + gy * gy) 0) as [Z|NZ].
  - replace (1 / 10000 * (gx / L * (gx / L) + gy / L * (gy / L))) with (1 / 10000 * (gx * gx + gy * gy) / (L * L)) by (field; exact N). rewrite Z. unfold Rdiv. rewrite !Rmult_0_r, Rmult_0_l, Rinv_0. ring.
  - field. repeat split; try exact N; try exact NZ.
Qed.
Example ex_conic_cov : exists m, inv_cov 1 (Con 1 0 1 0 0 (-1)) [(1, 0); (0, 1)] mzero = Some m.
Proof.
  unfold inv_cov, cov_weight. destruct (Req_EM_T _ 0) as [Z|]; [exfalso; lra|].
  destruct (Req_EM_T _ 0) as [Z|]; [exfalso; lra|]. eexists; reflexivity.
Qed.
Print Assumptions cov_weight_exact. Print Assumptions design_exact. Print Assumptions design_convention_refuted.
Print Assumptions conic_inv_cov_valid. Print Assumptions conic_inv_cov_exact.

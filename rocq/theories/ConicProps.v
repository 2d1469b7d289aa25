(** C14-C16, C54, C69-C72: conics and quadrics.  Properties of the model in Conic.v *)
From Coq Require Import Reals List Arith Bool Lia Lra Psatz.
Import ListNotations.
From Verif Require Import Mat Quat LinAlg LinAlgProofs LinAlgProps Conic ConicProofs.
Open Scope R_scope.

Ltac con := cbn [ca cb cc cd ce cf fst snd] in *.

(** ** C14 *)
Theorem conic_matrix_roundtrip k : matrix_conic (conic_matrix k) = k.
Proof. destruct k; unfold matrix_conic, conic_matrix; cbv [mlist nth]; con; f_equal; field. Qed.
Theorem matrix_conic_roundtrip m : symm 3 m -> meq 3 3 (conic_matrix (matrix_conic m)) m.
Proof.
  intros H i j Hi Hj.
  assert (E1 := H 0%nat 1%nat ltac:(lia) ltac:(lia)). assert (E2 := H 0%nat 2%nat ltac:(lia) ltac:(lia)).
  assert (E3 := H 1%nat 2%nat ltac:(lia) ltac:(lia)).
  small Hi; small Hj; unfold matrix_conic, conic_matrix; cbv [mlist nth]; con; lra.
Qed.
Theorem conic_pixel_exact k x y :
  conic_pixel k (x, y) = poly k x y /\ quad 3 (conic_matrix k) (vlist [x; y; 1]) = poly k x y.
Proof.
  split; destruct k; unfold conic_pixel, poly; con; [field|].
  cbv [quad vdot mvec sum conic_matrix mlist vlist nth]; con; field.
Qed.
Theorem translate_conic_exact k tx ty x y : poly (translate_conic (tx, ty) k) x y = poly k (x - tx) (y - ty).
Proof. destruct k; unfold translate_conic, poly; con; field. Qed.
Theorem translate_conic_group k s t u v :
  translate_conic (s, t) (translate_conic (u, v) k) = translate_conic (u + s, v + t) k /\ translate_conic (0, 0) k = k.
Proof. destruct k; split; unfold translate_conic; con; f_equal; field. Qed.
(** an image of height h has rows 0 .. h-1 *)
Theorem flip_conic_exact h k x y : poly (flip_conic h k) x y = poly k x (h - 1 - y).
Proof. destruct k; unfold flip_conic, poly; con; field. Qed.
Theorem flip_conic_involutive h k : flip_conic h (flip_conic h k) = k.
Proof. destruct k; unfold flip_conic; con; f_equal; field. Qed.
Theorem scale_conic_exact sA sB k x y : sA <> 0 -> sB <> 0 ->
  poly (scale_conic sA sB k) (sA * x) (sB * y) = poly k x y.
Proof. intros; destruct k; unfold scale_conic, poly; con; field; split; assumption. Qed.
Theorem conic_inverse_exact k k' : conic_inverse k = Some k' ->
  meq 3 3 (mmul 3 (conic_matrix k) (conic_matrix k')) eye /\ meq 3 3 (mmul 3 (conic_matrix k') (conic_matrix k)) eye.
Proof.
  destruct k as [a b c d e f]. unfold conic_inverse.
  destruct (Req_EM_T _ 0) as [|N]; [discriminate|]. intro H; injection H as <-.
  split; intros i j Hi Hj; small Hi; small Hj; cbv [mmul sum conic_matrix mlist nth eye Nat.eqb]; con; field; exact N.
Qed.
Theorem conic_det_exact k : conic_det k = det3 (conic_matrix k) /\
  ((exists k', conic_inverse k = Some k') <-> conic_det k <> 0).
Proof.
  destruct k as [a b c d e f]. split.
  - unfold conic_det, det3; cbv [conic_matrix mlist nth]; con; field.
  - unfold conic_inverse, conic_det. destruct (Req_EM_T _ 0) as [Z|N].
    + split; [intros [k' H]; discriminate|]. intro H; exfalso; apply H. lra.
    + split; [|intros _; eexists; reflexivity]. intros _ Z; apply N; lra.
Qed.
Theorem conic_inverse_involutive k k' : conic_inverse k = Some k' -> conic_inverse k' = Some k.
Proof.
  intro H. destruct (conic_inverse_exact k k' H) as [L R].
  assert (D : conic_det k * conic_det k' = 1).
  { rewrite !(proj1 (conic_det_exact _)). rewrite <- (proj1 (det3_laws _ _)).
    rewrite <- (proj1 (proj2 (det3_laws eye eye))). unfold det3. rewrite !L by lia. reflexivity. }
  assert (N : conic_det k' <> 0) by (intro Z; rewrite Z in D; lra).
  destruct (proj2 (proj2 (conic_det_exact k')) N) as [k2 H2].
  rewrite H2. f_equal. destruct (conic_inverse_exact k' k2 H2) as [L2 R2].
  rewrite <- (conic_matrix_roundtrip k2), <- (conic_matrix_roundtrip k).
  assert (E : meq 3 3 (conic_matrix k2) (conic_matrix k)).
  { intros i j Hi Hj.
    rewrite <- (mmul_eye_r 3 (conic_matrix k) i j Hj).
    transitivity (mmul 3 (conic_matrix k) (mmul 3 (conic_matrix k') (conic_matrix k2)) i j).
    - rewrite <- mmul_assoc. rewrite <- (mmul_eye_l 3 (conic_matrix k2) i j Hi) at 1.
      apply mmul_ext_l; intros l Hl. symmetry. apply L; assumption.
    - apply mmul_ext_r; intros l Hl. apply L2; assumption. }
  unfold matrix_conic. rewrite !E by lia. reflexivity.
Qed.
Example ex_conic_inverse : exists k', conic_inverse (Con 1 0 4 0 0 (-4)) = Some k' /\ cc k' = 1 / 4.
Proof.
  unfold conic_inverse. destruct (Req_EM_T _ 0) as [Z|N]; [exfalso; lra|].
  eexists; split; [reflexivity|]. con. field.
Qed.
Print Assumptions conic_inverse_exact. Print Assumptions conic_inverse_involutive. Print Assumptions translate_conic_exact.
Print Assumptions flip_conic_exact. Print Assumptions conic_pixel_exact. Print Assumptions scale_conic_exact.

(** ** C15 *)
Theorem conic_center_exact k x y : conic_center k = Center (x, y) ->
  grad_x k x y = 0 /\ grad_y k x y = 0 /\
  (forall x' y', grad_x k x' y' = 0 -> grad_y k x' y' = 0 -> x' = x /\ y' = y) /\
  (forall u v, poly k (x + u) (y + v) = poly k (x - u) (y - v)).
Proof.
  intro H. unfold conic_center in H. destruct k as [a b c d e f]; con.
  destruct (Req_EM_T _ 0) as [|N] in H; [discriminate|]. destruct (Req_EM_T _ 0) in H; [discriminate|].
  injection H as <- <-.
  assert (M : b * b - 4 * a * c <> 0) by (intro Z; apply N; lra).
  assert (N' : b * (1 / 2) * (b * (1 / 2)) - a * c <> 0) by exact N.
  match goal with |- grad_x ?k ?x ?y = 0 /\ _ => assert (G1 : grad_x k x y = 0);
    [unfold grad_x; con; field; try exact N'; intro Z; apply M; lra|];
    assert (G2 : grad_y k x y = 0); [unfold grad_y; con; field; try exact N'; intro Z; apply M; lra|];
    set (x0 := x) in *; set (y0 := y) in * end.
  clearbody x0 y0. repeat split; auto.
  - apply (stationary_unique (Con a b c d e f) x' y' x0 y0); auto.
  - apply (stationary_unique (Con a b c d e f) x' y' x0 y0); auto.
  - intros u v. unfold grad_x, grad_y, poly in *; con.
    transitivity (a * ((x0 - u) * (x0 - u)) + b * ((x0 - u) * (y0 - v)) + c * ((y0 - v) * (y0 - v)) + d * (x0 - u) + e * (y0 - v) + f
      + 2 * u * (2 * a * x0 + b * y0 + d) + 2 * v * (b * x0 + 2 * c * y0 + e)); [ring|rewrite G1, G2; ring].
Qed.
Theorem conic_center_defined k : (exists p, conic_center k = Center p) <-> disc k <> 0.
Proof.
  unfold conic_center, disc. destruct k as [a b c d e f]; con. destruct (Req_EM_T _ 0) as [Z|N].
  - split; [intros [p H]; discriminate|]. intro H; exfalso; apply H; lra.
  - destruct (Req_EM_T _ 0) as [Z|N2].
    + exfalso. assert (K : (b * (1 / 2) * (b * (1 / 2)) - a * c) * (1 / (b * (1 / 2) * (b * (1 / 2)) - a * c)) = 1) by (field; lra).
      rewrite Z in K; lra.
    + split; [intros _ Z; apply N; lra|intros _; eexists; reflexivity].
Qed.
(** the documented exception is never thrown: a parabola gives infinite or undefined coordinates *)
Theorem conic_center_exception_refuted : forall k, conic_center k <> Thrown /\ (disc k = 0 -> conic_center k = NotFinite).
Proof.
  intro k. assert (D := conic_center_defined k). unfold conic_center in *. destruct (Req_EM_T _ 0) as [Z|N].
  - split; [discriminate|reflexivity].
  - split.
    + destruct (Req_EM_T _ 0) as [Z|N2]; [|discriminate]. exfalso.
      set (w := cb k * (1 / 2) * (cb k * (1 / 2)) - ca k * cc k) in *.
      assert (K : w * (1 / w) = 1) by (field; exact N). rewrite Z in K. lra.
    + intro Z; exfalso. apply N. unfold disc in Z. lra.
Qed.
Example ex_parabola : disc (Con 1 0 0 0 (-1) 0) = 0 /\ poly (Con 1 0 0 0 (-1) 0) 2 4 = 0.
Proof. unfold disc, poly; con; split; ring. Qed.
Print Assumptions conic_center_exact. Print Assumptions conic_center_defined. Print Assumptions conic_center_exception_refuted.

(** ** C69: angle, semi-axes and area *)
Theorem semi_axes_exact k t A B x0 y0 : conic_angle k = Some t -> semi_axes k = Some (A, B) ->
  conic_center k = Center (x0, y0) -> conic_det k <> 0 ->
  0 < A /\ 0 < B /\
  forall x y, poly k x y = 0 <->
    (((x - x0) * cos t + (y - y0) * sin t) / A) ^ 2 + ((- (x - x0) * sin t + (y - y0) * cos t) / B) ^ 2 = 1.
Proof.
  intros Ht Hs Hc Hd. unfold semi_axes in Hs. rewrite Ht, semi_axes_unfold in Hs. cbv zeta in Hs.
  assert (Hn := num_det k t Ht). cbv zeta in Hn. assert (Hb := angle_removes_mixed k t Ht). assert (C1 := cs1 t).
  assert (Hp := rot_poly k (cos t) (sin t)).
  assert (Hdc := rot_disc k (cos t) (sin t) C1).
  destruct (conic_center_exact k x0 y0 Hc) as (Gx & Gy & U & _).
  set (co := cos t) in *. set (si := sin t) in *.
  set (a1 := rot_a k co si) in *. set (c1 := rot_c k co si) in *. set (d1 := rot_d k co si) in *. set (e1 := rot_e k co si) in *.
  destruct (Req_EM_T (a1 * c1) 0) as [|N]; [discriminate|]. specialize (Hn N).
  set (num := (c1*d1*d1+a1*e1*e1-4*a1*c1*cf k)/(4*a1*c1)) in *.
  destruct (Rlt_dec (num / a1) 0) as [|P1]; [discriminate|]. destruct (Rlt_dec (num / c1) 0) as [|P2]; [discriminate|].
  injection Hs as EA EB.
  assert (Na : a1 <> 0) by (intro Z; apply N; rewrite Z; ring).
  assert (Nc : c1 <> 0) by (intro Z; apply N; rewrite Z; ring).
  assert (Nn : num <> 0). { rewrite Hn. intro Z. apply Hd. unfold Rdiv in Z. apply Rmult_integral in Z.
    destruct Z as [Z|Z]; [lra|]. exfalso. apply (Rinv_neq_0_compat _ N Z). }
  assert (Q1 : 0 < num / a1). { apply Rnot_lt_le in P1. destruct P1 as [P1|P1]; [exact P1|].
    exfalso. apply Nn. transitivity (num / a1 * a1); [field; exact Na|rewrite <- P1; ring]. }
  assert (Q2 : 0 < num / c1). { apply Rnot_lt_le in P2. destruct P2 as [P2|P2]; [exact P2|].
    exfalso. apply Nn. transitivity (num / c1 * c1); [field; exact Nc|rewrite <- P2; ring]. }
  assert (PA : 0 < A) by (rewrite <- EA; apply sqrt_lt_R0, Q1).
  assert (PB : 0 < B) by (rewrite <- EB; apply sqrt_lt_R0, Q2).
  assert (SA : A * A = num / a1) by (rewrite <- EA; apply sqrt_sqrt; lra).
  assert (SB : B * B = num / c1) by (rewrite <- EB; apply sqrt_sqrt; lra).
  split; [exact PA|split; [exact PB|]].
  (* the centre in rotated coordinates *)
  set (U0 := - d1 / (2 * a1)). set (V0 := - e1 / (2 * c1)).
  assert (CX : U0 * co - V0 * si = x0 /\ U0 * si + V0 * co = y0).
  { apply U.
    - unfold grad_x.
      assert (X : co * (2 * a1 * U0 + d1) - si * (2 * c1 * V0 + e1) = 0) by (unfold U0, V0; field; auto).
      rewrite <- X. unfold a1, c1, d1, e1, rot_a, rot_c, rot_d, rot_e. unfold rot_b in Hb.
      clearbody U0 V0. clear - C1 Hb.
      assert (Y : si * V0 * (2 * (cc k - ca k) * (si * co) + cb k * (co * co - si * si)) = 0) by (rewrite Hb; ring).
      assert (Y2 : co * V0 * (2 * (cc k - ca k) * (si * co) + cb k * (co * co - si * si)) = 0) by (rewrite Hb; ring).
      assert (Y3 : co * U0 * (2 * (cc k - ca k) * (si * co) + cb k * (co * co - si * si)) = 0) by (rewrite Hb; ring).
      assert (Y4 : si * U0 * (2 * (cc k - ca k) * (si * co) + cb k * (co * co - si * si)) = 0) by (rewrite Hb; ring).
      transitivity ((2 * ca k * (U0 * co - V0 * si) + cb k * (U0 * si + V0 * co)) * (co*co + si*si) + cd k * (co*co+si*si));
        [rewrite C1; ring|].
      transitivity (co * (2 * (ca k * (co * co) + cb k * si * co + cc k * (si * si)) * U0 + (cd k * co + ce k * si)) -
         si * (2 * (ca k * (si * si) - cb k * si * co + cc k * (co * co)) * V0 + (- cd k * si + ce k * co))
         - si * U0 * (2 * (cc k - ca k) * (si * co) + cb k * (co * co - si * si)) + co * V0 * (2 * (cc k - ca k) * (si * co) + cb k * (co * co - si * si)) ); [ring|].
      rewrite Y4, Y2. ring.
    - unfold grad_y.
      assert (X : si * (2 * a1 * U0 + d1) + co * (2 * c1 * V0 + e1) = 0) by (unfold U0, V0; field; auto).
      rewrite <- X. unfold a1, c1, d1, e1, rot_a, rot_c, rot_d, rot_e. unfold rot_b in Hb.
      clearbody U0 V0. clear - C1 Hb.
      assert (Y : si * V0 * (2 * (cc k - ca k) * (si * co) + cb k * (co * co - si * si)) = 0) by (rewrite Hb; ring).
      assert (Y3 : co * U0 * (2 * (cc k - ca k) * (si * co) + cb k * (co * co - si * si)) = 0) by (rewrite Hb; ring).
      transitivity ((cb k * (U0 * co - V0 * si) + 2 * cc k * (U0 * si + V0 * co)) * (co*co + si*si) + ce k * (co*co+si*si));
        [rewrite C1; ring|].
      transitivity (si * (2 * (ca k * (co * co) + cb k * si * co + cc k * (si * si)) * U0 + (cd k * co + ce k * si)) +
         co * (2 * (ca k * (si * si) - cb k * si * co + cc k * (co * co)) * V0 + (- cd k * si + ce k * co))
         + co * U0 * (2 * (cc k - ca k) * (si * co) + cb k * (co * co - si * si)) + si * V0 * (2 * (cc k - ca k) * (si * co) + cb k * (co * co - si * si))); [ring|].
      rewrite Y3, Y. ring. }
  destruct CX as [CX CY].
  assert (RU : x0 * co + y0 * si = U0). { rewrite <- CX, <- CY. transitivity (U0 * (co*co+si*si)); [ring|rewrite C1; ring]. }
  assert (RV : - x0 * si + y0 * co = V0). { rewrite <- CX, <- CY. transitivity (V0 * (co*co+si*si)); [ring|rewrite C1; ring]. }
  intros x y. specialize (Hp x y C1). cbv zeta in Hp. rewrite Hb in Hp. fold a1 c1 d1 e1 in Hp.
  set (u := (x - x0) * co + (y - y0) * si). set (v := - (x - x0) * si + (y - y0) * co).
  assert (EU : x * co + y * si = u + U0) by (unfold u; rewrite <- RU; ring).
  assert (EV : - x * si + y * co = v + V0) by (unfold v; rewrite <- RV; ring).
  rewrite EU, EV in Hp.
  assert (S : poly k x y = a1 * (u * u) + c1 * (v * v) - num).
  { rewrite Hp. unfold num, U0, V0. field; auto. }
  rewrite S.
  assert (IA : (u / A) ^ 2 = u * u * / (A * A)) by (field; lra).
  assert (IB : (v / B) ^ 2 = v * v * / (B * B)) by (field; lra).
  rewrite IA, IB, SA, SB.
  assert (E : u * u * / (num / a1) + v * v * / (num / c1) = (a1 * (u * u) + c1 * (v * v)) / num).
  { field; repeat split; auto. }
  rewrite E. split; intro Z.
  - replace (a1 * (u * u) + c1 * (v * v)) with num by lra. field; exact Nn.
  - assert (a1 * (u * u) + c1 * (v * v) = num); [|lra].
    transitivity ((a1 * (u * u) + c1 * (v * v)) / num * num); [field; exact Nn|rewrite Z; ring].
Qed.
(** a real ellipse that is not a circle always has semi-axes *)
Definition real_ellipse (k : conic) : Prop := disc k < 0 /\ conic_det k * (ca k + cc k) < 0.
Theorem semi_axes_defined k : real_ellipse k -> (ca k <> cc k \/ cb k <> 0) ->
  exists t A B p, conic_angle k = Some t /\ semi_axes k = Some (A, B) /\ conic_center k = Center p.
Proof.
  intros [Hd He] Hn.
  assert (HT : exists t, conic_angle k = Some t).
  { unfold conic_angle, half_angle. destruct (Req_EM_T (ca k) (cc k)) as [E|N]; [|eexists; reflexivity].
    destruct (Rlt_dec 0 (cb k)); [eexists; reflexivity|]. destruct (Rlt_dec (cb k) 0); [eexists; reflexivity|].
    exfalso. destruct Hn as [Hn|Hn]; [contradiction|apply Hn; lra]. }
  destruct HT as [t Ht]. exists t. unfold semi_axes. rewrite Ht, semi_axes_unfold. cbv zeta.
  assert (Hq := num_det k t Ht). cbv zeta in Hq. assert (Hb := angle_removes_mixed k t Ht).
  assert (D := rot_disc k (cos t) (sin t) (cs1 t)). assert (T := rot_trace k (cos t) (sin t) (cs1 t)).
  rewrite Hb in D.
  set (a1 := rot_a k (cos t) (sin t)) in *. set (c1 := rot_c k (cos t) (sin t)) in *.
  assert (P : 0 < a1 * c1) by lra.
  destruct (Req_EM_T (a1 * c1) 0) as [Z|N]; [exfalso; lra|]. specialize (Hq N). rewrite Hq.
  destruct (proj2 (conic_center_defined k) ltac:(lra)) as [p Hp].
  assert (Na : a1 <> 0) by (intro Z; rewrite Z in P; lra).
  assert (Nc : c1 <> 0) by (intro Z; rewrite Z in P; lra).
  set (det := conic_det k) in *. rewrite <- T in He.
  assert (I1 : 0 < / (a1 * c1)) by (apply Rinv_0_lt_compat, P).
  assert (Q1 : 0 < - det / (a1 * c1) / a1).
  { replace (- det / (a1 * c1) / a1) with ((- det * a1) * / (a1 * c1) * / (a1 * a1)) by (field; auto).
    assert (0 < a1 * a1) by nra. assert (0 < / (a1 * a1)) by (apply Rinv_0_lt_compat; assumption).
    assert (0 < - det * a1) by nra.
    apply Rmult_lt_0_compat; [apply Rmult_lt_0_compat|]; assumption. }
  assert (Q2 : 0 < - det / (a1 * c1) / c1).
  { replace (- det / (a1 * c1) / c1) with ((- det * c1) * / (a1 * c1) * / (c1 * c1)) by (field; auto).
    assert (0 < c1 * c1) by nra. assert (0 < / (c1 * c1)) by (apply Rinv_0_lt_compat; assumption).
    assert (0 < - det * c1) by nra.
    apply Rmult_lt_0_compat; [apply Rmult_lt_0_compat|]; assumption. }
  destruct (Rlt_dec _ 0) as [Z|_]; [exfalso; lra|]. destruct (Rlt_dec _ 0) as [Z|_]; [exfalso; lra|].
  eexists _, _, p. repeat split. exact Hp.
Qed.
(** ... but a circle never has: 0/0 in the angle *)
Theorem semi_axes_circle_refuted k : ca k = cc k -> cb k = 0 -> semi_axes k = None /\ conic_area k = None.
Proof.
  intros E Z. unfold conic_area, semi_axes, conic_angle, half_angle.
  destruct (Req_EM_T (ca k) (cc k)); [|contradiction].
  destruct (Rlt_dec 0 (cb k)); [lra|]. destruct (Rlt_dec (cb k) 0); [lra|]. split; reflexivity.
Qed.
(** the first axis is the larger one for equations with positive definite quadratic part and a <> c;
    it is the smaller one if a = c or if the equation is negated *)
Theorem semi_axes_order k A B : real_ellipse k -> semi_axes k = Some (A, B) ->
  (0 < ca k -> ca k <> cc k -> B < A) /\ (0 < ca k -> ca k = cc k -> A < B) /\ (ca k < 0 -> ca k <> cc k -> A < B).
Proof.
  intros [Hd He] Hs. unfold semi_axes in Hs. destruct (conic_angle k) as [t|] eqn:Ht; [|discriminate].
  rewrite semi_axes_unfold in Hs. cbv zeta in Hs.
  assert (Hq := num_det k t Ht). cbv zeta in Hq. assert (Hb := angle_removes_mixed k t Ht).
  assert (D := rot_disc k (cos t) (sin t) (cs1 t)). assert (T := rot_trace k (cos t) (sin t) (cs1 t)).
  assert (O1 := angle_orders k t Ht). assert (O2 := angle_orders_eq k t Ht).
  rewrite Hb in D.
  set (a1 := rot_a k (cos t) (sin t)) in *. set (c1 := rot_c k (cos t) (sin t)) in *.
  assert (P : 0 < a1 * c1) by lra.
  assert (Na : a1 <> 0) by (intro Z; rewrite Z in P; lra).
  assert (Nc : c1 <> 0) by (intro Z; rewrite Z in P; lra).
  destruct (Req_EM_T (a1 * c1) 0) as [Z|N]; [exfalso; lra|]. specialize (Hq N). rewrite Hq in Hs.
  destruct (Rlt_dec _ 0) as [|Q1]; [discriminate|]. destruct (Rlt_dec _ 0) as [|Q2]; [discriminate|].
  injection Hs as EA EB. set (det := conic_det k) in *. rewrite <- T in He.
  assert (AC : 0 < ca k * cc k) by (unfold disc in Hd; nra).
  set (n := - det / (a1 * c1)) in *.
  assert (ND : n * (a1 * c1) = - det) by (unfold n; field; auto).
  assert (NA : 0 < n * a1). { assert (0 < - det * a1) by nra. rewrite <- ND in H.
    assert (0 < a1 * c1) by exact P. nra. }
  assert (K : forall x y, 0 < x * y -> x - y <> 0 -> (0 < n * x) -> (n / x < n / y <-> 0 < (x - y) * n)).
  { intros x y Hxy Hne Hx. assert (x <> 0) by nra. assert (y <> 0) by nra.
    replace (n / x) with (n * y * / (x * y)) by (field; auto). replace (n / y) with (n * x * / (x * y)) by (field; auto).
    assert (0 < / (x * y)) by (apply Rinv_0_lt_compat, Hxy). split; intro; nra. }
  assert (L1 : forall p q, 0 <= p -> p < q -> sqrt p < sqrt q) by (intros; apply sqrt_lt_1; lra).
  rewrite <- EA, <- EB.
  assert (0 <= n / a1) by lra. assert (0 <= n / c1) by lra.
  assert (NC : 0 < n * c1) by nra.
  split; [|split].
  - intros Hpos Hne. specialize (O1 Hne). apply L1; [assumption|]. apply K; [nra|lra|exact NC|].
    assert (0 < ca k + cc k) by nra. assert (0 < n) by nra. nra.
  - intros Hpos Hne. specialize (O2 Hne). apply L1; [assumption|]. apply K; [nra|lra|exact NA|].
    assert (0 < ca k + cc k) by nra. assert (0 < n) by nra. nra.
  - intros Hneg Hne. specialize (O1 Hne). apply L1; [assumption|]. apply K; [nra|lra|exact NA|].
    assert (ca k + cc k < 0) by nra. assert (n < 0) by nra. nra.
Qed.
(** textbook area pi |det| / (ac - b^2/4)^(3/2) *)
Theorem conic_area_exact k S : real_ellipse k -> conic_area k = Some S ->
  let delta := ca k * cc k - cb k * cb k / 4 in
  0 < delta /\ S = PI * Rabs (conic_det k) / (delta * sqrt delta).
Proof.
  intros [Hd He] H delta. assert (PD : 0 < delta) by (unfold delta; unfold disc in Hd; lra).
  split; [exact PD|]. unfold conic_area in H. destruct (semi_axes k) as [[A B]|] eqn:Hs; [|discriminate].
  injection H as <-. unfold semi_axes in Hs. destruct (conic_angle k) as [t|] eqn:Ht; [|discriminate].
  rewrite semi_axes_unfold in Hs. cbv zeta in Hs.
  assert (Hq := num_det k t Ht). cbv zeta in Hq. assert (Hb := angle_removes_mixed k t Ht).
  assert (D := rot_disc k (cos t) (sin t) (cs1 t)). rewrite Hb in D.
  set (a1 := rot_a k (cos t) (sin t)) in *. set (c1 := rot_c k (cos t) (sin t)) in *.
  assert (ED : a1 * c1 = delta) by (unfold delta, disc in *; lra).
  destruct (Req_EM_T (a1 * c1) 0) as [Z|N]; [exfalso; lra|]. specialize (Hq N). rewrite Hq in Hs.
  destruct (Rlt_dec _ 0) as [|Q1]; [discriminate|]. destruct (Rlt_dec _ 0) as [|Q2]; [discriminate|].
  injection Hs as <- <-.
  assert (Na : a1 <> 0) by (intro Z; rewrite Z in N; lra).
  assert (Nc : c1 <> 0) by (intro Z; rewrite Z in N; lra).
  rewrite ED in *.
  rewrite Rmult_assoc, <- sqrt_mult by lra.
  assert (E : - conic_det k / delta / a1 * (- conic_det k / delta / c1) =
              (conic_det k / delta) ^ 2 / delta) by (rewrite <- ED; field; auto).
  rewrite E. rewrite sqrt_div_alt by lra. rewrite <- Rsqr_pow2, sqrt_Rsqr_abs.
  unfold Rdiv at 2. rewrite Rabs_mult, (Rabs_right (/ delta)) by (left; apply Rinv_0_lt_compat, PD).
  field. split; [apply Rgt_not_eq, sqrt_lt_R0, PD|lra].
Qed.
Lemma real_ellipse_ex : real_ellipse (Con 1 1 2 0 0 (-3)).
Proof. unfold real_ellipse, disc, conic_det; con; split; lra. Qed.
Example ex_semi_axes : exists t A B p, conic_angle (Con 1 1 2 0 0 (-3)) = Some t /\
  semi_axes (Con 1 1 2 0 0 (-3)) = Some (A, B) /\ conic_center (Con 1 1 2 0 0 (-3)) = Center p /\ B < A.
Proof.
  destruct (semi_axes_defined (Con 1 1 2 0 0 (-3)) real_ellipse_ex) as (t & A & B & p & H1 & H2 & H3); [right; con; lra|].
  exists t, A, B, p. repeat split; auto. apply (semi_axes_order _ A B real_ellipse_ex H2); con; lra.
Qed.
Print Assumptions semi_axes_exact. Print Assumptions semi_axes_defined. Print Assumptions semi_axes_circle_refuted.
Print Assumptions semi_axes_order. Print Assumptions conic_area_exact.

(** ** C16: eccentricity *)
(** textbook: e^2 = 1 - l1/l2 for the eigenvalues l1 <= l2 of the quadratic part *)
Definition eccentricity_of (k : conic) (e : R) : Prop :=
  0 <= e /\ exists l1 l2, 0 < l1 <= l2 /\ l1 + l2 = ca k + cc k /\ l1 * l2 = ca k * cc k - cb k * cb k / 4 /\ e * e = 1 - l1 / l2.
Theorem eccentricity_exact_iff k e : disc k < 0 -> 0 < ca k -> conic_det k < 0 -> conic_eccentricity k = Some e ->
  (eccentricity_of k e <-> cb k = 0).
Proof.
  intros Hd Ha He H. unfold conic_eccentricity in H. unfold disc in Hd.
  assert (Hc : 0 < cc k) by nra.
  destruct (Rlt_dec (conic_det k) 0) as [_|]; [|lra].
  set (a := ca k) in *. set (b := cb k) in *. set (c := cc k) in *.
  set (r' := sqrt ((a - c) ^ 2 + b * (1 / 2) * (b * (1 / 2)))) in *.
  assert (Sr' : r' * r' = (a - c) ^ 2 + b * (1/2) * (b * (1/2))) by (apply sqrt_sqrt, Rplus_le_le_0_compat; [apply pow2_ge_0|apply Rle_0_sqr]).
  assert (Pr' : 0 <= r') by apply sqrt_pos.
  destruct (Req_EM_T (r' + (a + c)) 0); [discriminate|].
  destruct (Rlt_dec (2 * r' / (r' + (a + c))) 0) as [|Q]; [discriminate|]. injection H as <-.
  set (r := sqrt ((a - c) ^ 2 + b * b)).
  assert (Sr : r * r = (a - c) ^ 2 + b * b) by (apply sqrt_sqrt, Rplus_le_le_0_compat; [apply pow2_ge_0|apply Rle_0_sqr]).
  assert (Pr : 0 <= r) by apply sqrt_pos.
  assert (EE : sqrt (2 * r' / (r' + (a + c))) * sqrt (2 * r' / (r' + (a + c))) = 2 * r' / (r' + (a + c)))
    by (apply sqrt_sqrt; lra).
  split.
  - intros (_ & l1 & l2 & [L1 L2] & S & M & E). fold a b c in S, M. rewrite EE in E.
    (* l2 - l1 = r *)
    assert (DR : (l2 - l1) * (l2 - l1) = r * r) by (transitivity ((l1+l2)*(l1+l2) - 4*(l1*l2)); [ring|rewrite S, M, Sr; field]).
    assert (DE : l2 - l1 = r) by (apply Rsqr_inj; [lra|exact Pr|exact DR]).
    assert (E2 : 1 - l1 / l2 = 2 * r / (r + (a + c))).
    { replace (a + c) with (l1 + l2) by lra. rewrite <- DE. field. split; lra. }
    rewrite E2 in E.
    assert (RR : r' = r).
    { assert (X : 2 * r' * (r + (a + c)) = 2 * r * (r' + (a + c))).
      { transitivity (2 * r' / (r' + (a + c)) * ((r' + (a + c)) * (r + (a + c)))); [field; lra|].
        rewrite E. field. lra. }
      assert (X2 : (r' - r) * (a + c) = 0) by lra. apply Rmult_integral in X2. destruct X2; lra. }
    rewrite RR, Sr in Sr'. assert (B0 : b * b = 0) by lra. apply Rmult_integral in B0. destruct B0; assumption.
  - intro Z. assert (RR : r' = Rabs (a - c)).
    { unfold r'. rewrite Z. replace ((a - c) ^ 2 + 0 * (1 / 2) * (0 * (1 / 2))) with (Rsqr (a - c)) by (unfold Rsqr; ring).
      apply sqrt_Rsqr_abs. }
    split; [apply sqrt_pos|]. exists (Rmin a c), (Rmax a c). fold a b c. rewrite EE, RR, Z.
    unfold Rmin, Rmax. destruct (Rle_dec a c).
    + rewrite Rabs_left1 by lra. repeat split; try lra. field. lra.
    + rewrite Rabs_right by lra. repeat split; try lra. field. lra.
Qed.
(** rotating an ellipse changes the reported eccentricity: x^2 + 4 y^2 = 4 turned by the angle of (4/5, 3/5) *)
Theorem eccentricity_rotation_refuted : exists k k' e e', 
  (forall x y, poly k' x y = poly k (4/5 * x + 3/5 * y) (- (3/5) * x + 4/5 * y)) /\
  conic_eccentricity k = Some e /\ conic_eccentricity k' = Some e' /\ e <> e'.
Proof.
  set (k := Con 1 0 4 0 0 (-4)). set (k' := Con (52/25) (-72/25) (73/25) 0 0 (-4)).
  assert (D : forall q, conic_det q < 0 -> 0 < ca q + cc q ->
    conic_eccentricity q = Some (sqrt (2 * sqrt ((ca q - cc q) ^ 2 + cb q * (1/2) * (cb q * (1/2))) /
      (sqrt ((ca q - cc q) ^ 2 + cb q * (1/2) * (cb q * (1/2))) + (ca q + cc q))))).
  { intros q Hq Hp. unfold conic_eccentricity. destruct (Rlt_dec (conic_det q) 0); [|lra].
    set (u := sqrt _). assert (0 <= u) by apply sqrt_pos.
    destruct (Req_EM_T _ 0); [lra|]. destruct (Rlt_dec _ 0) as [Z|]; [|reflexivity].
    exfalso. assert (0 <= 2 * u / (u + (ca q + cc q))); [|lra].
    apply Rmult_le_pos; [lra|]. left; apply Rinv_0_lt_compat; lra. }
  eexists k, k', _, _. split; [|split; [apply D; unfold k, conic_det; con; lra|split; [apply D; unfold k', conic_det; con; lra|]]].
  - intros x y. unfold poly, k, k'; con. field.
  - unfold k, k'; con.
    replace ((1 - 4) ^ 2 + 0 * (1 / 2) * (0 * (1 / 2))) with (3 * 3) by ring. rewrite sqrt_square by lra.
    set (s := sqrt ((52 / 25 - 73 / 25) ^ 2 + -72 / 25 * (1 / 2) * (-72 / 25 * (1 / 2)))).
    assert (S2 : s * s = 1737 / 625) by (unfold s; rewrite sqrt_sqrt by lra; field).
    assert (P : 0 <= s) by apply sqrt_pos.
    assert (L : s < 3) by nra.
    intro E. apply sqrt_inj in E.
    + assert (X : 2 * 3 / (3 + (1 + 4)) * ((3 + (1+4)) * (s + (52/25 + 73/25))) = 2 * s / (s + (52/25 + 73/25)) * ((3 + (1+4)) * (s + (52/25 + 73/25)))) by (rewrite E; reflexivity).
      assert (X2 : 2 * 3 / (3 + (1 + 4)) * ((3 + (1+4)) * (s + (52/25 + 73/25))) = 6 * (s + 5)) by (field).
      assert (X3 : 2 * s / (s + (52/25 + 73/25)) * ((3 + (1+4)) * (s + (52/25 + 73/25))) = 16 * s) by (field; lra).
      lra.
    + lra.
    + apply Rmult_le_pos; [lra|]. left; apply Rinv_0_lt_compat; lra.
Qed.
Print Assumptions eccentricity_exact_iff. Print Assumptions eccentricity_rotation_refuted.

(** Lemmas about the hand-eye calibration of Tsai and Lenz. *)
From Coq Require Import Reals Lra Lia Psatz Nsatz List Arith Bool.
Import ListNotations.
From Verif Require Import Mat Quat QuatProofs QuatMatProofs QuatTrigProofs Dlt DltProofs AbsOrient AbsOrientProofs AbsOrientProps ToolTipProps TsaiLenz.
Open Scope R_scope.

(** the imaginary part of a quaternion, and that of the one of q and -q with positive real part *)
Definition imv (q : quat) : vec3 := V3 (qx q) (qy q) (qz q).
Definition upper (q : quat) : vec3 := if Rlt_dec (qw q) 0 then v3opp (imv q) else imv q.

Lemma sqrt_abs x : sqrt (x * x) = Rabs x.
Proof. exact (sqrt_Rsqr_abs x). Qed.
Lemma over_abs x y : x <> 0 -> x * y / Rabs x = if Rlt_dec x 0 then - y else y.
Proof. intros H. destruct (Rlt_dec x 0) as [L|L]; [rewrite Rabs_left by exact L|rewrite Rabs_right by lra]; field; lra. Qed.

Lemma get_quaternion_spec m q : unit q -> qw q <> 0 -> meq 3 3 m (qmat q) -> get_quaternion m = upper q.
Proof.
  intros U W M.
  assert (M00 := M 0%nat 0%nat ltac:(lia) ltac:(lia)). assert (M01 := M 0%nat 1%nat ltac:(lia) ltac:(lia)). assert (M02 := M 0%nat 2%nat ltac:(lia) ltac:(lia)).
  assert (M10 := M 1%nat 0%nat ltac:(lia) ltac:(lia)). assert (M11 := M 1%nat 1%nat ltac:(lia) ltac:(lia)). assert (M12 := M 1%nat 2%nat ltac:(lia) ltac:(lia)).
  assert (M20 := M 2%nat 0%nat ltac:(lia) ltac:(lia)). assert (M21 := M 2%nat 1%nat ltac:(lia) ltac:(lia)). assert (M22 := M 2%nat 2%nat ltac:(lia) ltac:(lia)).
  clear M. destruct q as [x y z w]. unfold upper, imv. un.
  assert (Q0 : gq_q m 0 = w * w) by (unfold gq_q; rewrite M00, M11, M22; lra).
  assert (Q1 : gq_q m 1 = x * x) by (unfold gq_q; rewrite M00, M11, M22; lra).
  assert (Q2 : gq_q m 2 = y * y) by (unfold gq_q; rewrite M00, M11, M22; lra).
  assert (Q3 : gq_q m 3 = z * z) by (unfold gq_q; rewrite M00, M11, M22; lra).
  assert (O0 : (m 2%nat 1%nat - m 1%nat 2%nat) / 4 = w * x) by (rewrite M21, M12; lra).
  assert (O1 : (m 0%nat 2%nat - m 2%nat 0%nat) / 4 = w * y) by (rewrite M02, M20; lra).
  assert (O2 : (m 1%nat 0%nat - m 0%nat 1%nat) / 4 = w * z) by (rewrite M10, M01; lra).
  assert (O3 : (m 1%nat 0%nat + m 0%nat 1%nat) / 4 = x * y) by (rewrite M10, M01; lra).
  assert (O4 : (m 0%nat 2%nat + m 2%nat 0%nat) / 4 = x * z) by (rewrite M02, M20; lra).
  assert (O5 : (m 2%nat 1%nat + m 1%nat 2%nat) / 4 = y * z) by (rewrite M21, M12; lra).
  clear M00 M01 M02 M10 M11 M12 M20 M21 M22.
  assert (C : gq_largest (gq_q m) = 0%nat \/ (gq_largest (gq_q m) = 1%nat /\ x <> 0) \/ (gq_largest (gq_q m) = 2%nat /\ y <> 0) \/ (gq_largest (gq_q m) = 3%nat /\ z <> 0)).
  { assert (w2 : 0 < w * w) by nra. unfold gq_largest. rewrite Q0, Q1.
    destruct (Rlt_dec (w * w) (x * x)); [rewrite Q1|rewrite Q0]; rewrite Q2;
    (match goal with |- context [Rlt_dec ?a (y * y)] => destruct (Rlt_dec a (y * y)) end); rewrite ?Q0, ?Q1, ?Q2, Q3;
    (match goal with |- context [Rlt_dec ?a (z * z)] => destruct (Rlt_dec a (z * z)) end);
    first [left; reflexivity | right; left; split; [reflexivity|intros ->; lra] | right; right; left; split; [reflexivity|intros ->; lra] | right; right; right; split; [reflexivity|intros ->; lra]]. }
  unfold get_quaternion. cbv zeta. rewrite O0, O1, O2, O3, O4, O5.
  destruct C as [E|[[E N]|[[E N]|[E N]]]]; rewrite E; cbv iota beta; rewrite ?Q0, ?Q1, ?Q2, ?Q3, sqrt_abs.
  - rewrite !over_abs by exact W. assert (0 < Rabs w) by (apply Rabs_pos_lt; exact W). destruct (Rlt_dec (Rabs w) 0); [lra|]. destruct (Rlt_dec w 0); reflexivity.
  - rewrite (Rmult_comm w x). rewrite !over_abs by exact N. unfold Rabs. destruct (Rlt_dec x 0), (Rcase_abs x); try lra; [destruct (Rlt_dec (- w) 0)|]; destruct (Rlt_dec w 0); try lra; f_equal; lra.
  - rewrite (Rmult_comm w y), (Rmult_comm x y). rewrite !over_abs by exact N. unfold Rabs. destruct (Rlt_dec y 0), (Rcase_abs y); try lra; [destruct (Rlt_dec (- w) 0)|]; destruct (Rlt_dec w 0); try lra; f_equal; lra.
  - rewrite (Rmult_comm w z), (Rmult_comm x z), (Rmult_comm y z). rewrite !over_abs by exact N. unfold Rabs. destruct (Rlt_dec z 0), (Rcase_abs z); try lra; [destruct (Rlt_dec (- w) 0)|]; destruct (Rlt_dec w 0); try lra; f_equal; lra.
Qed.

(** getRcg turns imag / real back into the rotation matrix *)
Lemma get_rcg_spec q : unit q -> qw q <> 0 -> meq 3 3 (get_rcg (v3scale (/ qw q) (imv q))) (qmat q).
Proof.
  intros U W. destruct q as [x y z w]. unfold get_rcg. unfold imv in *. un.
  assert (D : sqrt (1 + (/ w * x * (/ w * x) + / w * y * (/ w * y) + / w * z * (/ w * z))) = / Rabs w).
  { replace (1 + (/ w * x * (/ w * x) + / w * y * (/ w * y) + / w * z * (/ w * z))) with (/ w * / w).
    - rewrite sqrt_abs. apply Rabs_inv.
    - replace (/ w * / w) with (/ w * / w * (x * x + y * y + z * z + w * w)) by (rewrite U; ring). field. exact W. }
  rewrite D. assert (A : 0 < Rabs w) by (apply Rabs_pos_lt; exact W).
  set (s := Rabs w / w).
  assert (S2 : s * s = 1). { unfold s, Rabs. destruct (Rcase_abs w); field; exact W. }
  assert (SW : s * Rabs w = w). { unfold s, Rabs. destruct (Rcase_abs w); field; exact W. }
  assert (V : forall c, 2 * (/ w * c) / / Rabs w = 2 * s * c) by (intros c; unfold s; field; split; [exact W|lra]).
  rewrite !V. intros i j Hi Hj. unfold get_matrix. cbn [vx vy vz].
  assert (L : 2 * s * x * (2 * s * x) + 2 * s * y * (2 * s * y) + 2 * s * z * (2 * s * z) = 4 - 4 * (w * w)).
  { replace (2 * s * x * (2 * s * x) + 2 * s * y * (2 * s * y) + 2 * s * z * (2 * s * z)) with (4 * (s * s) * (x * x + y * y + z * z)) by ring. rewrite S2. lra. }
  rewrite L. replace (4 - (4 - 4 * (w * w))) with (2 * w * (2 * w)) by ring. rewrite sqrt_abs, Rabs_mult, (Rabs_right 2) by lra.
  unfold skew_v, mk33, eye. cbn [vx vy vz]. clearbody s. set (a := Rabs w) in *. clearbody a.
  replace ((4 - 4 * (w * w)) / 2) with (2 - 2 * (w * w)) by lra. assert (HH : 2 * (1 / 2) = 1) by lra. set (h := 1 / 2) in *. clearbody h. clear D V A L. idx i Hi; idx j Hj; cbn; nsatz.
Qed.
(** whatever the least squares solution, getRcg returns a rotation by less than a half turn *)
Lemma get_rcg_upper p : exists q, unit q /\ 0 < qw q /\ meq 3 3 (get_rcg p) (qmat q).
Proof.
  set (d := 1 + (vx p * vx p + vy p * vy p + vz p * vz p)). assert (D : 0 < d) by (unfold d; nra). assert (S := sqrt_lt_R0 d D). assert (SS := sqrt_sqrt d (Rlt_le _ _ D)).
  set (q := Q (vx p / sqrt d) (vy p / sqrt d) (vz p / sqrt d) (/ sqrt d)).
  assert (U : unit q). { unfold q, unit, qnorm. cbn [qx qy qz qw]. replace (vx p / sqrt d * (vx p / sqrt d) + vy p / sqrt d * (vy p / sqrt d) + vz p / sqrt d * (vz p / sqrt d) + / sqrt d * / sqrt d) with (d / (sqrt d * sqrt d)) by (unfold d at 1; field; lra). rewrite SS. field. lra. }
  exists q. assert (W : 0 < qw q) by (apply Rinv_0_lt_compat; exact S). split; [exact U|]. split; [exact W|].
  replace p with (v3scale (/ qw q) (imv q)) at 1; [apply get_rcg_spec; [exact U|lra]|]. unfold v3scale, imv, q. cbn [qx qy qz qw vx vy vz]. destruct p as [a b c]. cbn [vx vy vz] in *. f_equal; field; lra.
Qed.

(** a motion of hand and eye and what it says about the transformation X between them *)
Lemma conj_parts X c : unit X -> qw (qmul (qmul X c) (qconj X)) = qw c /\ imv (qmul (qmul X c) (qconj X)) = qrot X (imv c).
Proof. intros U. destruct X as [a b c0 d], c as [x y z w]. unfold imv. un. split; [|f_equal]; nsatz. Qed.
Lemma qmul_opp_l p q : qmul (qopp p) q = qopp (qmul p q).
Proof. d4. un. f_equal; ring. Qed.
Lemma imv_opp q : imv (qopp q) = v3opp (imv q).
Proof. d4. reflexivity. Qed.
Lemma v3opp_opp v : v3opp (v3opp v) = v.
Proof. d3. un. f_equal; ring. Qed.
Lemma qrot_same_mat p q : unit p -> unit q -> (forall x, qrot p x = qrot q x) -> meq 3 3 (qmat p) (qmat q).
Proof.
  intros UP UQ H. assert (A := H (V3 1 0 0)). assert (B := H (V3 0 1 0)). assert (C := H (V3 0 0 1)).
  rewrite !qrot_mat in A, B, C by assumption. unfold mv3 in A, B, C. cbn [vx vy vz] in A, B, C.
  assert (A0 := f_equal vx A). assert (A1 := f_equal vy A). assert (A2 := f_equal vz A). assert (B0 := f_equal vx B). assert (B1 := f_equal vy B). assert (B2 := f_equal vz B). assert (C0 := f_equal vx C). assert (C1 := f_equal vy C). assert (C2 := f_equal vz C).
  cbn [vx vy vz] in A0, A1, A2, B0, B1, B2, C0, C1, C2. intros i j Hi Hj. idx i Hi; idx j Hj; lra.
Qed.
Lemma same_motion p q : (forall x, papp p x = papp q x) -> (forall x, qrot (rot p) x = qrot (rot q) x) /\ tra p = tra q.
Proof.
  intros H. assert (T : tra p = tra q).
  { assert (Z := H v3zero). unfold papp in Z. assert (QZ : forall r, qrot r v3zero = v3zero) by (intros r; d4; un; f_equal; ring). rewrite !QZ in Z. assert (A := f_equal vx Z). assert (B := f_equal vy Z). assert (C := f_equal vz Z). cbn in A, B, C. apply v3_ext; lra. }
  split; [|exact T]. intros x. assert (Z := H x). unfold papp in Z. rewrite T in Z. assert (A := f_equal vx Z). assert (B := f_equal vy Z). assert (C := f_equal vz Z). unfold v3add in A, B, C. cbn [vx vy vz] in A, B, C. apply v3_ext; lra.
Qed.
Lemma upper_conj X g c : unit X -> unit g -> unit c -> qw g <> 0 -> (forall x, qrot (qmul g X) x = qrot (qmul X c) x) ->
  qw c <> 0 /\ upper g = qrot X (upper c).
Proof.
  intros UX UG UC W H.
  assert (E : g = qmul (qmul X c) (qconj X) \/ g = qopp (qmul (qmul X c) (qconj X))).
  { assert (I : g = qmul (qmul g X) (qconj X)) by (rewrite <- qmul_assoc, qmul_conj_r by exact UX; symmetry; apply qmul_one_r).
    destruct (qmat_inj _ _ (unit_mul _ _ UG UX) (unit_mul _ _ UX UC) (qrot_same_mat _ _ (unit_mul _ _ UG UX) (unit_mul _ _ UX UC) H)) as [E|E]; rewrite E in I; [left; exact I|right]. rewrite qmul_opp_l in I. exact I. }
  destruct (conj_parts X c UX) as [PW PI]. unfold upper.
  destruct E as [E|E]; rewrite E in *.
  - rewrite PW, PI in *. split; [exact W|]. destruct (Rlt_dec (qw c) 0); [rewrite qrot_opp|]; reflexivity.
  - rewrite imv_opp, PI. unfold qopp in *. cbn [qw] in *. rewrite PW in *. split; [lra|]. destruct (Rlt_dec (- qw c) 0), (Rlt_dec (qw c) 0); try lra; [rewrite v3opp_opp|rewrite qrot_opp]; reflexivity.
Qed.

(** the rotation equation: ( pg + pc ) x p = pc - pg *)
Lemma rot_equation X c : unit X -> qw X <> 0 ->
  cross3 (v3add (qrot X c) c) (v3scale (/ qw X) (imv X)) = v3sub c (qrot X c).
Proof.
  intros U W. destruct X as [a b e w], c as [x y z]. rewrite qrot_mat by exact U. unfold imv, v3sub. un.
  assert (I : / w * w = 1) by (field; exact W). set (k := / w) in *. clearbody k. f_equal; nsatz.
Qed.
(** R x = - x only for half turns *)
Lemma no_reversal X v : unit X -> qw X <> 0 -> v3add (qrot X v) v = v3zero -> v = v3zero.
Proof.
  intros U W H. destruct X as [a b c w], v as [x y z]. rewrite qrot_mat in H by exact U. un.
  assert (A := f_equal vx H). assert (B := f_equal vy H). assert (C := f_equal vz H). cbn [vx vy vz] in A, B, C. clear H.
  assert (wx : w * x = 0) by nsatz. assert (wy : w * y = 0) by nsatz. assert (wz : w * z = 0) by nsatz.
  f_equal; eapply Rmult_eq_reg_l; try exact W; lra.
Qed.
(** only vectors along the axis stay where they are *)
Lemma fixed_axis g d : unit g -> v3sub (qrot g d) d = v3zero -> v3scale 2 (cross3 (imv g) d) = v3zero.
Proof.
  intros U H. destruct g as [a b c w], d as [x y z]. rewrite qrot_mat in H by exact U. unfold imv, v3sub in *. un.
  assert (A := f_equal vx H). assert (B := f_equal vy H). assert (C := f_equal vz H). cbn [vx vy vz] in A, B, C. clear H. f_equal; nsatz.
Qed.
Lemma cross_zero_along u d : cross3 u d = v3zero -> v3scale (dot3 d d) u = v3scale (dot3 u d) d.
Proof. destruct u as [a b c], d as [x y z]. un. intros H. assert (A := f_equal vx H). assert (B := f_equal vy H). assert (C := f_equal vz H). cbn [vx vy vz] in A, B, C. f_equal; nsatz. Qed.
Lemma dot3_zero d : dot3 d d = 0 -> d = v3zero.
Proof. exact (sq3_zero d). Qed.
Lemma scale_zero r u : r <> 0 -> v3scale r u = v3zero -> u = v3zero.
Proof. intros D L. assert (L0 := f_equal vx L). assert (L1 := f_equal vy L). assert (L2 := f_equal vz L). unfold v3scale in L0, L1, L2. cbn [vx vy vz v3zero] in L0, L1, L2. apply v3_ext; cbn [v3zero vx vy vz]; (eapply Rmult_eq_reg_l; [|exact D]); lra. Qed.
(** two directions that are not parallel have only the zero vector in common *)
Lemma common_direction u v d : cross3 u v <> v3zero -> cross3 u d = v3zero -> cross3 v d = v3zero -> d = v3zero.
Proof.
  intros N A B. destruct (v3_eq_dec_zero d) as [Z|Z]; [exact Z|exfalso]. apply N.
  assert (D : dot3 d d <> 0) by (intros E; apply Z; apply dot3_zero; exact E).
  apply cross_zero_along in A, B. destruct u as [a b c], v as [e f g], d as [x y z]. un.
  assert (A0 := f_equal vx A). assert (A1 := f_equal vy A). assert (A2 := f_equal vz A). assert (B0 := f_equal vx B). assert (B1 := f_equal vy B). assert (B2 := f_equal vz B). cbn [vx vy vz] in *. clear A B N Z.
  set (r := x * x + y * y + z * z) in *. assert (RR : r * r <> 0) by (intros E; apply D; nra).
  assert (E0 : r * r * (b * g - c * f) = 0) by (replace (r * r * (b * g - c * f)) with ((r * b) * (r * g) - (r * c) * (r * f)) by ring; rewrite A1, A2, B1, B2; ring).
  assert (E1 : r * r * (c * e - a * g) = 0) by (replace (r * r * (c * e - a * g)) with ((r * c) * (r * e) - (r * a) * (r * g)) by ring; rewrite A0, A2, B0, B2; ring).
  assert (E2 : r * r * (a * f - b * e) = 0) by (replace (r * r * (a * f - b * e)) with ((r * a) * (r * f) - (r * b) * (r * e)) by ring; rewrite A0, A1, B0, B1; ring).
  f_equal; eapply Rmult_eq_reg_l; try exact RR; lra.
Qed.
(** ... and this survives the map x -> R x + x *)
Lemma common_direction_turned X u v d : unit X -> qw X <> 0 -> cross3 u v <> v3zero ->
  cross3 (v3add (qrot X u) u) d = v3zero -> cross3 (v3add (qrot X v) v) d = v3zero -> d = v3zero.
Proof.
  intros U W N A B. destruct (v3_eq_dec_zero d) as [Z|Z]; [exact Z|exfalso]. apply N. clear N.
  assert (D : dot3 d d <> 0) by (intros E; apply Z; apply dot3_zero; exact E).
  apply cross_zero_along in A, B. set (Lu := v3add (qrot X u) u) in *. set (Lv := v3add (qrot X v) v) in *.
  set (a := dot3 Lu d) in *. set (b := dot3 Lv d) in *. set (r := dot3 d d) in *.
  assert (K : v3sub (v3scale b u) (v3scale a v) = v3zero).
  { apply (no_reversal X _ U W). rewrite qrot_sub, !qrot_scale.
    assert (L : v3scale r (v3add (v3sub (v3scale b (qrot X u)) (v3scale a (qrot X v))) (v3sub (v3scale b u) (v3scale a v))) = v3zero).
    { transitivity (v3sub (v3scale b (v3scale r Lu)) (v3scale a (v3scale r Lv))).
      - unfold Lu, Lv, v3sub, v3add, v3opp, v3scale. cbn. f_equal; ring.
      - rewrite A, B. unfold v3sub, v3add, v3opp, v3scale, v3zero. cbn. f_equal; ring. }
    exact (scale_zero _ _ D L). }
  assert (KB : v3scale b (cross3 u v) = v3zero).
  { apply v3_ext_sub in K. transitivity (cross3 (v3scale b u) v); [unfold cross3, v3scale; cbn; f_equal; ring|]. rewrite K. unfold cross3, v3scale, v3zero. cbn. f_equal; ring. }
  assert (KA : v3scale a (cross3 u v) = v3zero).
  { apply v3_ext_sub in K. transitivity (cross3 u (v3scale a v)); [unfold cross3, v3scale; cbn; f_equal; ring|]. rewrite <- K. unfold cross3, v3scale, v3zero. cbn. f_equal; ring. }
  destruct (Req_dec a 0) as [A0|A0].
  - (* u + R u = 0 *)
    assert (LU : Lu = v3zero). { apply (scale_zero r _ D). rewrite A, A0. unfold v3scale, v3zero. f_equal; ring. }
    rewrite (no_reversal X u U W LU). unfold cross3, v3zero. cbn. f_equal; ring.
  - exact (scale_zero _ _ A0 KA).
Qed.

(** systems of blocks of three rows *)
Definition vec_of (x : vect) : vec3 := V3 (x 0%nat) (x 1%nat) (x 2%nat).
Lemma block_residual {A} (m : A -> mat) (r : A -> vec3) l x :
  residual (length (flat_map (fun a => rows3 (m a)) l)) 3 (rows_mat (flat_map (fun a => rows3 (m a)) l)) (fun i => nth i (flat_map (fun a => list3 (r a)) l) 0) x =
  lsum (fun a => sq3 (v3sub (mv3 (m a) (vec_of x)) (r a))) l.
Proof.
  induction l as [|a l IH]; [reflexivity|]. unfold lsum in *. cbn [fold_right]. rewrite <- IH. unfold residual.
  change (length (flat_map (fun a => rows3 (m a)) (a :: l))) with (3 + length (flat_map (fun a => rows3 (m a)) l))%nat. rewrite sum_split. f_equal.
  cbn [sum]. unfold mvec, rows_mat. cbn [flat_map rows3 list3 app nth sum]. unfold sq3, dot3, v3sub, v3add, v3opp, mv3, vec_of. cbn [vx vy vz]. ring.
Qed.
Lemma block_solution {A} (gels : gels3) (m : A -> mat) (r : A -> vec3) l s :
  least_squares (length (flat_map (fun a => rows3 (m a)) l)) 3 (rows_mat (flat_map (fun a => rows3 (m a)) l)) (fun i => nth i (flat_map (fun a => list3 (r a)) l) 0)
    (gels (length (flat_map (fun a => rows3 (m a)) l)) (rows_mat (flat_map (fun a => rows3 (m a)) l)) (fun i => nth i (flat_map (fun a => list3 (r a)) l) 0)) ->
  (forall a, In a l -> mv3 (m a) s = r a) ->
  (forall d, (forall a, In a l -> mv3 (m a) d = v3zero) -> d = v3zero) ->
  solve3 gels (flat_map (fun a => rows3 (m a)) l) (flat_map (fun a => list3 (r a)) l) = s.
Proof.
  intros LS S K. unfold solve3. set (v := gels _ _ _) in *. fold (vec_of v). specialize (LS (fun i => match i with 0 => vx s | 1 => vy s | _ => vz s end%nat)).
  rewrite !block_residual in LS. change (vec_of (fun i => match i with 0 => vx s | 1 => vy s | _ => vz s end%nat)) with (V3 (vx s) (vy s) (vz s)) in LS.
  replace (V3 (vx s) (vy s) (vz s)) with s in LS by (destruct s; reflexivity).
  rewrite (lsum_ext (fun a => sq3 (v3sub (mv3 (m a) s) (r a))) (fun _ => 0) l) in LS by (intros a Ha; rewrite (S a Ha); unfold sq3, dot3, v3sub, v3add, v3opp; cbn; ring).
  rewrite lsum_const in LS.
  assert (P := lsum_nonneg (fun a => sq3 (v3sub (mv3 (m a) (vec_of v)) (r a))) l (fun a _ => sq3_nonneg _)).
  assert (Z : lsum (fun a => sq3 (v3sub (mv3 (m a) (vec_of v)) (r a))) l = 0) by lra.
  apply v3_ext_sub. apply K. intros a Ha.
  assert (E := lsum_zero _ l (fun a _ => sq3_nonneg _) Z a Ha). apply sq3_zero, v3_ext_sub in E.
  transitivity (v3sub (mv3 (m a) (vec_of v)) (mv3 (m a) s)).
  - unfold mv3, v3sub, v3add, v3opp. cbn. f_equal; ring.
  - rewrite E, (S a Ha). unfold v3sub, v3add, v3opp, v3zero. cbn. f_equal; ring.
Qed.

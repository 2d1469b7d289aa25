(** Lemmas on binary64 arithmetic and the quaternion operations of Float64.v. *)
From Coq Require Import ZArith Reals Bool List Lra Lia.
From Flocq Require Import Core BinarySingleNaN Binary Bits Relative.
From Verif Require Import Mat Quat QuatProofs Float64.
Import ListNotations.
Open Scope R_scope.

Notation val := (B2R 53 1024).
Definition fin (d : dbl) : Prop := is_finite 53 1024 d = true.
(** half a unit in the last place of numbers in [1, 2); the largest absolute error in the subnormal range *)
Definition u : R := 1 / 9007199254740992.
Definition eta : R := / 2 * bpow radix2 (-1074).
Definition rnd (x : R) : R := round radix2 (SpecFloat.fexp 53 1024) (round_mode mode_NE) x.

Lemma u_bpow : / 2 * bpow radix2 (-53 + 1) = u.
Proof. unfold u. cbn. field. Qed.
Lemma eta_pos : 0 < eta.
Proof. unfold eta. assert (0 < bpow radix2 (-1074)) by apply bpow_gt_0. lra. Qed.
Lemma eta_small : eta <= u * / 9007199254740992.
Proof.
  unfold eta, u. assert (bpow radix2 (-1074) <= bpow radix2 (-106)) by (apply bpow_le; lia). cbn in *. 
  assert (E : / 81129638414606681695789005144064 = 1 / 9007199254740992 * / 9007199254740992) by field.
  lra.
Qed.
Lemma rnd_error x : Rabs (rnd x - x) <= u * Rabs x + eta.
Proof.
  unfold rnd. change (SpecFloat.fexp 53 1024) with (FLT_exp (-1074) 53). destruct (error_N_FLT radix2 (-1074) 53 eq_refl (fun x => negb (Z.even x)) x) as (eps & et & H1 & H2 & _ & E).
  cbn [round_mode]. rewrite E. assert (H1' : Rabs eps <= u) by (rewrite <- u_bpow; exact H1). fold eta in H2.
  replace (x * (1 + eps) + et - x) with (eps * x + et) by ring. eapply Rle_trans; [apply Rabs_triang|]. rewrite Rabs_mult. apply Rplus_le_compat; [|exact H2]. apply Rmult_le_compat_r; [apply Rabs_pos|exact H1'].
Qed.
Lemma big_enough x : Rabs x <= 1000000 -> Rlt_bool (Rabs (rnd x)) (bpow radix2 1024) = true.
Proof.
  intros H. apply Rlt_bool_true. assert (E := rnd_error x). assert (S := eta_small). assert (P := eta_pos). unfold u in *.
  assert (Rabs (rnd x) <= Rabs x + Rabs (rnd x - x)) by (replace (rnd x) with (x + (rnd x - x)) at 1 by ring; apply Rabs_triang).
  assert (B : bpow radix2 21 <= bpow radix2 1024) by (apply bpow_le; lia). cbn -[bpow] in B. assert (bpow radix2 21 = 2097152) by reflexivity. lra.
Qed.
(** [d] is a finite number within [e] of [x] *)
Definition near (d : dbl) (x e : R) : Prop := fin d /\ Rabs (val d - x) <= e.
Lemma mul_near a b : fin a -> fin b -> Rabs (val a * val b) <= 1000000 -> near (dmul a b) (val a * val b) (u * Rabs (val a * val b) + eta).
Proof.
  intros Fa Fb H. unfold near, fin, dmul, b64_mult in *. assert (C := Bmult_correct 53 1024 eq_refl eq_refl binop_nan_pl64 mode_NE a b). fold (rnd (val a * val b)) in C. rewrite (big_enough _ H) in C. destruct C as (E & F & _).
  rewrite F, Fa, Fb, E. split; [reflexivity|apply rnd_error].
Qed.
Lemma add_near a b : fin a -> fin b -> Rabs (val a + val b) <= 1000000 -> near (dadd a b) (val a + val b) (u * Rabs (val a + val b) + eta).
Proof.
  intros Fa Fb H. unfold near, fin, dadd, b64_plus in *. assert (C := Bplus_correct 53 1024 eq_refl eq_refl binop_nan_pl64 mode_NE a b Fa Fb). fold (rnd (val a + val b)) in C. rewrite (big_enough _ H) in C. destruct C as (E & F & _).
  rewrite F, E. split; [reflexivity|apply rnd_error].
Qed.
Lemma sub_near a b : fin a -> fin b -> Rabs (val a - val b) <= 1000000 -> near (dsub a b) (val a - val b) (u * Rabs (val a - val b) + eta).
Proof.
  intros Fa Fb H. unfold near, fin, dsub, b64_minus in *. assert (C := Bminus_correct 53 1024 eq_refl eq_refl binop_nan_pl64 mode_NE a b Fa Fb). fold (rnd (val a - val b)) in C. rewrite (big_enough _ H) in C. destruct C as (E & F & _).
  rewrite F, E. split; [reflexivity|apply rnd_error].
Qed.
Lemma opp_val a : val (dopp a) = - val a. Proof. apply B2R_Bopp. Qed.
Lemma opp_fin a : fin a -> fin (dopp a). Proof. unfold fin, dopp, b64_opp. rewrite is_finite_Bopp. tauto. Qed.
Lemma abs_val a : val (dabs a) = Rabs (val a). Proof. apply B2R_Babs. Qed.
Lemma abs_fin a : fin a -> fin (dabs a). Proof. unfold fin, dabs, b64_abs. rewrite is_finite_Babs. tauto. Qed.

(** addition or subtraction *)
Definition dpm (s : bool) (a b : dbl) : dbl := if s then dadd a b else dsub a b.
Definition rpm (s : bool) (a b : R) : R := if s then a + b else a - b.
Lemma pm_near s a b x y e1 e2 : near a x e1 -> near b y e2 -> Rabs x + Rabs y + e1 + e2 <= 1000000 ->
  near (dpm s a b) (rpm s x y) (e1 + e2 + u * (Rabs x + Rabs y + e1 + e2) + eta).
Proof.
  intros (Fa & Ea) (Fb & Eb) H. 
  assert (B : Rabs (rpm s (val a) (val b)) <= Rabs x + Rabs y + e1 + e2).
  { assert (Rabs (rpm s (val a) (val b)) <= Rabs (val a) + Rabs (val b)) by (destruct s; cbn [rpm]; unfold Rminus; [apply Rabs_triang|rewrite <- (Rabs_Ropp (val b)); apply Rabs_triang]).
    assert (Rabs (val a) <= Rabs x + Rabs (val a - x)) by (replace (val a) with (x + (val a - x)) at 1 by ring; apply Rabs_triang).
    assert (Rabs (val b) <= Rabs y + Rabs (val b - y)) by (replace (val b) with (y + (val b - y)) at 1 by ring; apply Rabs_triang). lra. }
  assert (N : near (dpm s a b) (rpm s (val a) (val b)) (u * Rabs (rpm s (val a) (val b)) + eta)) by (destruct s; [apply add_near|apply sub_near]; try assumption; cbn [rpm] in B; lra).
  destruct N as (F & E). split; [exact F|].
  assert (D : Rabs (rpm s (val a) (val b) - rpm s x y) <= e1 + e2).
  { replace (rpm s (val a) (val b) - rpm s x y) with (rpm s (val a - x) (val b - y)) by (destruct s; cbn [rpm]; ring).
    assert (Rabs (rpm s (val a - x) (val b - y)) <= Rabs (val a - x) + Rabs (val b - y)) by (destruct s; cbn [rpm]; [apply Rabs_triang|unfold Rminus at 1; rewrite <- (Rabs_Ropp (val b - y)); apply Rabs_triang]). lra. }
  assert (Rabs (val (dpm s a b) - rpm s x y) <= Rabs (val (dpm s a b) - rpm s (val a) (val b)) + Rabs (rpm s (val a) (val b) - rpm s x y)).
  { replace (val (dpm s a b) - rpm s x y) with ((val (dpm s a b) - rpm s (val a) (val b)) + (rpm s (val a) (val b) - rpm s x y)) by ring. apply Rabs_triang. }
  assert (u * Rabs (rpm s (val a) (val b)) <= u * (Rabs x + Rabs y + e1 + e2)) by (apply Rmult_le_compat_l; [unfold u; lra|exact B]). lra.
Qed.
Lemma near_weaken d x e e' : near d x e -> e <= e' -> near d x e'.
Proof. intros (F & E) H. split; [exact F|lra]. Qed.
Lemma rpm_abs s x y : Rabs (rpm s x y) <= Rabs x + Rabs y.
Proof. destruct s; cbn [rpm]; [apply Rabs_triang|]. unfold Rminus. rewrite <- (Rabs_Ropp y). apply Rabs_triang. Qed.
(** four products, added or subtracted from left to right *)
Lemma dot4_near s1 s2 s3 a1 b1 a2 b2 a3 b3 a4 b4 A : fin a1 -> fin b1 -> fin a2 -> fin b2 -> fin a3 -> fin b3 -> fin a4 -> fin b4 ->
  Rabs (val a1 * val b1) + Rabs (val a2 * val b2) + Rabs (val a3 * val b3) + Rabs (val a4 * val b4) <= A -> A <= 1000 ->
  near (dpm s3 (dpm s2 (dpm s1 (dmul a1 b1) (dmul a2 b2)) (dmul a3 b3)) (dmul a4 b4))
       (rpm s3 (rpm s2 (rpm s1 (val a1 * val b1) (val a2 * val b2)) (val a3 * val b3)) (val a4 * val b4)) (41 / 10 * u * A + 8 * eta).
Proof.
  intros F1 G1 F2 G2 F3 G3 F4 G4 HA HB. set (p1 := val a1 * val b1) in *. set (p2 := val a2 * val b2) in *. set (p3 := val a3 * val b3) in *. set (p4 := val a4 * val b4) in *.
  assert (P1 := Rabs_pos p1). assert (P2 := Rabs_pos p2). assert (P3 := Rabs_pos p3). assert (P4 := Rabs_pos p4). assert (SM := eta_small). assert (EP := eta_pos). 
  assert (M1 : near (dmul a1 b1) p1 (u * Rabs p1 + eta)) by (apply mul_near; [assumption..|fold p1; lra]).
  assert (M2 : near (dmul a2 b2) p2 (u * Rabs p2 + eta)) by (apply mul_near; [assumption..|fold p2; lra]).
  assert (M3 : near (dmul a3 b3) p3 (u * Rabs p3 + eta)) by (apply mul_near; [assumption..|fold p3; lra]).
  assert (M4 : near (dmul a4 b4) p4 (u * Rabs p4 + eta)) by (apply mul_near; [assumption..|fold p4; lra]).
  unfold u in *.
  assert (T1 := pm_near s1 _ _ _ _ _ _ M1 M2 ltac:(lra)). assert (R1 := rpm_abs s1 p1 p2).
  assert (T2 := pm_near s2 _ _ _ _ _ _ T1 M3 ltac:(unfold u; lra)). assert (R2 := rpm_abs s2 (rpm s1 p1 p2) p3).
  assert (T3 := pm_near s3 _ _ _ _ _ _ T2 M4 ltac:(unfold u; lra)).
  eapply near_weaken; [exact T3|]. unfold u. lra.
Qed.

(** ** Quaternions *)
Definition qval (q : dq) : quat := Q (val (dx q)) (val (dy q)) (val (dz q)) (val (dw q)).
Definition qfin (q : dq) : Prop := fin (dx q) /\ fin (dy q) /\ fin (dz q) /\ fin (dw q).
Definition len (q : quat) : R := sqrt (qnorm q).
Lemma qnorm_pos q : 0 <= qnorm q.
Proof. unfold qnorm. assert (A := Rle_0_sqr (qx q)). assert (B := Rle_0_sqr (qy q)). assert (C := Rle_0_sqr (qz q)). assert (D := Rle_0_sqr (qw q)). unfold Rsqr in *. lra. Qed.
Lemma len_pos q : 0 <= len q. Proof. apply sqrt_pos. Qed.
Lemma len_sq q : len q * len q = qnorm q. Proof. apply sqrt_sqrt, qnorm_pos. Qed.
Lemma len_mul p q : len (qmul p q) = len p * len q.
Proof. unfold len. rewrite <- sqrt_mult by apply qnorm_pos. f_equal. unfold qnorm, qmul. cbn [qx qy qz qw]. ring. Qed.
Lemma len_le q b : 0 <= b -> qnorm q <= b * b -> len q <= b.
Proof. intros B H. unfold len. rewrite <- (sqrt_square b B). apply sqrt_le_1_alt, H. Qed.
Lemma cauchy_quat p q : qdot p q <= len p * len q.
Proof.
  destruct (Rle_or_lt (qdot p q) 0) as [N|N]; [assert (A := Rmult_le_pos _ _ (len_pos p) (len_pos q)); lra|].
  apply Rsqr_incr_0_var; [|apply Rmult_le_pos; apply len_pos]. unfold Rsqr. replace (len p * len q * (len p * len q)) with ((len p * len p) * (len q * len q)) by ring. rewrite !len_sq.
  destruct p as [a b c d], q as [e f g h]. unfold qdot, qnorm. cbn [qx qy qz qw].
  assert (A1 := Rle_0_sqr (a * f - b * e)). assert (A2 := Rle_0_sqr (a * g - c * e)). assert (A3 := Rle_0_sqr (a * h - d * e)). assert (A4 := Rle_0_sqr (b * g - c * f)). assert (A5 := Rle_0_sqr (b * h - d * f)). assert (A6 := Rle_0_sqr (c * h - d * g)). unfold Rsqr in *. lra.
Qed.
Lemma len_triangle p q : len (qadd p q) <= len p + len q.
Proof.
  apply len_le; [assert (A := len_pos p); assert (B := len_pos q); lra|]. replace (qnorm (qadd p q)) with (qnorm p + qnorm q + 2 * qdot p q) by (unfold qnorm, qadd, qdot; cbn [qx qy qz qw]; ring).
  assert (C := cauchy_quat p q). rewrite <- !len_sq. lra.
Qed.
Definition dist (p q : quat) : R := len (qsub p q).
Lemma dist_triangle p q r : dist p r <= dist p q + dist q r.
Proof. unfold dist. replace (qsub p r) with (qadd (qsub p q) (qsub q r)) by (unfold qadd, qsub; cbn [qx qy qz qw]; f_equal; ring). apply len_triangle. Qed.
Lemma len_dist p q : len p <= len q + dist p q.
Proof. unfold dist. replace p with (qadd q (qsub p q)) at 1; [apply len_triangle|]. destruct p as [a b c d], q as [e f g h]. unfold qadd, qsub. cbn [qx qy qz qw]. f_equal; ring. Qed.
Lemma dist_sym p q : dist p q = dist q p.
Proof. unfold dist, len. f_equal. unfold qnorm, qsub. cbn [qx qy qz qw]. ring. Qed.
Lemma abs_products p q : Rabs (qx p) * Rabs (qx q) + Rabs (qy p) * Rabs (qy q) + Rabs (qz p) * Rabs (qz q) + Rabs (qw p) * Rabs (qw q) <= len p * len q.
Proof.
  assert (C := cauchy_quat (Q (Rabs (qx p)) (Rabs (qy p)) (Rabs (qz p)) (Rabs (qw p))) (Q (Rabs (qx q)) (Rabs (qy q)) (Rabs (qz q)) (Rabs (qw q)))). unfold qdot in C. cbn [qx qy qz qw] in C.
  assert (L : forall r, len (Q (Rabs (qx r)) (Rabs (qy r)) (Rabs (qz r)) (Rabs (qw r))) = len r).
  { intros r. unfold len, qnorm. cbn [qx qy qz qw]. f_equal. rewrite <- !Rabs_mult. rewrite !(Rabs_pos_eq (_ * _)) by apply Rle_0_sqr. reflexivity. }
  rewrite !L in C. exact C.
Qed.
Lemma dist_bound p q e : 0 <= e -> Rabs (qx p - qx q) <= e -> Rabs (qy p - qy q) <= e -> Rabs (qz p - qz q) <= e -> Rabs (qw p - qw q) <= e -> dist p q <= 2 * e.
Proof.
  intros E X Y Z W. apply len_le; [lra|]. unfold qnorm, qsub. cbn [qx qy qz qw].
  assert (G : forall a, Rabs a <= e -> a * a <= e * e) by (intros a H; rewrite <- (Rabs_pos_eq (a * a)) by apply Rle_0_sqr; rewrite Rabs_mult; apply Rmult_le_compat; try apply Rabs_pos; exact H).
  apply G in X, Y, Z, W. lra.
Qed.
(** permuting the components and changing signs *)
Lemma len_perm a b c d : len (Q a b c d) = len (Q d c b a) /\ len (Q a b c d) = len (Q b a d c) /\ len (Q a b c d) = len (Q c d a b).
Proof. unfold len, qnorm. cbn [qx qy qz qw]. repeat split; f_equal; ring. Qed.

(** one product *)
Lemma dqmul_near p q : qfin p -> qfin q -> len (qval p) * len (qval q) <= 1000 ->
  qfin (dqmul p q) /\ dist (qval (dqmul p q)) (qmul (qval p) (qval q)) <= 82 / 10 * u * (len (qval p) * len (qval q)) + 16 * eta.
Proof.
  intros (F1 & F2 & F3 & F4) (G1 & G2 & G3 & G4) H. set (A := len (qval p) * len (qval q)) in *.
  destruct (len_perm (val (dx q)) (val (dy q)) (val (dz q)) (val (dw q))) as (P1 & P2 & P3).
  assert (CX := abs_products (qval p) (Q (val (dw q)) (val (dz q)) (val (dy q)) (val (dx q)))). rewrite <- P1 in CX.
  assert (CY := abs_products (qval p) (Q (val (dz q)) (val (dw q)) (val (dx q)) (val (dy q)))). rewrite <- P3 in CY.
  assert (CZ := abs_products (qval p) (Q (val (dy q)) (val (dx q)) (val (dw q)) (val (dz q)))). rewrite <- P2 in CZ.
  assert (CW := abs_products (qval p) (Q (val (dx q)) (val (dy q)) (val (dz q)) (val (dw q)))). 
  change (Q (val (dx q)) (val (dy q)) (val (dz q)) (val (dw q))) with (qval q) in *. fold A in CX, CY, CZ, CW. cbn [qval qx qy qz qw] in CX, CY, CZ, CW. rewrite <- !Rabs_mult in CX, CY, CZ, CW.
  assert (NX := dot4_near true true false (dw p) (dx q) (dx p) (dw q) (dy p) (dz q) (dz p) (dy q) A F4 G1 F1 G4 F2 G3 F3 G2 ltac:(lra) H).
  assert (NY := dot4_near false true true (dw p) (dy q) (dx p) (dz q) (dy p) (dw q) (dz p) (dx q) A F4 G2 F1 G3 F2 G4 F3 G1 ltac:(lra) H).
  assert (NZ := dot4_near true false true (dw p) (dz q) (dx p) (dy q) (dy p) (dx q) (dz p) (dw q) A F4 G3 F1 G2 F2 G1 F3 G4 ltac:(lra) H).
  assert (NW := dot4_near false false false (dw p) (dw q) (dx p) (dx q) (dy p) (dy q) (dz p) (dz q) A F4 G4 F1 G1 F2 G2 F3 G3 ltac:(lra) H).
  cbn [dpm rpm] in NX, NY, NZ, NW. destruct NX as (X1 & X2), NY as (Y1 & Y2), NZ as (Z1 & Z2), NW as (W1 & W2).
  split; [repeat split; assumption|].
  replace (82 / 10 * u * A + 16 * eta) with (2 * (41 / 10 * u * A + 8 * eta)) by field.
  assert (EP := eta_pos). assert (0 <= A) by (apply Rmult_le_pos; apply len_pos).
  apply dist_bound; [unfold u; lra|assumption..].
Qed.
Definition qchain (qs : list quat) : quat := fold_left qmul qs qone.
Definition near_unit (delta : R) (q : dq) : Prop := qfin q /\ Rabs (len (qval q) - 1) <= delta.
Lemma dist_mul p p' q : dist (qmul p q) (qmul p' q) = dist p p' * len q.
Proof. unfold dist. rewrite <- len_mul. f_equal. unfold qmul, qsub. cbn [qx qy qz qw]. f_equal; ring. Qed.
(** one step: [r] is within [e] of the exact product so far *)
Lemma chain_step delta k r R0 q : 0 <= delta -> delta * INR (S k) <= 1 / 2 -> INR (S k) * u <= 1 / 2000 -> near_unit delta q ->
  qfin r -> dist (qval r) R0 <= 60 * INR k * u -> Rabs (len R0 - 1) <= 2 * INR k * delta ->
  qfin (dqmul r q) /\ dist (qval (dqmul r q)) (qmul R0 (qval q)) <= 60 * INR (S k) * u /\ Rabs (len (qmul R0 (qval q)) - 1) <= 2 * INR (S k) * delta.
Proof.
  intros D0 KD KU (Fq & Lq) Fr E L. rewrite S_INR in *. assert (K0 := pos_INR k). set (K := INR k) in *. assert (U0 : 0 < u) by (unfold u; lra).
  assert (KD0 : 0 <= K * delta) by (apply Rmult_le_pos; assumption). assert (KU0 : 0 <= K * u) by (apply Rmult_le_pos; lra).
  assert (DL : delta <= 1 / 2) by lra.
  apply Rabs_le_inv in Lq, L. set (l := len (qval q)) in *. set (L0 := len R0) in *.
  assert (LR := len_dist (qval r) R0). fold L0 in LR. set (lr := len (qval r)) in *. assert (LR0 : 0 <= lr) by apply len_pos. assert (l0 : 0 <= l) by apply len_pos.
  assert (LRB : lr <= 21 / 10) by lra. 
  assert (AB : lr * l <= 315 / 100). { apply Rle_trans with (21 / 10 * (3 / 2)); [apply Rmult_le_compat; lra|lra]. }
  destruct (dqmul_near r q Fr Fq) as (F & N); [fold lr l; lra|]. fold lr l in N. split; [exact F|].
  assert (T := dist_triangle (qval (dqmul r q)) (qmul (qval r) (qval q)) (qmul R0 (qval q))). rewrite dist_mul in T. fold l in T.
  set (e := dist (qval r) R0) in *. assert (E0 : 0 <= e) by apply len_pos.
  split.
  - assert (EL : e * l <= 60 * (K * u) + 60 * (K * delta) * u).
    { apply Rle_trans with ((60 * K * u) * (1 + delta)); [apply Rmult_le_compat; lra|right; ring]. }
    assert (DU : 60 * (K * delta) * u <= 30 * u) by (apply Rmult_le_compat_r; lra).
    assert (NU : 82 / 10 * u * (lr * l) <= 82 / 10 * u * (315 / 100)) by (apply Rmult_le_compat_l; lra).
    assert (S1 := eta_small). assert (eta <= u / 1000) by (unfold u in *; lra). lra.
  - rewrite len_mul. fold l L0. apply Rabs_le. 
    assert (Lh : L0 * l <= (1 + 2 * K * delta) * (1 + delta)) by (apply Rmult_le_compat; [apply len_pos|exact l0|lra|lra]).
    assert (Q2 : 2 * (K * delta) * delta <= 1 * delta) by (apply Rmult_le_compat_r; lra).
    split; [|lra].
    destruct (Rle_or_lt (1 - 2 * K * delta) 0) as [NG|PS].
    + assert (0 <= L0 * l) by (apply Rmult_le_pos; [apply len_pos|exact l0]). lra.
    + assert (Ll : (1 - 2 * K * delta) * (1 - delta) <= L0 * l) by (apply Rmult_le_compat; lra). assert (0 <= K * delta * delta) by (apply Rmult_le_pos; assumption). lra.
Qed.

Lemma div_near a b : fin a -> val b <> 0 -> Rabs (val a / val b) <= 1000000 -> near (ddiv a b) (val a / val b) (u * Rabs (val a / val b) + eta).
Proof.
  intros Fa Nb H. unfold near, fin, ddiv, b64_div in *. assert (C := Bdiv_correct 53 1024 eq_refl eq_refl binop_nan_pl64 mode_NE a b Nb). fold (rnd (val a / val b)) in C. rewrite (big_enough _ H) in C. destruct C as (E & F & _).
  rewrite F, Fa, E. split; [reflexivity|apply rnd_error].
Qed.
Lemma sqrt_near a : fin a -> 0 <= val a -> near (dsqrt a) (sqrt (val a)) (u * sqrt (val a) + eta).
Proof.
  intros Fa H. unfold near, fin, dsqrt, b64_sqrt in *. destruct (Bsqrt_correct 53 1024 eq_refl eq_refl unop_nan_pl64 mode_NE a) as (E & F & _). fold (rnd (sqrt (val a))) in E.
  rewrite F, E. split; [|rewrite <- (Rabs_pos_eq (sqrt (val a))) at 3 by apply sqrt_pos; apply rnd_error].
  destruct a as [s|s|s pl e|s m e Hb]; try discriminate; [reflexivity|]. destruct s; [|reflexivity]. exfalso. cbn [B2R] in H. assert (X := F2R_lt_0 radix2 (Float radix2 (cond_Zopp true (Zpos m)) e) eq_refl). lra.
Qed.
Lemma val_exact d (m e : Z) H : d = B754_finite 53 1024 false (Z.to_pos m) e H -> val d = IZR (Zpos (Z.to_pos m)) * bpow radix2 e.
Proof. intros ->. reflexivity. Qed.
Lemma val_d0 : val d0 = 0. Proof. reflexivity. Qed.
Lemma val_d1 : val d1 = 1. Proof. unfold d1. cbn. unfold F2R. cbn. field. Qed.
Lemma val_d2 : val d2 = 2. Proof. unfold d2. cbn. unfold F2R. cbn. field. Qed.
Lemma val_dm1 : val dm1 = -1. Proof. unfold dm1. rewrite opp_val, val_d1. reflexivity. Qed.
Lemma val_09999 : 9998 / 10000 <= val d09999 <= 99991 / 100000. Proof. unfold d09999. cbn. unfold F2R. cbn. lra. Qed.
Lemma val_0001 : 9 / 10000 <= val d0001 <= 2 / 1000. Proof. unfold d0001. cbn. unfold F2R. cbn. lra. Qed.
Lemma fin_d0 : fin d0. Proof. reflexivity. Qed.
Lemma fin_d1 : fin d1. Proof. reflexivity. Qed.
Lemma fin_d2 : fin d2. Proof. reflexivity. Qed.
Lemma fin_dm1 : fin dm1. Proof. reflexivity. Qed.
(** comparisons of finite numbers *)
Lemma compare_fin a b : fin a -> fin b -> b64_compare a b = Some (Rcompare (val a) (val b)).
Proof. intros A B. exact (Bcompare_correct 53 1024 a b A B). Qed.
Lemma dlt_fin a b : fin a -> fin b -> dlt a b = true <-> val a < val b.
Proof. intros A B. unfold dlt. rewrite (compare_fin a b A B). destruct (Rcompare_spec (val a) (val b)); split; intros; try discriminate; try reflexivity; lra. Qed.
Lemma dle_fin a b : fin a -> fin b -> dle a b = true <-> val a <= val b.
Proof. intros A B. unfold dle. rewrite (compare_fin a b A B). destruct (Rcompare_spec (val a) (val b)); split; intros; try discriminate; try reflexivity; lra. Qed.
Lemma deq_fin a b : fin a -> fin b -> deq a b = true <-> val a = val b.
Proof. intros A B. unfold deq. rewrite (compare_fin a b A B). destruct (Rcompare_spec (val a) (val b)); split; intros; try discriminate; try reflexivity; lra. Qed.
(** multiplication by one and by minus one is exact *)
Lemma rnd_val a : rnd (val a) = val a.
Proof. unfold rnd. apply round_generic; [apply valid_rnd_round_mode|]. apply generic_format_B2R. Qed.
Lemma rnd_opp a : rnd (- val a) = - val a.
Proof. rewrite <- opp_val. apply rnd_val. Qed.
Lemma val_below a : fin a -> Rabs (val a) < bpow radix2 1024.
Proof. intros _. apply abs_B2R_lt_emax. Qed.
Lemma mul_one a : fin a -> fin (dmul a d1) /\ val (dmul a d1) = val a.
Proof.
  intros F. unfold fin, dmul, b64_mult in *. assert (C := Bmult_correct 53 1024 eq_refl eq_refl binop_nan_pl64 mode_NE a d1). fold (rnd (val a * val d1)) in C. rewrite val_d1, Rmult_1_r, rnd_val in C. rewrite (Rlt_bool_true _ _ (val_below a F)) in C. destruct C as (E & G & _). rewrite G, F, E. split; reflexivity.
Qed.
Lemma mul_minus_one a : fin a -> fin (dmul a dm1) /\ val (dmul a dm1) = - val a.
Proof.
  intros F. unfold fin, dmul, b64_mult in *. assert (C := Bmult_correct 53 1024 eq_refl eq_refl binop_nan_pl64 mode_NE a dm1). fold (rnd (val a * val dm1)) in C. rewrite val_dm1 in C. replace (val a * -1) with (- val a) in C by ring. rewrite rnd_opp, Rabs_Ropp in C. rewrite (Rlt_bool_true _ _ (val_below a F)) in C. destruct C as (E & G & _). rewrite G, F, E. split; reflexivity.
Qed.

Lemma mul_near2 a b x y e1 e2 X Y : near a x e1 -> near b y e2 -> Rabs x <= X -> Rabs y <= Y -> (X + e1) * (Y + e2) <= 1000000 ->
  near (dmul a b) (x * y) (e1 * Y + X * e2 + e1 * e2 + u * ((X + e1) * (Y + e2)) + eta).
Proof.
  intros (Fa & Ea) (Fb & Eb) HX HY H. 
  assert (VA : Rabs (val a) <= X + e1) by (assert (Rabs (val a) <= Rabs x + Rabs (val a - x)) by (replace (val a) with (x + (val a - x)) at 1 by ring; apply Rabs_triang); lra).
  assert (VB : Rabs (val b) <= Y + e2) by (assert (Rabs (val b) <= Rabs y + Rabs (val b - y)) by (replace (val b) with (y + (val b - y)) at 1 by ring; apply Rabs_triang); lra).
  assert (P : Rabs (val a * val b) <= (X + e1) * (Y + e2)) by (rewrite Rabs_mult; apply Rmult_le_compat; try apply Rabs_pos; assumption).
  destruct (mul_near a b Fa Fb ltac:(lra)) as (F & E). split; [exact F|].
  assert (D : Rabs (val a * val b - x * y) <= e1 * Y + X * e2 + e1 * e2).
  { replace (val a * val b - x * y) with ((val a - x) * y + x * (val b - y) + (val a - x) * (val b - y)) by ring.
    eapply Rle_trans; [apply Rabs_triang|]. apply Rplus_le_compat; [eapply Rle_trans; [apply Rabs_triang|]; apply Rplus_le_compat|]; rewrite Rabs_mult; apply Rmult_le_compat; try apply Rabs_pos; assumption. }
  assert (UP : u * Rabs (val a * val b) <= u * ((X + e1) * (Y + e2))) by (apply Rmult_le_compat_l; [unfold u; lra|exact P]).
  replace (val (dmul a b) - x * y) with ((val (dmul a b) - val a * val b) + (val a * val b - x * y)) by ring. eapply Rle_trans; [apply Rabs_triang|]. lra.
Qed.
Lemma near_self a : fin a -> near a (val a) 0.
Proof. intros F. split; [exact F|]. rewrite Rminus_diag_eq by reflexivity. rewrite Rabs_R0. lra. Qed.
Lemma max_val a b : fin a -> fin b -> fin (dmax a b) /\ val (dmax a b) = Rmax (val a) (val b).
Proof.
  intros A B. unfold dmax. assert (T := dlt_fin a b A B). destruct (dlt a b).
  - split; [exact B|]. rewrite Rmax_right; [reflexivity|]. apply Rlt_le, T. reflexivity.
  - split; [exact A|]. rewrite Rmax_left; [reflexivity|]. destruct (Rle_or_lt (val b) (val a)) as [O|O]; [exact O|apply T in O; discriminate].
Qed.
(** the largest absolute component *)
Definition largest (q : quat) : R := Rmax (Rmax (Rabs (qw q)) (Rabs (qx q))) (Rmax (Rabs (qy q)) (Rabs (qz q))).
Lemma largest_bounds q : (Rabs (qx q) <= largest q /\ Rabs (qy q) <= largest q /\ Rabs (qz q) <= largest q /\ Rabs (qw q) <= largest q) /\
  (largest q = Rabs (qw q) \/ largest q = Rabs (qx q) \/ largest q = Rabs (qy q) \/ largest q = Rabs (qz q)).
Proof.
  unfold largest. assert (A := Rmax_l (Rabs (qw q)) (Rabs (qx q))). assert (B := Rmax_r (Rabs (qw q)) (Rabs (qx q))). assert (C := Rmax_l (Rabs (qy q)) (Rabs (qz q))). assert (D := Rmax_r (Rabs (qy q)) (Rabs (qz q))).
  set (m1 := Rmax (Rabs (qw q)) (Rabs (qx q))) in *. set (m2 := Rmax (Rabs (qy q)) (Rabs (qz q))) in *. assert (E := Rmax_l m1 m2). assert (F := Rmax_r m1 m2).
  split; [repeat split; lra|]. unfold m1, m2, Rmax. repeat destruct (Rle_dec _ _); tauto.
Qed.
Lemma scaled_sq M c mix : 1 / 1000 <= M <= 1000 -> Rabs (val c) <= M -> fin c -> near mix (1 / M) (101 / 100 * u * (1 / M)) ->
  near (let t := dmul (dabs c) mix in dmul t t) ((val c / M) * (val c / M)) (6 * u).
Proof.
  intros (M1 & M2) HC FC NM. assert (U0 : 0 < u) by (unfold u; lra). assert (US : u <= 1 / 1000000000) by (unfold u; lra). assert (SM := eta_small). assert (EP := eta_pos). assert (ES : eta <= u / 1000) by (unfold u in *; lra).
  assert (NC : near (dabs c) (Rabs (val c)) 0) by (rewrite <- abs_val; apply near_self, abs_fin, FC).
  assert (I0 : 0 < 1 / M) by (apply Rdiv_lt_0_compat; lra). assert (I1 : 1 / M * M = 1) by (field; lra).
  assert (PB : M * (1 / M) = 1) by lra.
  assert (T := mul_near2 _ _ _ _ _ _ M (1 / M) NC NM ltac:(rewrite Rabs_Rabsolu; exact HC) ltac:(rewrite Rabs_pos_eq; lra)).
  assert (MM : (M + 0) * (1 / M + 101 / 100 * u * (1 / M)) = 1 + 101 / 100 * u) by (rewrite Rplus_0_r; replace (M * (1 / M + 101 / 100 * u * (1 / M))) with (M * (1 / M) * (1 + 101 / 100 * u)) by ring; rewrite PB; ring).
  rewrite MM in T. specialize (T ltac:(lra)).
  assert (E1 : M * (101 / 100 * u * (1 / M)) = 101 / 100 * u) by (replace (M * (101 / 100 * u * (1 / M))) with (M * (1 / M) * (101 / 100 * u)) by ring; rewrite PB; ring).
  rewrite E1, !Rmult_0_l, Rplus_0_l, Rplus_0_r in T.
  assert (T1 : near (dmul (dabs c) mix) (Rabs (val c) * (1 / M)) (21 / 10 * u)) by (eapply near_weaken; [exact T|]; assert (u * u <= u * (1 / 1000000000)) by (apply Rmult_le_compat_l; lra); lra).
  assert (X1 : Rabs (Rabs (val c) * (1 / M)) <= 1) by (rewrite Rabs_pos_eq by (apply Rmult_le_pos; [apply Rabs_pos|lra]); apply Rle_trans with (M * (1 / M)); [apply Rmult_le_compat_r; lra|lra]).
  assert (UU : u * u <= u * (1 / 1000000000)) by (apply Rmult_le_compat_l; lra). assert (UUU : u * (u * u) <= u * (1 / 1000000000)) by (apply Rmult_le_compat_l; lra).
  assert (T2 := mul_near2 _ _ _ _ _ _ 1 1 T1 T1 X1 X1 ltac:(lra)). cbv zeta.
  replace (val c / M * (val c / M)) with (Rabs (val c) * (1 / M) * (Rabs (val c) * (1 / M))).
  - eapply near_weaken; [exact T2|]. lra.
  - replace (Rabs (val c) * (1 / M) * (Rabs (val c) * (1 / M))) with ((Rabs (val c) * Rabs (val c)) * (1 / M * (1 / M))) by ring. rewrite <- Rabs_mult, Rabs_pos_eq by apply Rle_0_sqr. field. lra.
Qed.
(** boost::math::abs *)
Lemma dqabs_near q : qfin q -> 1 / 1000 <= largest (qval q) <= 1000 -> near (dqabs q) (len (qval q)) (22 * u * len (qval q)).
Proof.
  intros (F1 & F2 & F3 & F4) HM. assert (U0 : 0 < u) by (unfold u; lra). assert (US : u <= 1 / 1000000000) by (unfold u; lra). assert (SM := eta_small). assert (EP := eta_pos). assert (ES : eta <= u / 1000000000) by (unfold u in *; lra).
  destruct (max_val _ _ (abs_fin _ F4) (abs_fin _ F1)) as (G1 & V1). destruct (max_val _ _ (abs_fin _ F2) (abs_fin _ F3)) as (G2 & V2). destruct (max_val _ _ G1 G2) as (G & V).
  rewrite V1, V2, !abs_val in V. change (val (dmax (dmax (dabs (dw q)) (dabs (dx q))) (dmax (dabs (dy q)) (dabs (dz q)))) = largest (qval q)) in V.
  unfold dqabs. cbv zeta. set (mx := dmax (dmax _ _) _) in *. set (M := largest (qval q)) in *.
  assert (Z : deq mx d0 = false). { destruct (deq mx d0) eqn:E; [|reflexivity]. apply (deq_fin mx d0 G fin_d0) in E. rewrite V, val_d0 in E. lra. } rewrite Z.
  destruct (largest_bounds (qval q)) as ((X & Y & ZZ & W) & WH). fold M in X, Y, ZZ, W, WH. cbn [qval qx qy qz qw] in X, Y, ZZ, W, WH.
  assert (I0 : 1 / 1000 <= 1 / M). { apply Rmult_le_reg_r with M; [lra|]. replace (1 / M * M) with 1 by (field; lra). lra. }
  assert (I1 : 1 / M <= 1000). { apply Rmult_le_reg_r with M; [lra|]. replace (1 / M * M) with 1 by (field; lra). lra. }
  assert (NM : near (ddiv d1 mx) (1 / M) (101 / 100 * u * (1 / M))).
  { assert (N := div_near d1 mx fin_d1). rewrite V, val_d1 in N. eapply near_weaken; [apply N; [lra|rewrite Rabs_pos_eq; lra]|]. rewrite Rabs_pos_eq by lra. assert (u * (1 / 1000) <= u * (1 / M)) by (apply Rmult_le_compat_l; lra). lra. }
  assert (SW := scaled_sq M (dw q) _ HM W F4 NM). assert (SX := scaled_sq M (dx q) _ HM X F1 NM). assert (SY := scaled_sq M (dy q) _ HM Y F2 NM). assert (SZ := scaled_sq M (dz q) _ HM ZZ F3 NM). cbv zeta in SW, SX, SY, SZ.
  assert (B : forall c, Rabs (val c) <= M -> 0 <= val c / M * (val c / M) <= 1).
  { intros c HC. split; [apply Rle_0_sqr|]. assert (Rabs (val c / M) <= 1). { unfold Rdiv. rewrite Rabs_mult, (Rabs_pos_eq (/ M)) by (apply Rlt_le, Rinv_0_lt_compat; lra). apply Rmult_le_reg_r with M; [lra|]. rewrite Rmult_assoc, Rinv_l by lra. lra. }
    rewrite <- (Rabs_pos_eq (val c / M * (val c / M))) by apply Rle_0_sqr. rewrite Rabs_mult. replace 1 with (1 * 1) by ring. apply Rmult_le_compat; try apply Rabs_pos; assumption. }
  assert (BW := B _ W). assert (BX := B _ X). assert (BY := B _ Y). assert (BZ := B _ ZZ).
  assert (S0 : len (qval q) * len (qval q) = M * M * (val (dw q) / M * (val (dw q) / M) + val (dx q) / M * (val (dx q) / M) + val (dy q) / M * (val (dy q) / M) + val (dz q) / M * (val (dz q) / M))).
  { rewrite len_sq. unfold qnorm. cbn [qval qx qy qz qw]. field. lra. }
  assert (ONE : forall c, M = Rabs (val c) -> val c / M * (val c / M) = 1).
  { intros c HC. assert (M * M = val c * val c) by (rewrite HC, <- Rabs_mult, Rabs_pos_eq by apply Rle_0_sqr; reflexivity). replace (val c / M * (val c / M)) with (val c * val c / (M * M)) by (field; lra). rewrite <- H. field. lra. }
  assert (GE : 1 <= val (dw q) / M * (val (dw q) / M) + val (dx q) / M * (val (dx q) / M) + val (dy q) / M * (val (dy q) / M) + val (dz q) / M * (val (dz q) / M)) by (destruct WH as [E|[E|[E|E]]]; apply ONE in E; lra).
  set (sw := val (dw q) / M * (val (dw q) / M)) in *. set (sx := val (dx q) / M * (val (dx q) / M)) in *. set (sy := val (dy q) / M * (val (dy q) / M)) in *. set (sz := val (dz q) / M * (val (dz q) / M)) in *.
  assert (T1 := pm_near true _ _ _ _ _ _ SW SX ltac:(rewrite !Rabs_pos_eq by lra; lra)). rewrite !Rabs_pos_eq in T1 by lra. cbn [dpm rpm] in T1.
  assert (UU : u * u <= u * (1 / 1000000000)) by (apply Rmult_le_compat_l; lra).
  assert (T1' := near_weaken _ _ _ (141 / 10 * u) T1 ltac:(assert (u * (sw + sx + 6 * u + 6 * u) <= u * (201 / 100)) by (apply Rmult_le_compat_l; lra); lra)).
  assert (T2 := pm_near true _ _ _ _ _ _ T1' SY ltac:(rewrite !Rabs_pos_eq by lra; lra)). rewrite !Rabs_pos_eq in T2 by lra. cbn [dpm rpm] in T2.
  assert (T2' := near_weaken _ _ _ (232 / 10 * u) T2 ltac:(assert (u * (sw + sx + sy + 141 / 10 * u + 6 * u) <= u * (301 / 100)) by (apply Rmult_le_compat_l; lra); lra)).
  assert (T3 := pm_near true _ _ _ _ _ _ T2' SZ ltac:(rewrite !Rabs_pos_eq by lra; lra)). rewrite !Rabs_pos_eq in T3 by lra. cbn [dpm rpm] in T3.
  assert (T3' := near_weaken _ _ _ (333 / 10 * u) T3 ltac:(assert (u * (sw + sx + sy + sz + 232 / 10 * u + 6 * u) <= u * (401 / 100)) by (apply Rmult_le_compat_l; lra); lra)).
  clear T1 T1' T2 T2' T3. destruct T3' as (FS & ESm). set (sm := dadd (dadd (dadd _ _) _) _) in *. assert (S4 : sw + sx + sy + sz <= 4) by lra. set (s := sw + sx + sy + sz) in *.
  apply Rabs_le_inv in ESm. destruct (sqrt_near sm FS ltac:(lra)) as (FR & ER).
  assert (R1 : 1 <= sqrt s) by (rewrite <- sqrt_1 at 1; apply sqrt_le_1_alt; exact GE). assert (R2 : sqrt s <= 2) by (replace 2 with (sqrt (2 * 2)) by (apply sqrt_square; lra); apply sqrt_le_1_alt; lra).
  assert (R3 : 99 / 100 <= sqrt (val sm)). { rewrite <- (sqrt_square (99 / 100)) by lra. apply sqrt_le_1_alt. lra. } 
  assert (R4 : sqrt (val sm) <= 201 / 100). { rewrite <- (sqrt_square (201 / 100)) by lra. apply sqrt_le_1_alt. lra. }
  assert (DR : Rabs (sqrt (val sm) - sqrt s) <= 17 * u).
  { assert (P : (sqrt (val sm) - sqrt s) * (sqrt (val sm) + sqrt s) = val sm - s). { replace ((sqrt (val sm) - sqrt s) * (sqrt (val sm) + sqrt s)) with (sqrt (val sm) * sqrt (val sm) - sqrt s * sqrt s) by ring. rewrite !sqrt_sqrt by lra. reflexivity. }
    apply Rmult_le_reg_r with (sqrt (val sm) + sqrt s); [lra|]. rewrite <- (Rabs_pos_eq (sqrt (val sm) + sqrt s)) at 1 by lra. rewrite <- Rabs_mult, P. apply Rle_trans with (333 / 10 * u); [apply Rabs_le; lra|]. apply Rle_trans with (17 * u * (199 / 100)); [lra|apply Rmult_le_compat_l; lra]. }
  assert (NR : near (dsqrt sm) (sqrt s) (191 / 10 * u)).
  { split; [exact FR|]. replace (val (dsqrt sm) - sqrt s) with ((val (dsqrt sm) - sqrt (val sm)) + (sqrt (val sm) - sqrt s)) by ring. eapply Rle_trans; [apply Rabs_triang|]. assert (u * sqrt (val sm) <= u * (201 / 100)) by (apply Rmult_le_compat_l; lra). lra. }
  assert (NX : near mx M 0) by (rewrite <- V; apply near_self, G).
  assert (LQ : len (qval q) = M * sqrt s). { apply Rsqr_inj; [apply len_pos|apply Rmult_le_pos; [lra|apply sqrt_pos]|]. unfold Rsqr. rewrite S0. replace (M * sqrt s * (M * sqrt s)) with (M * M * (sqrt s * sqrt s)) by ring. rewrite sqrt_sqrt by lra. reflexivity. }
  assert (N := mul_near2 _ _ _ _ _ _ M (sqrt s) NX NR ltac:(rewrite Rabs_pos_eq; lra) ltac:(rewrite Rabs_pos_eq; lra)). rewrite Rplus_0_r, !Rmult_0_l, Rplus_0_l, Rplus_0_r in N.
  assert (UB : M * (sqrt s + 191 / 10 * u) <= 3000) by (apply Rle_trans with (1000 * 3); [apply Rmult_le_compat; lra|lra]).
  rewrite LQ. eapply near_weaken; [apply N; lra|].
  replace (u * (M * (sqrt s + 191 / 10 * u))) with (M * (u * sqrt s) + M * (u * u) * (191 / 10)) by ring. 
  assert (M * u <= M * (u * sqrt s)) by (apply Rmult_le_compat_l; [lra|]; replace u with (u * 1) at 1 by ring; apply Rmult_le_compat_l; lra).
  assert (M * (u * u) <= M * (u * (1 / 1000000000))) by (apply Rmult_le_compat_l; lra).
  assert (ME : eta <= M * u * (1 / 1000000)) by (assert (1 / 1000 * u <= M * u) by (apply Rmult_le_compat_r; lra); lra).
  replace (22 * u * (M * sqrt s)) with (22 * (M * (u * sqrt s))) by ring. assert (0 <= M * u) by (apply Rmult_le_pos; lra). lra.
Qed.

(** ** rotating a vector *)
Ltac small := assert (U0 : 0 < u) by (unfold u; lra); assert (US : u <= 1 / 1000000000) by (unfold u; lra); assert (EP := eta_pos); assert (ES : eta <= u / 1000000000) by (assert (SM := eta_small); unfold u in *; lra).
Lemma entry_near s a b c d : fin a -> fin b -> fin c -> fin d -> Rabs (val a) <= 101 / 100 -> Rabs (val b) <= 101 / 100 -> Rabs (val c) <= 101 / 100 -> Rabs (val d) <= 101 / 100 ->
  near (dpm s (dmul a b) (dmul c d)) (rpm s (val a * val b) (val c * val d)) (43 / 10 * u) /\ Rabs (rpm s (val a * val b) (val c * val d)) <= 205 / 100.
Proof.
  intros Fa Fb Fc Fd A B C D. small.
  assert (P : Rabs (val a * val b) <= 10201 / 10000) by (rewrite Rabs_mult; replace (10201 / 10000) with (101 / 100 * (101 / 100)) by lra; apply Rmult_le_compat; try apply Rabs_pos; assumption).
  assert (P' : Rabs (val c * val d) <= 10201 / 10000) by (rewrite Rabs_mult; replace (10201 / 10000) with (101 / 100 * (101 / 100)) by lra; apply Rmult_le_compat; try apply Rabs_pos; assumption).
  assert (U1 : u * Rabs (val a * val b) <= u * (10201 / 10000)) by (apply Rmult_le_compat_l; lra). assert (U2 : u * Rabs (val c * val d) <= u * (10201 / 10000)) by (apply Rmult_le_compat_l; lra).
  assert (N1 := near_weaken _ _ _ (103 / 100 * u) (mul_near a b Fa Fb ltac:(lra)) ltac:(lra)). assert (N2 := near_weaken _ _ _ (103 / 100 * u) (mul_near c d Fc Fd ltac:(lra)) ltac:(lra)).
  split; [|assert (T := rpm_abs s (val a * val b) (val c * val d)); lra].
  eapply near_weaken; [apply (pm_near s _ _ _ _ _ _ N1 N2); lra|].
  assert (u * (Rabs (val a * val b) + Rabs (val c * val d) + 103 / 100 * u + 103 / 100 * u) <= u * (205 / 100)) by (apply Rmult_le_compat_l; lra). lra.
Qed.
Lemma off_near v V m x : fin v -> Rabs (val v) <= V -> V <= 1000 -> near m x (43 / 10 * u) -> Rabs x <= 205 / 100 ->
  near (dmul (dmul v d2) m) (val v * 2 * x) (24 * u * V + 4 * eta) /\ Rabs (val v * 2 * x) <= 6 * V.
Proof.
  intros Fv HV V3 Nm Hx. small. assert (V0 := Rabs_pos (val v)).
  assert (T : near (dmul v d2) (val v * 2) (2 * (u * V) + eta)).
  { assert (B : Rabs (val v * 2) <= 2 * V) by (rewrite Rabs_mult, (Rabs_pos_eq 2) by lra; lra). assert (N := mul_near v d2 Fv fin_d2). rewrite val_d2 in N. eapply near_weaken; [apply N; lra|]. assert (u * Rabs (val v * 2) <= u * (2 * V)) by (apply Rmult_le_compat_l; lra). lra. }
  assert (W0 : 0 <= u * V) by (apply Rmult_le_pos; lra). assert (W1 : u * V <= u * 1000) by (apply Rmult_le_compat_l; lra).
  assert (B : Rabs (val v * 2) <= 2 * V) by (rewrite Rabs_mult, (Rabs_pos_eq 2) by lra; lra).
  assert (M : (2 * V + (2 * (u * V) + eta)) * (205 / 100 + 43 / 10 * u) <= 2001 * 3) by (apply Rmult_le_compat; lra).
  split; [|rewrite Rabs_mult; apply Rle_trans with (2 * V * (205 / 100)); [apply Rmult_le_compat; try apply Rabs_pos; assumption|lra]].
  eapply near_weaken; [apply (mul_near2 _ _ _ _ _ _ (2 * V) (205 / 100) T Nm B Hx); lra|].
  assert (K : (2 * (u * V) + eta) * (43 / 10 * u) <= (2 * (u * V) + eta) * (1 / 1000000)) by (apply Rmult_le_compat_l; lra).
  assert (K2 : u * ((2 * V + (2 * (u * V) + eta)) * (205 / 100 + 43 / 10 * u)) <= u * ((2 * V + (2 * (u * V) + eta)) * 3)) by (apply Rmult_le_compat_l; [lra|]; apply Rmult_le_compat_l; lra).
  assert (K3 : u * (u * V) <= 1 / 1000000000 * (u * V)) by (apply Rmult_le_compat_r; lra). assert (K4 : u * eta <= 1 / 1000000000 * eta) by (apply Rmult_le_compat_r; lra).
  lra.
Qed.
Lemma diag_near v V x w : fin v -> Rabs (val v) <= V -> V <= 1000 -> fin x -> fin w -> Rabs (val x) <= 101 / 100 -> Rabs (val w) <= 101 / 100 ->
  near (dmul v (dsub (dmul d2 (dadd (dmul x x) (dmul w w))) d1)) (val v * (2 * (val x * val x + val w * val w) - 1)) (24 * u * V + 4 * eta) /\ Rabs (val v * (2 * (val x * val x + val w * val w) - 1)) <= 6 * V.
Proof.
  intros Fv HV V3 Fx Fw Hx Hw. small. assert (V0 := Rabs_pos (val v)).
  destruct (entry_near true x x w w Fx Fx Fw Fw Hx Hx Hw Hw) as (N & B). cbn [dpm rpm] in N, B.
  assert (UU : u * u <= u * (1 / 1000000000)) by (apply Rmult_le_compat_l; lra).
  assert (N2 : near (dmul d2 (dadd (dmul x x) (dmul w w))) (2 * (val x * val x + val w * val w)) (128 / 10 * u)).
  { rewrite <- val_d2. eapply near_weaken; [apply (mul_near2 _ _ _ _ _ _ 2 (205 / 100) (near_self d2 fin_d2) N); [rewrite val_d2, Rabs_pos_eq; lra|exact B|lra]|]. lra. }
  assert (N1 : near d1 1 0) by (rewrite <- val_d1; apply near_self, fin_d1).
  assert (B2 : Rabs (2 * (val x * val x + val w * val w)) <= 41 / 10) by (rewrite Rabs_mult, (Rabs_pos_eq 2) by lra; lra).
  assert (N3 := pm_near false _ _ _ _ _ _ N2 N1). cbn [dpm rpm] in N3. rewrite (Rabs_pos_eq 1) in N3 by lra. specialize (N3 ltac:(lra)).
  assert (N4 : near (dsub (dmul d2 (dadd (dmul x x) (dmul w w))) d1) (2 * (val x * val x + val w * val w) - 1) (18 * u)).
  { eapply near_weaken; [exact N3|]. assert (u * (Rabs (2 * (val x * val x + val w * val w)) + 1 + 128 / 10 * u + 0) <= u * (511 / 100)) by (apply Rmult_le_compat_l; lra). lra. }
  assert (B3 : Rabs (2 * (val x * val x + val w * val w) - 1) <= 51 / 10). { assert (T := rpm_abs false (2 * (val x * val x + val w * val w)) 1). cbn [rpm] in T. rewrite (Rabs_pos_eq 1) in T by lra. lra. }
  assert (W0 : 0 <= u * V) by (apply Rmult_le_pos; lra).
  assert (M : (V + 0) * (51 / 10 + 18 * u) <= 1000 * 6) by (apply Rmult_le_compat; lra).
  split; [|rewrite Rabs_mult; apply Rle_trans with (V * (51 / 10)); [apply Rmult_le_compat; try apply Rabs_pos; assumption|lra]].
  eapply near_weaken; [apply (mul_near2 _ _ _ _ _ _ V (51 / 10) (near_self v Fv) N4 HV B3); lra|].
  assert (K : u * (u * V) <= 1 / 1000000000 * (u * V)) by (apply Rmult_le_compat_r; lra). lra.
Qed.
Lemma sum3_near p q r x y z V : 0 <= V -> V <= 1000 -> near p x (24 * u * V + 4 * eta) /\ Rabs x <= 6 * V -> near q y (24 * u * V + 4 * eta) /\ Rabs y <= 6 * V -> near r z (24 * u * V + 4 * eta) /\ Rabs z <= 6 * V ->
  near (dadd (dadd p q) r) (x + y + z) (103 * u * V + 16 * eta).
Proof.
  intros V0 V3 (P & X) (Q & Y) (S & Z). small. assert (W0 : 0 <= u * V) by (apply Rmult_le_pos; lra). assert (W1 : u * V <= u * 1000) by (apply Rmult_le_compat_l; lra).
  assert (K : u * (u * V) <= 1 / 1000000000 * (u * V)) by (apply Rmult_le_compat_r; lra). assert (K4 : u * eta <= 1 / 1000000000 * eta) by (apply Rmult_le_compat_r; lra).
  assert (N := pm_near true _ _ _ _ _ _ P Q ltac:(lra)). cbn [dpm rpm] in N.
  assert (N1 : near (dadd p q) (x + y) (601 / 10 * u * V + 10 * eta)).
  { eapply near_weaken; [exact N|]. assert (u * (Rabs x + Rabs y + (24 * u * V + 4 * eta) + (24 * u * V + 4 * eta)) <= u * (6 * V + 6 * V + (24 * u * V + 4 * eta) + (24 * u * V + 4 * eta))) by (apply Rmult_le_compat_l; lra). lra. }
  assert (T := rpm_abs true x y). cbn [rpm] in T.
  assert (N2 := pm_near true _ _ _ _ _ _ N1 S ltac:(lra)). cbn [dpm rpm] in N2. eapply near_weaken; [exact N2|].
  assert (u * (Rabs (x + y) + Rabs z + (601 / 10 * u * V + 10 * eta) + (24 * u * V + 4 * eta)) <= u * (12 * V + 6 * V + (601 / 10 * u * V + 10 * eta) + (24 * u * V + 4 * eta))) by (apply Rmult_le_compat_l; lra). lra.
Qed.
Definition vval (v : dv3) : vec3 := V3 (val (d_x v)) (val (d_y v)) (val (d_z v)).
Definition vfin (v : dv3) : Prop := fin (d_x v) /\ fin (d_y v) /\ fin (d_z v).
Definition vmax (v : vec3) : R := Rmax (Rabs (vx v)) (Rmax (Rabs (vy v)) (Rabs (vz v))).
Lemma vmax_bounds v : Rabs (vx v) <= vmax v /\ Rabs (vy v) <= vmax v /\ Rabs (vz v) <= vmax v /\ 0 <= vmax v.
Proof.
  unfold vmax. assert (A := Rmax_l (Rabs (vx v)) (Rmax (Rabs (vy v)) (Rabs (vz v)))). assert (B := Rmax_r (Rabs (vx v)) (Rmax (Rabs (vy v)) (Rabs (vz v)))). assert (C := Rmax_l (Rabs (vy v)) (Rabs (vz v))). assert (D := Rmax_r (Rabs (vy v)) (Rabs (vz v))).
  assert (P := Rabs_pos (vx v)). repeat split; lra.
Qed.
Definition vclose (a b : vec3) (e : R) : Prop := Rabs (vx a - vx b) <= e /\ Rabs (vy a - vy b) <= e /\ Rabs (vz a - vz b) <= e.
Lemma drot_near q v : qfin q -> (forall c, In c [dx q; dy q; dz q; dw q] -> Rabs (val c) <= 101 / 100) -> vfin v -> vmax (vval v) <= 1000 ->
  vfin (drot q v) /\ vclose (vval (drot q v)) (qrot (qval q) (vval v)) (103 * u * vmax (vval v) + 16 * eta).
Proof.
  intros (F1 & F2 & F3 & F4) HC (G1 & G2 & G3) HV. assert (C1 := HC (dx q) ltac:(cbn; tauto)). assert (C2 := HC (dy q) ltac:(cbn; tauto)). assert (C3 := HC (dz q) ltac:(cbn; tauto)). assert (C4 := HC (dw q) ltac:(cbn; tauto)).
  destruct (vmax_bounds (vval v)) as (B1 & B2 & B3 & B0). cbn [vval vx vy vz] in B1, B2, B3. set (V := vmax (vval v)) in *.
  assert (OFF : forall c s a1 b1 a2 b2, fin c -> Rabs (val c) <= V -> fin a1 -> fin b1 -> fin a2 -> fin b2 -> Rabs (val a1) <= 101 / 100 -> Rabs (val b1) <= 101 / 100 -> Rabs (val a2) <= 101 / 100 -> Rabs (val b2) <= 101 / 100 ->
    near (dmul (dmul c d2) (dpm s (dmul a1 b1) (dmul a2 b2))) (val c * 2 * rpm s (val a1 * val b1) (val a2 * val b2)) (24 * u * V + 4 * eta) /\ Rabs (val c * 2 * rpm s (val a1 * val b1) (val a2 * val b2)) <= 6 * V).
  { intros. destruct (entry_near s a1 b1 a2 b2) as (N & M); try assumption. apply off_near; assumption. }
  destruct (sum3_near _ _ _ _ _ _ V B0 HV (diag_near (d_x v) V (dx q) (dw q) G1 B1 HV F1 F4 C1 C4)
    (OFF (d_y v) false (dx q) (dy q) (dw q) (dz q) G2 B2 F1 F2 F4 F3 C1 C2 C4 C3) (OFF (d_z v) true (dw q) (dy q) (dx q) (dz q) G3 B3 F4 F2 F1 F3 C4 C2 C1 C3)) as (X1 & X2).
  destruct (sum3_near _ _ _ _ _ _ V B0 HV (OFF (d_x v) true (dx q) (dy q) (dw q) (dz q) G1 B1 F1 F2 F4 F3 C1 C2 C4 C3)
    (diag_near (d_y v) V (dy q) (dw q) G2 B2 HV F2 F4 C2 C4) (OFF (d_z v) false (dy q) (dz q) (dw q) (dx q) G3 B3 F2 F3 F4 F1 C2 C3 C4 C1)) as (Y1 & Y2).
  destruct (sum3_near _ _ _ _ _ _ V B0 HV (OFF (d_x v) false (dx q) (dz q) (dw q) (dy q) G1 B1 F1 F3 F4 F2 C1 C3 C4 C2)
    (OFF (d_y v) true (dw q) (dx q) (dy q) (dz q) G2 B2 F4 F1 F2 F3 C4 C1 C2 C3) (diag_near (d_z v) V (dz q) (dw q) G3 B3 HV F3 F4 C3 C4)) as (Z1 & Z2).
  split; [split; [exact X1|split; [exact Y1|exact Z1]]|split; [exact X2|split; [exact Y2|exact Z2]]].
Qed.
(** how the rotation depends on the quaternion *)
Lemma qrot_close p q v e : (forall c, In c [qx; qy; qz; qw] -> Rabs (c p) <= 101 / 100 /\ Rabs (c q) <= 101 / 100 /\ Rabs (c p - c q) <= e) ->
  vclose (qrot p v) (qrot q v) (25 * e * vmax v).
Proof.
  intros H. destruct (H qx ltac:(cbn; tauto)) as (X1 & X2 & X3). destruct (H qy ltac:(cbn; tauto)) as (Y1 & Y2 & Y3). destruct (H qz ltac:(cbn; tauto)) as (Z1 & Z2 & Z3). destruct (H qw ltac:(cbn; tauto)) as (W1 & W2 & W3).
  destruct (vmax_bounds v) as (B1 & B2 & B3 & B0). set (V := vmax v) in *. assert (E0 : 0 <= e) by (assert (P := Rabs_pos (qx p - qx q)); lra).
  assert (PR : forall a a' b b', Rabs a <= 101 / 100 -> Rabs b' <= 101 / 100 -> Rabs (a - a') <= e -> Rabs (b - b') <= e -> Rabs (a * b - a' * b') <= 202 / 100 * e).
  { intros a a' b b' Ha Hb Ea Eb. replace (a * b - a' * b') with (a * (b - b') + (a - a') * b') by ring. eapply Rle_trans; [apply Rabs_triang|]. rewrite !Rabs_mult.
    assert (Rabs a * Rabs (b - b') <= 101 / 100 * e) by (apply Rmult_le_compat; try apply Rabs_pos; assumption). assert (Rabs (a - a') * Rabs b' <= e * (101 / 100)) by (apply Rmult_le_compat; try apply Rabs_pos; assumption). lra. }
  assert (ROW : forall a b c k l m, Rabs a <= V -> Rabs b <= V -> Rabs c <= V -> Rabs k <= 825 / 100 * e -> Rabs l <= 825 / 100 * e -> Rabs m <= 825 / 100 * e -> Rabs (a * k + b * l + c * m) <= 25 * e * V).
  { intros a b c k l m Ha Hb Hc Hk Hl Hm. assert (Rabs (a * k) <= V * (825 / 100 * e)) by (rewrite Rabs_mult; apply Rmult_le_compat; try apply Rabs_pos; assumption).
    assert (Rabs (b * l) <= V * (825 / 100 * e)) by (rewrite Rabs_mult; apply Rmult_le_compat; try apply Rabs_pos; assumption). assert (Rabs (c * m) <= V * (825 / 100 * e)) by (rewrite Rabs_mult; apply Rmult_le_compat; try apply Rabs_pos; assumption).
    assert (T1 := Rabs_triang (a * k + b * l) (c * m)). assert (T2 := Rabs_triang (a * k) (b * l)). assert (0 <= V * e) by (apply Rmult_le_pos; lra). lra. }
  assert (TW : forall s a a' b b', Rabs (a - a') <= 202 / 100 * e -> Rabs (b - b') <= 202 / 100 * e -> Rabs (2 * (rpm s a b - rpm s a' b')) <= 825 / 100 * e).
  { intros s a a' b b' Ha Hb. rewrite Rabs_mult, (Rabs_pos_eq 2) by lra. assert (Rabs (rpm s a b - rpm s a' b') <= Rabs (a - a') + Rabs (b - b')). { replace (rpm s a b - rpm s a' b') with (rpm s (a - a') (b - b')) by (destruct s; cbn [rpm]; ring). apply rpm_abs. } lra. }
  assert (xx := PR (qx p) (qx q) (qx p) (qx q) X1 X2 X3 X3). assert (yy := PR (qy p) (qy q) (qy p) (qy q) Y1 Y2 Y3 Y3). assert (zz := PR (qz p) (qz q) (qz p) (qz q) Z1 Z2 Z3 Z3). assert (ww := PR (qw p) (qw q) (qw p) (qw q) W1 W2 W3 W3).
  assert (xy := PR (qx p) (qx q) (qy p) (qy q) X1 Y2 X3 Y3). assert (xz := PR (qx p) (qx q) (qz p) (qz q) X1 Z2 X3 Z3). assert (yz := PR (qy p) (qy q) (qz p) (qz q) Y1 Z2 Y3 Z3).
  assert (wx := PR (qw p) (qw q) (qx p) (qx q) W1 X2 W3 X3). assert (wy := PR (qw p) (qw q) (qy p) (qy q) W1 Y2 W3 Y3). assert (wz := PR (qw p) (qw q) (qz p) (qz q) W1 Z2 W3 Z3).
  unfold vclose, qrot. cbn [vx vy vz]. split; [|split].
  - eapply Rle_trans; [|apply (ROW _ _ _ _ _ _ B1 B2 B3 (TW true _ _ _ _ xx ww) (TW false _ _ _ _ xy wz) (TW true _ _ _ _ wy xz))]. right. f_equal. cbn [rpm]. ring.
  - eapply Rle_trans; [|apply (ROW _ _ _ _ _ _ B1 B2 B3 (TW true _ _ _ _ xy wz) (TW true _ _ _ _ yy ww) (TW false _ _ _ _ yz wx))]. right. f_equal. cbn [rpm]. ring.
  - eapply Rle_trans; [|apply (ROW _ _ _ _ _ _ B1 B2 B3 (TW false _ _ _ _ xz wy) (TW true _ _ _ _ wx yz) (TW true _ _ _ _ zz ww))]. right. f_equal. cbn [rpm]. ring.
Qed.

(** ** rounding is monotone *)
Lemma rnd_mono x y : x <= y -> rnd x <= rnd y.
Proof. intros H. unfold rnd. apply round_le; [apply fexp_correct; reflexivity|apply valid_rnd_round_mode|exact H]. Qed.
Lemma rnd_0 : rnd 0 = 0. Proof. rewrite <- val_d0 at 2. rewrite <- (rnd_val d0), val_d0. reflexivity. Qed.
Lemma rnd_1 : rnd 1 = 1. Proof. assert (E := rnd_val d1). rewrite val_d1 in E. exact E. Qed.
Lemma mul_exact a b : fin a -> fin b -> Rabs (val a * val b) <= 1000000 -> fin (dmul a b) /\ val (dmul a b) = rnd (val a * val b).
Proof.
  intros Fa Fb H. unfold fin, dmul, b64_mult in *. assert (C := Bmult_correct 53 1024 eq_refl eq_refl binop_nan_pl64 mode_NE a b). fold (rnd (val a * val b)) in C. rewrite (big_enough _ H) in C. destruct C as (E & F & _).
  rewrite F, Fa, Fb, E. split; reflexivity.
Qed.
Lemma sub_exact a b : fin a -> fin b -> Rabs (val a - val b) <= 1000000 -> fin (dsub a b) /\ val (dsub a b) = rnd (val a - val b).
Proof.
  intros Fa Fb H. unfold fin, dsub, b64_minus in *. assert (C := Bminus_correct 53 1024 eq_refl eq_refl binop_nan_pl64 mode_NE a b Fa Fb). fold (rnd (val a - val b)) in C. rewrite (big_enough _ H) in C. destruct C as (E & F & _).
  rewrite F, E. split; reflexivity.
Qed.
Lemma fin_0001 : fin d0001. Proof. reflexivity. Qed.

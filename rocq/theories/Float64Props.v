(** Quaternions in double precision (C169 - C171). *)
From Coq Require Import ZArith Reals Bool List Lra Lia.
From Flocq Require Import Core BinarySingleNaN Binary Bits Relative.
From Verif Require Import Mat Quat QuatProofs Float64 Float64Proofs.
Import ListNotations.
Open Scope R_scope.

(** ** C169: products *)
Lemma chain_from delta qs : forall k r R0, 0 <= delta -> delta * INR (k + length qs) <= 1 / 2 -> INR (k + length qs) * u <= 1 / 2000 -> (forall q, In q qs -> near_unit delta q) ->
  qfin r -> dist (qval r) R0 <= 60 * INR k * u -> Rabs (len R0 - 1) <= 2 * INR k * delta ->
  qfin (fold_left dqmul qs r) /\ dist (qval (fold_left dqmul qs r)) (fold_left qmul (map qval qs) R0) <= 60 * INR (k + length qs) * u /\
  Rabs (len (fold_left qmul (map qval qs) R0) - 1) <= 2 * INR (k + length qs) * delta.
Proof.
  induction qs as [|q qs IH]; intros k r R0 D0 KD KU N F E L; [cbn in *; rewrite Nat.add_0_r; repeat split; assumption || apply F|].
  assert (EQ : (k + length (q :: qs) = S k + length qs)%nat) by (cbn; lia). rewrite EQ in *. cbn [fold_left map].
  assert (M : INR (S k) <= INR (S k + length qs)) by (apply le_INR; lia). assert (U0 : 0 < u) by (unfold u; lra).
  assert (KD' : delta * INR (S k) <= 1 / 2) by (apply Rle_trans with (delta * INR (S k + length qs)); [apply Rmult_le_compat_l; assumption|exact KD]).
  assert (KU' : INR (S k) * u <= 1 / 2000) by (apply Rle_trans with (INR (S k + length qs) * u); [apply Rmult_le_compat_r; lra|exact KU]).
  destruct (chain_step delta k r R0 q D0 KD' KU' (N q (or_introl eq_refl)) F E L) as (F1 & E1 & L1).
  exact (IH (S k) _ _ D0 KD KU (fun q' H => N q' (or_intror H)) F1 E1 L1).
Qed.
(** the product of n rotations computed in double precision is finite and lies within 60 n 2^-53 of the exact product; it is a unit
    quaternion up to that and to the deviation of the factors *)
Theorem rounded_chain delta qs : let n := INR (length qs) in 0 <= delta -> n * delta <= 1 / 2 -> n <= 4 * 10 ^ 12 -> (forall q, In q qs -> near_unit delta q) ->
  qfin (dchain qs) /\ dist (qval (dchain qs)) (qchain (map qval qs)) <= 60 * n * u /\ Rabs (len (qval (dchain qs)) - 1) <= n * (2 * delta + 60 * u).
Proof.
  intros n D0 HD HN N. unfold dchain, qchain. 
  assert (O : qval done = qone) by (unfold qval, done; cbn [dx dy dz dw]; rewrite val_d0, val_d1; reflexivity).
  assert (O1 : len qone = 1) by (unfold len, qnorm, qone; cbn [qx qy qz qw]; replace (0 * 0 + 0 * 0 + 0 * 0 + 1 * 1) with 1 by ring; apply sqrt_1).
  destruct (chain_from delta qs 0 done qone) as (F & E & L); try assumption.
  - cbn [Nat.add]. fold n. lra.
  - cbn [Nat.add]. fold n. unfold u. lra.
  - repeat split; reflexivity.
  - rewrite O. unfold dist, len. replace (qnorm (qsub qone qone)) with 0 by (unfold qnorm, qsub, qone; cbn [qx qy qz qw]; ring). rewrite sqrt_0. cbn. lra.
  - rewrite O1. cbn. rewrite Rminus_diag_eq by reflexivity. rewrite Rabs_R0. lra.
  - cbn [Nat.add] in E, L. fold n in E, L. split; [exact F|]. split; [exact E|]. set (r := qval (fold_left dqmul qs done)) in *. set (R0 := fold_left qmul (map qval qs) qone) in *.
    assert (A := len_dist r R0). assert (B := len_dist R0 r). rewrite dist_sym in B. apply Rabs_le_inv in L. apply Rabs_le. lra.
Qed.
(** one product *)
Theorem rounded_product p q : qfin p -> qfin q -> len (qval p) * len (qval q) <= 1000 ->
  qfin (dqmul p q) /\ dist (qval (dqmul p q)) (qmul (qval p) (qval q)) <= 82 / 10 * u * (len (qval p) * len (qval q)) + 16 * eta.
Proof. exact (dqmul_near p q). Qed.

(** ** C170: arguments of acos *)
(** (refuted for angle and toAxisAngle) the quaternion ( 0, 0, 0, 49 ) is finite and not zero; after normalize its w is larger than one, so
    acos is called outside its domain; the axis of toAxisAngle is NaN *)
Definition d49 : dbl := b64_of_bits 4632092954238910464.
Theorem angle_domain_refuted : let q := DQ d0 d0 d0 d49 in qval q = Q 0 0 0 49 /\ qfin q /\
  fin (angle_arg (dnormalize q)) /\ 1 < val (angle_arg (dnormalize q)) /\ axis_angle_arg (dnormalize q) = angle_arg (dnormalize q) /\ is_nan 53 1024 (d_x (to_axis (dnormalize q))) = true.
Proof.
  cbv zeta. assert (V : val d49 = 49) by (unfold d49; cbn; unfold F2R; cbn; field).
  assert (F : fin (angle_arg (dnormalize (DQ d0 d0 d0 d49)))) by (vm_compute; reflexivity).
  split; [unfold qval; cbn [dx dy dz dw]; rewrite V, val_d0; reflexivity|]. split; [repeat split; reflexivity|]. split; [exact F|].
  split; [rewrite <- val_d1; apply (dlt_fin d1 _ fin_d1 F); vm_compute; reflexivity|].
  split; [|vm_compute; reflexivity]. unfold angle_arg, axis_angle_arg. assert (P : dlt d0 (dw (dnormalize (DQ d0 d0 d0 d49))) = true) by (vm_compute; reflexivity). rewrite P. reflexivity.
Qed.
(** toLogarithm calls acos with a number in [0, 1), for every quaternion whatsoever, also with infinite components or NaN *)
Theorem log_domain q a : log_arg q = Some a -> fin a /\ 0 <= val a < 1.
Proof.
  unfold log_arg. destruct (dw q) as [s|s|s pl e|s m e Hb] eqn:EW.
  - rewrite <- EW. assert (F : fin (dw q)) by (rewrite EW; reflexivity). intros H.
    assert (V : val (dw q) = 0) by (rewrite EW; reflexivity).
    destruct (dle d0 (dw q)) eqn:E0; cbv zeta in H; [destruct (mul_one _ F) as (G & VG)|destruct (mul_minus_one _ F) as (G & VG)]; destruct (dlt _ d1); try discriminate; injection H as <-; rewrite VG, V; split; [exact G|lra|exact G|lra].
  - destruct s; vm_compute; discriminate.
  - vm_compute; discriminate.
  - rewrite <- EW. assert (F : fin (dw q)) by (rewrite EW; reflexivity). intros H. assert (D := dle_fin d0 (dw q) fin_d0 F). rewrite val_d0 in D.
    destruct (dle d0 (dw q)) eqn:E0; cbv zeta in H; [destruct (mul_one _ F) as (G & VG)|destruct (mul_minus_one _ F) as (G & VG)]; destruct (dlt _ d1) eqn:E1; try discriminate; injection H as <-.
    + apply (dlt_fin _ _ G fin_d1) in E1. rewrite VG, val_d1 in *. split; [exact G|]. split; [apply D; reflexivity|exact E1].
    + apply (dlt_fin _ _ G fin_d1) in E1. rewrite VG, val_d1 in *. split; [exact G|]. split; [|exact E1]. destruct (Rle_or_lt 0 (val (dw q))) as [P|P]; [apply D in P; discriminate|lra].
Qed.
Lemma sq_between a lo hi : 0 <= lo -> lo <= a <= hi -> lo * lo <= a * a <= hi * hi.
Proof. intros L (A & B). split; apply Rmult_le_compat; lra. Qed.
Lemma comp_le_len q : Rabs (qx q) <= len q /\ Rabs (qy q) <= len q /\ Rabs (qz q) <= len q /\ Rabs (qw q) <= len q.
Proof.
  assert (G : forall c, c * c <= qnorm q -> Rabs c <= len q) by (intros c H; rewrite <- sqrt_Rsqr_abs; apply sqrt_le_1_alt; exact H).
  assert (A := Rle_0_sqr (qx q)). assert (B := Rle_0_sqr (qy q)). assert (C := Rle_0_sqr (qz q)). assert (D := Rle_0_sqr (qw q)). unfold Rsqr in *. repeat split; apply G; unfold qnorm; lra.
Qed.
(** the rounded squared length *)
Lemma dnorm_near q : qfin q -> qnorm (qval q) <= 1000 -> near (dnorm q) (qnorm (qval q)) (41 / 10 * u * qnorm (qval q) + 8 * eta).
Proof.
  intros (F1 & F2 & F3 & F4) H. assert (E : forall a, val a * val (dopp a) = - (val a * val a)) by (intros a; rewrite opp_val; ring).
  assert (N := dot4_near false false false (dw q) (dw q) (dx q) (dopp (dx q)) (dy q) (dopp (dy q)) (dz q) (dopp (dz q)) (qnorm (qval q)) F4 F4 F1 (opp_fin _ F1) F2 (opp_fin _ F2) F3 (opp_fin _ F3)).
  rewrite !E, !Rabs_Ropp in N. rewrite !(Rabs_pos_eq (_ * _)) in N by apply Rle_0_sqr. cbn [dpm rpm] in N. unfold qnorm in *. cbn [qval qx qy qz qw] in *. 
  specialize (N ltac:(lra) H). destruct N as (F & N). split; [exact F|]. eapply Rle_trans; [|exact N]. right. f_equal. unfold dnorm. ring.
Qed.
Lemma fin_09999 : fin d09999. Proof. reflexivity. Qed.
Local Opaque dadd dsub dmul ddiv dsqrt dopp dlt.
(** C170: for unit quaternions, up to one per cent, slerp calls acos with a number between -1/10 and 0.99991: it is defined, and the sine by which
    slerp divides is not zero *)
Theorem slerp_domain a b d : near_unit (1 / 100) a -> near_unit (1 / 100) b -> slerp_arg a b = Some d -> fin d /\ - (1 / 10) <= val d <= 99991 / 100000.
Proof.
  intros (Fa & La) (Fb & Lb) H. assert (U0 : 0 < u) by (unfold u; lra). assert (SM := eta_small). assert (EP := eta_pos). assert (ES : eta <= u / 1000) by (unfold u in *; lra). assert (US : u <= 1 / 1000000) by (unfold u; lra).
  apply Rabs_le_inv in La, Lb. set (A := qval a) in *. set (B := qval b) in *.
  destruct (sq_between (len A) (99 / 100) (101 / 100) ltac:(lra) ltac:(lra)) as (A1 & A2). destruct (sq_between (len B) (99 / 100) (101 / 100) ltac:(lra) ltac:(lra)) as (B1 & B2). rewrite len_sq in A1, A2, B1, B2.
  destruct (comp_le_len A) as (Ax & Ay & Az & Aw). destruct (comp_le_len B) as (Bx & By & Bz & Bw).
  assert (SB : forall x y, fin x -> fin y -> Rabs (val x) <= len A -> Rabs (val y) <= len B -> near (dsub x y) (val x - val y) (3 * u)).
  { intros x y Fx Fy Hx Hy. assert (Rabs (val x - val y) <= Rabs (val x) + Rabs (val y)) by exact (rpm_abs false (val x) (val y)). eapply near_weaken; [apply sub_near; [assumption..|lra]|]. 
    assert (u * Rabs (val x - val y) <= u * (202 / 100)) by (apply Rmult_le_compat_l; lra). lra. }
  unfold slerp_arg in H. cbv zeta in H. set (diff := DQ _ _ _ _) in H.
  destruct Fa as (Fa1 & Fa2 & Fa3 & Fa4). destruct Fb as (Fb1 & Fb2 & Fb3 & Fb4).
  destruct (SB (dx a) (dx b) Fa1 Fb1 Ax Bx) as (G1 & E1). destruct (SB (dy a) (dy b) Fa2 Fb2 Ay By) as (G2 & E2). destruct (SB (dz a) (dz b) Fa3 Fb3 Az Bz) as (G3 & E3). destruct (SB (dw a) (dw b) Fa4 Fb4 Aw Bw) as (G4 & E4).
  assert (FD : qfin diff) by (repeat split; assumption).
  assert (DD : dist (qval diff) (qsub A B) <= 2 * (3 * u)) by (apply dist_bound; [lra|assumption..]).
  assert (NS : qnorm (qsub A B) = qnorm A + qnorm B - 2 * qdot A B) by (unfold qnorm, qsub, qdot; cbn [qx qy qz qw]; ring).
  assert (CS := cauchy_quat A B). assert (AB : len A * len B <= 101 / 100 * (101 / 100)) by (apply Rmult_le_compat; try apply len_pos; lra).
  assert (CN : - qdot A B <= len A * len B).
  { assert (X := cauchy_quat (qopp A) B). replace (qdot (qopp A) B) with (- qdot A B) in X by (unfold qdot, qopp; cbn [qx qy qz qw]; ring). replace (len (qopp A)) with (len A) in X; [exact X|]. unfold len, qnorm, qopp. cbn [qx qy qz qw]. f_equal. ring. }
  (* lengths of the exact and of the rounded difference *)
  assert (L1 := len_dist (qval diff) (qsub A B)). assert (L2 := len_dist (qsub A B) (qval diff)). rewrite dist_sym in L2.
  assert (LE := len_sq (qsub A B)). assert (LD := len_sq (qval diff)). assert (P1 := len_pos (qsub A B)). assert (P2 := len_pos (qval diff)).
  assert (LB3 : len (qsub A B) <= 3) by (apply len_le; lra).
  set (l := len (qsub A B)) in *. set (l' := len (qval diff)) in *.
  assert (DQ1 : Rabs (qnorm (qval diff) - qnorm (qsub A B)) <= 50 * u).
  { rewrite <- LE, <- LD. replace (l' * l' - l * l) with ((l' - l) * (l' + l)) by ring. rewrite Rabs_mult. apply Rle_trans with (6 * u * 7); [|lra]. apply Rmult_le_compat; try apply Rabs_pos; apply Rabs_le; lra. }
  apply Rabs_le_inv in DQ1.
  destruct (dnorm_near diff FD ltac:(lra)) as (FN & EN). 
  assert (NB : 41 / 10 * u * qnorm (qval diff) <= 41 / 10 * u * 10) by (apply Rmult_le_compat_l; lra). apply Rabs_le_inv in EN.
  assert (T := dlt_fin d2 (dnorm diff) fin_d2 FN). rewrite val_d2 in T.
  (* the rounded inner product *)
  assert (DOT : forall x, qfin x -> len (qval x) = len A -> near (dadd (dadd (dadd (dmul (dx x) (dx b)) (dmul (dy x) (dy b))) (dmul (dz x) (dz b))) (dmul (dw x) (dw b))) (qdot (qval x) B) (5 * u)).
  { intros x (X1 & X2 & X3 & X4) LX. assert (C := abs_products (qval x) B). rewrite LX in C. cbn [qval qx qy qz qw B] in C. rewrite <- !Rabs_mult in C.
    assert (N := dot4_near true true true (dx x) (dx b) (dy x) (dy b) (dz x) (dz b) (dw x) (dw b) (len A * len B) X1 Fb1 X2 Fb2 X3 Fb3 X4 Fb4 C ltac:(lra)). cbn [dpm rpm] in N.
    eapply near_weaken; [exact N|]. assert (41 / 10 * u * (len A * len B) <= 41 / 10 * u * (101 / 100 * (101 / 100))) by (apply Rmult_le_compat_l; lra). lra. }
  assert (FIN : forall dot, fin dot -> (if dlt d09999 dot then None else Some dot) = Some d -> d = dot /\ val dot <= 99991 / 100000).
  { intros dot FD' HD. assert (TT := dlt_fin d09999 dot fin_09999 FD'). destruct (dlt d09999 dot); [discriminate|]. injection HD as <-. split; [reflexivity|]. assert (V := val_09999). destruct (Rle_or_lt (val dot) (val d09999)) as [O|O]; [lra|]. apply TT in O. discriminate. }
  destruct (dlt d2 (dnorm diff)) eqn:ET; cbn [dx dy dz dw] in H.
  - (* far apart: the first one is negated *)
    assert (QO : qval (DQ (dopp (dx a)) (dopp (dy a)) (dopp (dz a)) (dopp (dw a))) = qopp A) by (unfold qval, qopp; cbn [dx dy dz dw]; rewrite !opp_val; reflexivity).
    destruct (DOT (DQ (dopp (dx a)) (dopp (dy a)) (dopp (dz a)) (dopp (dw a)))) as (F & N).
    { repeat split; apply opp_fin; assumption. } { rewrite QO. unfold len, qnorm, qopp. cbn [qx qy qz qw]. f_equal. ring. }
    cbn [dx dy dz dw] in F, N. rewrite QO in N. replace (qdot (qopp A) B) with (- qdot A B) in N by (unfold qdot, qopp; cbn [qx qy qz qw]; ring).
    destruct (FIN _ F H) as (-> & UP). split; [exact F|]. assert (T2 := proj1 T eq_refl). apply Rabs_le_inv in N. lra.
  - destruct (DOT a) as (F & N); [repeat split; assumption|reflexivity|].
    destruct (FIN _ F H) as (-> & UP). split; [exact F|]. assert (T2 : val (dnorm diff) <= 2) by (destruct (Rle_or_lt (val (dnorm diff)) 2) as [O|O]; [exact O|apply T in O; discriminate]). fold A in N. apply Rabs_le_inv in N. lra.
Qed.

(** (the rest of the claim for toAxisAngle) if the rounded w does not exceed one, the axis consists of finite numbers *)
Theorem axis_finite q : near_unit (1 / 100) q -> Rabs (val (axis_angle_arg q)) <= 1 -> vfin (to_axis q).
Proof.
  intros ((F1 & F2 & F3 & F4) & L) HW. unfold axis_angle_arg in HW. apply Rabs_le_inv in L. destruct (comp_le_len (qval q)) as (X & Y & Z & W). cbn [qval qx qy qz qw] in X, Y, Z, W. small.
  assert (P0 : 0 <= val (dw q) * val (dw q)) by apply Rle_0_sqr.
  assert (P1 : val (dw q) * val (dw q) <= 1). { rewrite <- (Rabs_pos_eq (val (dw q) * val (dw q))) by exact P0. rewrite Rabs_mult. replace 1 with (1 * 1) by ring. apply Rmult_le_compat; try apply Rabs_pos; exact HW. }
  destruct (mul_exact (dw q) (dw q) F4 F4 ltac:(rewrite Rabs_pos_eq; lra)) as (FM & VM).
  assert (M1 : val (dmul (dw q) (dw q)) <= 1) by (rewrite VM, <- rnd_1; apply rnd_mono; exact P1).
  assert (M0 : 0 <= val (dmul (dw q) (dw q))) by (rewrite VM, <- rnd_0; apply rnd_mono; exact P0).
  set (m := dmul (dw q) (dw q)) in *.
  assert (D : fin (dsub d1 m) /\ 0 <= val (dsub d1 m)).
  { destruct (sub_exact d1 m fin_d1 FM ltac:(rewrite val_d1; apply Rabs_le; lra)) as (FE & VE). split; [exact FE|]. rewrite VE, <- rnd_0. apply rnd_mono. rewrite val_d1. lra. }
  destruct D as (FD & D0). destruct (sqrt_near _ FD D0) as (FS & _). unfold to_axis. cbv zeta. fold m. set (s := dsqrt _) in *. clearbody s.
  assert (T := dlt_fin s d0001 FS fin_0001). assert (K := val_0001). destruct (dlt s d0001); [repeat split; assumption|].
  assert (SL : 9 / 10000 <= val s) by (destruct (Rle_or_lt (9 / 10000) (val s)) as [O|O]; [exact O|assert (false = true) by (apply T; lra); discriminate]).
  assert (Q : forall c, fin c -> Rabs (val c) <= 101 / 100 -> fin (ddiv c s)).
  { intros c Fc Hc. apply (div_near c s Fc); [lra|]. unfold Rdiv. rewrite Rabs_mult, (Rabs_pos_eq (/ val s)) by (apply Rlt_le, Rinv_0_lt_compat; lra).
    apply Rle_trans with (101 / 100 * (10000 / 9)); [|lra]. apply Rmult_le_compat; [apply Rabs_pos|apply Rlt_le, Rinv_0_lt_compat; lra|exact Hc|]. replace (10000 / 9) with (/ (9 / 10000)) by field. apply Rinv_le_contravar; lra. }
  repeat split; apply Q; try assumption; lra.
Qed.

(** ** C171: normalize and rotation *)
(** normalising gives, up to 47 rounding units, the quaternion divided by its length; in particular a length within 47 units of one *)
Theorem rounded_normalize q qn : qfin q -> 1 / 1000 <= largest (qval q) <= 1000 -> qnormalize (qval q) = Some qn ->
  qfin (dnormalize q) /\ dist (qval (dnormalize q)) qn <= 47 * u /\ near_unit (47 * u) (dnormalize q) /\
  Rabs (val (dx (dnormalize q)) - qx qn) <= 231 / 10 * u /\ Rabs (val (dy (dnormalize q)) - qy qn) <= 231 / 10 * u /\ Rabs (val (dz (dnormalize q)) - qz qn) <= 231 / 10 * u /\ Rabs (val (dw (dnormalize q)) - qw qn) <= 231 / 10 * u.
Proof.
  intros FQ HM HN. destruct (dqabs_near q FQ HM) as (FA & EA). destruct FQ as (F1 & F2 & F3 & F4). small.
  unfold qnormalize in HN. cbv zeta in HN. fold (len (qval q)) in HN. destruct (Req_EM_T (len (qval q)) 0) as [Z|NZ]; [discriminate|]. injection HN as <-.
  destruct (comp_le_len (qval q)) as (X & Y & Z & W). destruct (largest_bounds (qval q)) as (_ & LB). 
  assert (LL : 1 / 1000 <= len (qval q)) by (destruct LB as [E|[E|[E|E]]]; rewrite E in HM; lra). set (L := len (qval q)) in *. cbn [qval qx qy qz qw] in X, Y, Z, W.
  set (n := dqabs q) in *. apply Rabs_le_inv in EA. assert (UL : 22 * u * L <= 1 / 1000000 * L) by (apply Rmult_le_compat_r; lra).
  assert (N0 : 999 / 1000 * L <= val n) by lra. assert (NP : 0 < val n) by lra.
  assert (C : forall c, fin c -> Rabs (val c) <= L -> near (ddiv c n) (val c / L) (231 / 10 * u)).
  { intros c Fc Hc. assert (B1 : Rabs (val c / L) <= 1). { unfold Rdiv. rewrite Rabs_mult, (Rabs_pos_eq (/ L)) by (apply Rlt_le, Rinv_0_lt_compat; lra). apply Rmult_le_reg_r with L; [lra|]. rewrite Rmult_assoc, Rinv_l by lra. lra. }
    assert (DD : Rabs (val c / val n - val c / L) <= 2203 / 100 * u).
    { replace (val c / val n - val c / L) with (val c / L * ((L - val n) / val n)) by (field; lra). rewrite Rabs_mult. apply Rle_trans with (1 * (2203 / 100 * u)); [|lra]. apply Rmult_le_compat; [apply Rabs_pos..|exact B1|].
      unfold Rdiv. rewrite Rabs_mult, (Rabs_pos_eq (/ val n)) by (apply Rlt_le, Rinv_0_lt_compat; lra). apply Rmult_le_reg_r with (val n); [lra|]. rewrite Rmult_assoc, Rinv_l by lra. rewrite Rmult_1_r. 
      apply Rle_trans with (22 * u * L); [apply Rabs_le; lra|]. apply Rle_trans with (2203 / 100 * u * (999 / 1000 * L)); [|apply Rmult_le_compat_l; lra]. assert (0 <= u * L) by (apply Rmult_le_pos; lra). lra. }
    assert (B2 : Rabs (val c / val n) <= 1 + 2203 / 100 * u). { replace (val c / val n) with (val c / L + (val c / val n - val c / L)) by ring. eapply Rle_trans; [apply Rabs_triang|]. lra. }
    destruct (div_near c n Fc ltac:(lra) ltac:(lra)) as (FD & ED). split; [exact FD|].
    replace (val (ddiv c n) - val c / L) with ((val (ddiv c n) - val c / val n) + (val c / val n - val c / L)) by ring. eapply Rle_trans; [apply Rabs_triang|].
    assert (u * Rabs (val c / val n) <= u * (1 + 2203 / 100 * u)) by (apply Rmult_le_compat_l; lra). assert (u * u <= u * (1 / 1000000000)) by (apply Rmult_le_compat_l; lra). lra. }
  destruct (C (dx q) F1 X) as (G1 & E1). destruct (C (dy q) F2 Y) as (G2 & E2). destruct (C (dz q) F3 Z) as (G3 & E3). destruct (C (dw q) F4 W) as (G4 & E4).
  assert (FN : qfin (dnormalize q)) by (split; [exact G1|split; [exact G2|split; [exact G3|exact G4]]]).
  assert (DI : dist (qval (dnormalize q)) (Q (val (dx q) / L) (val (dy q) / L) (val (dz q) / L) (val (dw q) / L)) <= 47 * u) by (apply Rle_trans with (2 * (231 / 10 * u)); [apply dist_bound; [lra|assumption..]|lra]).
  assert (L1 : len (Q (val (dx q) / L) (val (dy q) / L) (val (dz q) / L) (val (dw q) / L)) = 1).
  { unfold len. replace (qnorm (Q (val (dx q) / L) (val (dy q) / L) (val (dz q) / L) (val (dw q) / L))) with (L * L / (L * L)); [replace (L * L / (L * L)) with 1 by (field; lra); apply sqrt_1|].
    replace (L * L) with (qnorm (qval q)) at 1 by (unfold L; rewrite len_sq; reflexivity). unfold qnorm, qval. cbn [qx qy qz qw]. field. lra. }
  split; [exact FN|]. split; [exact DI|]. split; [split; [exact FN|]|repeat split; assumption].
  assert (T1 := len_dist (qval (dnormalize q)) (Q (val (dx q) / L) (val (dy q) / L) (val (dz q) / L) (val (dw q) / L))). assert (T2 := len_dist (Q (val (dx q) / L) (val (dy q) / L) (val (dz q) / L) (val (dw q) / L)) (qval (dnormalize q))). rewrite dist_sym in T2.
  rewrite L1 in T1, T2. apply Rabs_le. lra.
Qed.
(** rotating a vector: every component is within 103 rounding units, relative to the largest component of the vector, of the exact rotation formula *)
Theorem rounded_rotation q v : near_unit (1 / 100) q -> vfin v -> vmax (vval v) <= 1000 ->
  vfin (drot q v) /\ vclose (vval (drot q v)) (qrot (qval q) (vval v)) (103 * u * vmax (vval v) + 16 * eta).
Proof.
  intros (F & L) FV HV. apply Rabs_le_inv in L. destruct (comp_le_len (qval q)) as (X & Y & Z & W). apply drot_near; [exact F| |exact FV|exact HV].
  intros c [<-|[<-|[<-|[<-|[]]]]]; cbn [qval qx qy qz qw] in *; lra.
Qed.
Lemma qnormalize_unit q qn : qnormalize q = Some qn -> Quat.unit qn.
Proof.
  unfold qnormalize. cbv zeta. fold (len q). destruct (Req_EM_T (len q) 0) as [Z|NZ]; [discriminate|]. intros H. injection H as <-. unfold Quat.unit.
  replace (qnorm (Q (qx q / len q) (qy q / len q) (qz q / len q) (qw q / len q))) with (qnorm q / (len q * len q)) by (unfold qnorm; cbn [qx qy qz qw]; field; exact NZ).
  rewrite <- len_sq. field. exact NZ.
Qed.
(** any quaternion of moderate size, normalised and then used to rotate: within 700 rounding units of the rotation by the exact unit quaternion *)
Theorem rounded_unit_rotation q qn v : qfin q -> 1 / 1000 <= largest (qval q) <= 1000 -> qnormalize (qval q) = Some qn -> vfin v -> vmax (vval v) <= 1000 ->
  Quat.unit qn /\ vfin (drot (dnormalize q) v) /\ vclose (vval (drot (dnormalize q) v)) (qrot qn (vval v)) (700 * u * vmax (vval v) + 16 * eta).
Proof.
  intros FQ HM HN FV HV. assert (UN : Quat.unit qn) by exact (qnormalize_unit _ _ HN). split; [exact UN|]. small.
  destruct (rounded_normalize q qn FQ HM HN) as (FN & _ & (_ & NU) & E1 & E2 & E3 & E4).
  assert (NU' : near_unit (1 / 100) (dnormalize q)) by (split; [exact FN|lra]). destruct (rounded_rotation _ _ NU' FV HV) as (FR & C1 & C2 & C3). split; [exact FR|].
  apply Rabs_le_inv in NU. destruct (comp_le_len (qval (dnormalize q))) as (X & Y & Z & W).
  assert (LU : len qn = 1) by (unfold len; rewrite UN; apply sqrt_1). destruct (comp_le_len qn) as (X' & Y' & Z' & W'). rewrite LU in X', Y', Z', W'.
  destruct (qrot_close (qval (dnormalize q)) qn (vval v) (231 / 10 * u)) as (D1 & D2 & D3).
  { intros c [<-|[<-|[<-|[<-|[]]]]]; repeat split; first [assumption|lra]. }
  assert (V0 := proj2 (proj2 (proj2 (vmax_bounds (vval v))))). assert (0 <= u * vmax (vval v)) by (apply Rmult_le_pos; lra).
  assert (TR : forall a b c e1 e2, Rabs (a - b) <= e1 -> Rabs (b - c) <= e2 -> Rabs (a - c) <= e1 + e2) by (intros a b c e1 e2 A B; replace (a - c) with ((a - b) + (b - c)) by ring; eapply Rle_trans; [apply Rabs_triang|lra]).
  split; [|split]; (eapply Rle_trans; [eapply TR; [first [exact C1|exact C2|exact C3]|first [exact D1|exact D2|exact D3]]|lra]).
Qed.

(** ** concrete cases *)
Lemma unit_x : near_unit (1 / 100) (DQ d1 d0 d0 d0).
Proof.
  split; [repeat split; first [exact fin_d1|exact fin_d0]|]. unfold len, qnorm, qval. cbn [dx dy dz dw qx qy qz qw]. rewrite val_d1, val_d0. replace (1 * 1 + 0 * 0 + 0 * 0 + 0 * 0) with 1 by ring. rewrite sqrt_1. rewrite Rminus_diag_eq by reflexivity. rewrite Rabs_R0. lra.
Qed.
Lemma unit_one : near_unit (1 / 100) done.
Proof.
  split; [repeat split; first [exact fin_d1|exact fin_d0]|]. unfold len, qnorm, qval, done. cbn [dx dy dz dw qx qy qz qw]. rewrite val_d1, val_d0. replace (0 * 0 + 0 * 0 + 0 * 0 + 1 * 1) with 1 by ring. rewrite sqrt_1. rewrite Rminus_diag_eq by reflexivity. rewrite Rabs_R0. lra.
Qed.
(** the quaternion ( 1, 0, 0, 2 ) *)
Definition q1002 : dq := DQ d1 d0 d0 d2.
Lemma q1002_ok : qfin q1002 /\ largest (qval q1002) = 2 /\ qnormalize (qval q1002) = Some (Q (1 / sqrt 5) (0 / sqrt 5) (0 / sqrt 5) (2 / sqrt 5)).
Proof.
  split; [repeat split; first [exact fin_d1|exact fin_d0|exact fin_d2]|]. unfold q1002, largest, qnormalize, qnorm, qval. cbn [dx dy dz dw qx qy qz qw]. rewrite val_d1, val_d0, val_d2. split.
  - rewrite Rabs_R0, (Rabs_pos_eq 1), (Rabs_pos_eq 2) by lra. rewrite (Rmax_left 2 1), (Rmax_left 0 0), (Rmax_left 2 0) by lra. reflexivity.
  - replace (1 * 1 + 0 * 0 + 0 * 0 + 2 * 2) with 5 by ring. destruct (Req_EM_T (sqrt 5) 0) as [E|E]; [|reflexivity]. apply sqrt_eq_0 in E; lra.
Qed.
Lemma q1002_unit : near_unit (47 * u) (dnormalize q1002).
Proof. destruct q1002_ok as (F & L & N). exact (proj1 (proj2 (proj2 (rounded_normalize q1002 _ F ltac:(rewrite L; lra) N)))). Qed.
(** a thousand products of a quaternion that is only approximately of length one *)
Example chain_case : let qs := repeat (dnormalize q1002) 1000 in qfin (dchain qs) /\ dist (qval (dchain qs)) (qchain (map qval qs)) <= 60000 * u.
Proof.
  cbv zeta. assert (N : INR (length (repeat (dnormalize q1002) 1000)) = 1000) by (rewrite repeat_length, INR_IZR_INZ; reflexivity).
  assert (H := rounded_chain (47 * u) (repeat (dnormalize q1002) 1000)). cbv zeta in H. rewrite N in H. small.
  destruct H as (A & B & _); [lra|lra|lra| |split; [exact A|lra]]. intros q I. apply repeat_spec in I. subst. exact q1002_unit.
Qed.
Example slerp_case : exists d, slerp_arg done (DQ d1 d0 d0 d0) = Some d /\ fin d /\ - (1 / 10) <= val d <= 99991 / 100000.
Proof.
  unfold slerp_arg. cbv zeta. set (t := dlt d09999 _). assert (T : t = false) by (vm_compute; reflexivity). rewrite T. eexists. split; [reflexivity|]. apply (slerp_domain done (DQ d1 d0 d0 d0)); [exact unit_one|exact unit_x|].
  unfold slerp_arg. cbv zeta. fold t. rewrite T. reflexivity.
Qed.
Example log_case : exists a, log_arg (DQ d1 d0 d0 d0) = Some a /\ fin a /\ 0 <= val a < 1.
Proof.
  assert (T : exists a, log_arg (DQ d1 d0 d0 d0) = Some a). { unfold log_arg. cbv zeta. set (t := dlt _ d1). assert (T : t = true) by (vm_compute; reflexivity). rewrite T. eexists. reflexivity. }
  destruct T as (a & T). exists a. split; [exact T|]. exact (log_domain _ _ T).
Qed.
Example axis_case : vfin (to_axis (DQ d1 d0 d0 d0)).
Proof. apply axis_finite; [exact unit_x|]. unfold axis_angle_arg. cbn [dw]. rewrite val_d0, Rabs_R0. lra. Qed.
Example rotation_case : vclose (vval (drot (dnormalize q1002) (DV d1 d2 d2))) (V3 1 (-2 / 5) (14 / 5)) (1401 * u).
Proof.
  destruct q1002_ok as (F & L & N). assert (VM : vmax (vval (DV d1 d2 d2)) = 2) by (unfold vmax, vval; cbn [d_x d_y d_z vx vy vz]; rewrite val_d1, val_d2, (Rabs_pos_eq 1), (Rabs_pos_eq 2), (Rmax_left 2 2), Rmax_right by lra; reflexivity).
  destruct (rounded_unit_rotation q1002 _ (DV d1 d2 d2) F ltac:(rewrite L; lra) N ltac:(repeat split; first [exact fin_d1|exact fin_d2]) ltac:(rewrite VM; lra)) as (_ & _ & C). rewrite VM in C. small.
  assert (S5 : sqrt 5 * sqrt 5 = 5) by (apply sqrt_sqrt; lra). assert (SP : 0 < sqrt 5) by (apply sqrt_lt_R0; lra).
  assert (E : qrot (Q (1 / sqrt 5) (0 / sqrt 5) (0 / sqrt 5) (2 / sqrt 5)) (vval (DV d1 d2 d2)) = V3 1 (-2 / 5) (14 / 5)).
  { unfold qrot, vval. cbn [d_x d_y d_z vx vy vz qx qy qz qw]. rewrite val_d1, val_d2. assert (I : / sqrt 5 * / sqrt 5 = / 5) by (rewrite <- Rinv_mult, S5; reflexivity). unfold Rdiv.
    replace (1 * / sqrt 5 * (1 * / sqrt 5)) with (/ 5) by (rewrite <- I; ring). replace (2 * / sqrt 5 * (2 * / sqrt 5)) with (4 * / 5) by (rewrite <- I; ring). replace (2 * / sqrt 5 * (1 * / sqrt 5)) with (2 * / 5) by (rewrite <- I; ring). f_equal; rewrite ?Rmult_0_l, ?Rmult_0_r; lra. }
  rewrite E in C. destruct C as (C1 & C2 & C3). split; [|split]; lra.
Qed.

Print Assumptions rounded_chain.
Print Assumptions rounded_product.
Print Assumptions angle_domain_refuted.
Print Assumptions log_domain.
Print Assumptions slerp_domain.
Print Assumptions axis_finite.
Print Assumptions rounded_normalize.
Print Assumptions rounded_rotation.
Print Assumptions rounded_unit_rotation.

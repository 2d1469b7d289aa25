(** Tool tip calibration by least squares (C103). *)
From Coq Require Import Reals Lra Lia List Arith.
Import ListNotations.
From Verif Require Import Mat Quat QuatProofs QuatProps Dlt DltProofs AbsOrient AbsOrientProofs AbsOrientProps.
Open Scope R_scope.

(** what gels is to do: minimise | A x - b |^2 *)
Definition residual (m n : nat) (A : mat) (b x : vect) : R := sum m (fun i => (mvec n A x i - b i) * (mvec n A x i - b i)).
Definition least_squares (m n : nat) (A : mat) (b v : vect) : Prop := forall x, residual m n A b v <= residual m n A b x.
Definition gels_ok (gels : gels6) (ps : list pose) : Prop :=
  let rows := tip_system ps in let b := fun i => nth i (tip_right ps) 0 in
  exists v, gels (length rows) (rows_mat rows) b = Some v /\ least_squares (length rows) 6 (rows_mat rows) b v.
(** the squared distances between the tip seen by each pose and the fixed world point *)
Definition tip_error (ps : list pose) (pm pw : vec3) : R := lsum (fun p => sq3 (v3sub (papp p pm) pw)) ps.
Definition x_of (pm pw : vec3) : vect := vlist [vx pm; vy pm; vz pm; vx pw; vy pw; vz pw].

Lemma v3_ext_sub a b : v3sub a b = v3zero -> a = b.
Proof. intros H. assert (A := f_equal vx H). assert (B := f_equal vy H). assert (C := f_equal vz H). cbn [v3sub v3zero vx vy vz] in A, B, C. apply v3_ext; lra. Qed.
Lemma tip_rows_residual p x : rigid p ->
  (vdot 6 (nth 0 (tip_rows p) (fun _ => 0)) x - nth 0 (tip_rhs p) 0) ^ 2 + ((vdot 6 (nth 1 (tip_rows p) (fun _ => 0)) x - nth 1 (tip_rhs p) 0) ^ 2 + (vdot 6 (nth 2 (tip_rows p) (fun _ => 0)) x - nth 2 (tip_rhs p) 0) ^ 2) =
  sq3 (v3sub (papp p (V3 (x 0%nat) (x 1%nat) (x 2%nat))) (V3 (x 3%nat) (x 4%nat) (x 5%nat))).
Proof.
  intros R. unfold papp. rewrite (qrot_mat _ _ R). destruct p as [q t]. set (M := qmat (rot (P q t))). unfold tip_rows, tip_rhs. fold M. cbn [map nth].
  unfold vdot, sq3, dot3, v3sub, v3add, v3opp, mv3. cbn [sum Nat.ltb Nat.leb Nat.eqb Nat.add vx vy vz tra]. ring.
Qed.
Lemma residual_pose p ps x : rigid p ->
  residual (length (tip_system (p :: ps))) 6 (rows_mat (tip_system (p :: ps))) (fun i => nth i (tip_right (p :: ps)) 0) x =
  sq3 (v3sub (papp p (V3 (x 0%nat) (x 1%nat) (x 2%nat))) (V3 (x 3%nat) (x 4%nat) (x 5%nat))) + residual (length (tip_system ps)) 6 (rows_mat (tip_system ps)) (fun i => nth i (tip_right ps) 0) x.
Proof.
  intros R. rewrite <- (tip_rows_residual p x R). unfold residual.
  change (length (tip_system (p :: ps))) with (3 + length (tip_system ps))%nat. rewrite sum_split. f_equal.
  cbn [sum]. unfold mvec, rows_mat, tip_system, tip_right. cbn [flat_map tip_rows tip_rhs map app nth]. unfold vdot. ring.
Qed.
(** the sum of squares which is minimised is the sum of the squared distances *)
Theorem tip_residual ps x : (forall p, In p ps -> rigid p) ->
  residual (length (tip_system ps)) 6 (rows_mat (tip_system ps)) (fun i => nth i (tip_right ps) 0) x =
  tip_error ps (V3 (x 0%nat) (x 1%nat) (x 2%nat)) (V3 (x 3%nat) (x 4%nat) (x 5%nat)).
Proof.
  induction ps as [|p ps IH]; intros H; [reflexivity|]. rewrite residual_pose by (apply H; left; reflexivity). unfold tip_error, lsum in *. cbn [fold_right]. rewrite IH by (intros; apply H; right; assumption). reflexivity.
Qed.
(** the system is met exactly iff every pose maps the tip to the world point *)
Theorem tip_system_iff ps pm pw : (forall p, In p ps -> rigid p) ->
  ((forall i, (i < length (tip_system ps))%nat -> mvec 6 (rows_mat (tip_system ps)) (x_of pm pw) i = nth i (tip_right ps) 0) <-> forall p, In p ps -> papp p pm = pw).
Proof.
  intros R. assert (E := tip_residual ps (x_of pm pw) R). change (V3 (x_of pm pw 0%nat) (x_of pm pw 1%nat) (x_of pm pw 2%nat)) with (V3 (vx pm) (vy pm) (vz pm)) in E. change (V3 (x_of pm pw 3%nat) (x_of pm pw 4%nat) (x_of pm pw 5%nat)) with (V3 (vx pw) (vy pw) (vz pw)) in E.
  replace (V3 (vx pm) (vy pm) (vz pm)) with pm in E by (destruct pm; reflexivity). replace (V3 (vx pw) (vy pw) (vz pw)) with pw in E by (destruct pw; reflexivity). split.
  - intros H p Hp. assert (Z : tip_error ps pm pw = 0). { rewrite <- E. apply sum_zero. intros i Hi. rewrite (H i Hi). ring. }
    apply v3_ext_sub. apply sq3_zero. exact (lsum_zero _ ps (fun p _ => sq3_nonneg _) Z p Hp).
  - intros H. assert (Z : tip_error ps pm pw = 0). { unfold tip_error. rewrite (lsum_ext _ (fun _ => 0) ps); [rewrite lsum_const; ring|]. intros p Hp. rewrite (H p Hp). unfold sq3, dot3, v3sub, v3add, v3opp. cbn. ring. }
    rewrite Z in E. intros i Hi. apply Rminus_diag_uniq. apply Rsqr_0_uniq. exact (sum_nonneg_zero _ _ (fun k _ => Rle_0_sqr _) E i Hi).
Qed.
Theorem tool_tip_optimal gels ps pw pm : (forall p, In p ps -> rigid p) -> gels_ok gels ps -> tool_tip gels ps = Some (pw, pm) ->
  forall pm' pw', tip_error ps pm pw <= tip_error ps pm' pw'.
Proof.
  intros R (v & E & LS) T pm' pw'. unfold tool_tip in T. rewrite E in T. assert (EW : V3 (v 3%nat) (v 4%nat) (v 5%nat) = pw) by congruence. assert (EM : V3 (v 0%nat) (v 1%nat) (v 2%nat) = pm) by congruence.
  specialize (LS (x_of pm' pw')). rewrite !tip_residual in LS by exact R. rewrite EW, EM in LS. destruct pm', pw'. exact LS.
Qed.
(** the rotations of the poses agree on no direction: the tool was turned about two different axes *)
Definition turned (ps : list pose) : Prop := forall d, (forall p q, In p ps -> In q ps -> qrot (rot p) d = qrot (rot q) d) -> d = v3zero.
Theorem tool_tip_exact gels ps pm0 pw0 : (forall p, In p ps -> rigid p) -> gels_ok gels ps -> turned ps -> ps <> [] ->
  (forall p, In p ps -> papp p pm0 = pw0) -> tool_tip gels ps = Some (pw0, pm0).
Proof.
  intros R G T NE X. destruct (tool_tip gels ps) as [[pw pm]|] eqn:E.
  2:{ exfalso. destruct G as (v & EV & _). unfold tool_tip in E. rewrite EV in E. discriminate. }
  assert (O := tool_tip_optimal gels ps pw pm R G E pm0 pw0).
  assert (Z0 : tip_error ps pm0 pw0 = 0). { unfold tip_error. rewrite (lsum_ext _ (fun _ => 0) ps); [rewrite lsum_const; ring|]. intros p Hp. rewrite (X p Hp). unfold sq3, dot3, v3sub, v3add, v3opp. cbn. ring. }
  assert (P := lsum_nonneg (fun p => sq3 (v3sub (papp p pm) pw)) ps (fun p _ => sq3_nonneg _)). fold (tip_error ps pm pw) in P.
  assert (Z : tip_error ps pm pw = 0) by lra.
  assert (A : forall p, In p ps -> papp p pm = pw) by (intros p Hp; apply v3_ext_sub; apply sq3_zero; exact (lsum_zero _ ps (fun p _ => sq3_nonneg _) Z p Hp)).
  assert (D : v3sub pm pm0 = v3zero).
  { apply T. assert (DD : forall p, In p ps -> qrot (rot p) (v3sub pm pm0) = v3sub pw pw0). { intros p Hp. rewrite qrot_sub, <- (A p Hp), <- (X p Hp). unfold papp, v3sub, v3add, v3opp. f_equal; cbn; ring. }
    intros p q Hp Hq. rewrite (DD p Hp), (DD q Hq). reflexivity. }
  apply v3_ext_sub in D. rewrite D in *. destruct ps as [|p ps]; [congruence|]. assert (W : pw = pw0) by (rewrite <- (A p (or_introl eq_refl)); apply X; left; reflexivity). rewrite W. reflexivity.
Qed.
(** otherwise nothing can tell the tip: moving it along a common direction fits any data as well *)
Theorem tool_tip_ambiguous ps d e pm pw : (forall p, In p ps -> qrot (rot p) d = e) ->
  tip_error ps (v3add pm d) (v3add pw e) = tip_error ps pm pw.
Proof.
  intros H. unfold tip_error. apply lsum_ext. intros p Hp. f_equal. unfold papp. rewrite qrot_add, (H p Hp). unfold v3sub, v3add, v3opp. f_equal; cbn; ring.
Qed.
(** two poses never suffice: there is always a direction on which their rotations agree *)
Lemma v3_eq_dec_zero (v : vec3) : v = v3zero \/ v <> v3zero.
Proof. destruct v as [x y z]. destruct (Req_dec x 0) as [X|X]; [|right; intros E; apply X; exact (f_equal vx E)]. destruct (Req_dec y 0) as [Y|Y]; [|right; intros E; apply Y; exact (f_equal vy E)]. destruct (Req_dec z 0) as [Z|Z]; [|right; intros E; apply Z; exact (f_equal vz E)]. left. subst. reflexivity. Qed.
Lemma axis_fixed r : unit r -> exists d, d <> v3zero /\ qrot r d = d.
Proof.
  intros U. destruct r as [x y z w]. destruct (v3_eq_dec_zero (V3 x y z)) as [E|N].
  - exists (V3 1 0 0). split; [intros H; assert (X := f_equal vx H); cbn in X; lra|]. assert (A := f_equal vx E). assert (B := f_equal vy E). assert (C := f_equal vz E). cbn in A, B, C. subst x y z. rewrite qrot_mat by exact U. un. f_equal; nra.
  - exists (V3 x y z). split; [exact N|]. rewrite qrot_mat by exact U. un. f_equal; ring.
Qed.
Theorem two_poses_ambiguous p q pm pw : rigid p -> rigid q -> exists pm' pw', pm' <> pm /\ tip_error [p; q] pm' pw' = tip_error [p; q] pm pw.
Proof.
  intros RP RQ. destruct (axis_fixed (rot (pmul (pinv q) p))) as (d & N & F).
  { exact (rigid_mul _ _ (rigid_inv q RQ) RP). }
  exists (v3add pm d), (v3add pw (qrot (rot p) d)). split.
  - intros E. apply N. assert (A := f_equal vx E). assert (B := f_equal vy E). assert (C := f_equal vz E). cbn in A, B, C. apply v3_ext; cbn; lra.
  - apply tool_tip_ambiguous. intros r [<-|[<-|[]]]; [reflexivity|].
    assert (G := papp_mul (pinv q) p d (rigid_inv q RQ) RP).
    assert (H : qrot (rot (pinv q)) (qrot (rot p) d) = d). { transitivity (qrot (rot (pmul (pinv q) p)) d); [|exact F]. symmetry. apply qrot_mul; [exact (rigid_inv q RQ)|exact RP]. }
    transitivity (qrot (rot q) (qrot (rot (pinv q)) (qrot (rot p) d))); [rewrite H; reflexivity|].
    rewrite <- qrot_mul by (exact RQ || exact (rigid_inv q RQ)). change (qmul (rot q) (rot (pinv q))) with (rot (pmul q (pinv q))). rewrite (proj1 (pose_inverse q RQ)). unfold pone. cbn [rot]. apply qrot_one.
Qed.
(** a tool seen in a reference orientation and after half turns about x and y *)
Definition tip_ps : list pose := [P qone (V3 9 18 27); P (Q 1 0 0 0) (V3 9 22 33); P (Q 0 1 0 0) (V3 11 18 33)].
Example tip_found : exists gels, (forall p, In p tip_ps -> rigid p) /\ gels_ok gels tip_ps /\ turned tip_ps /\ tool_tip gels tip_ps = Some (V3 10 20 30, V3 1 2 3).
Proof.
  assert (R : forall p, In p tip_ps -> rigid p) by (intros p [<-|[<-|[<-|[]]]]; unfold rigid, qone; un; ring).
  assert (X : forall p, In p tip_ps -> papp p (V3 1 2 3) = V3 10 20 30) by (intros p Hp; assert (RP := R p Hp); unfold papp; rewrite (qrot_mat _ _ RP); destruct Hp as [<-|[<-|[<-|[]]]]; unfold qone; un; f_equal; ring).
  assert (T : turned tip_ps).
  { intros d H. assert (A := H (P qone (V3 9 18 27)) (P (Q 1 0 0 0) (V3 9 22 33)) (or_introl eq_refl) (or_intror (or_introl eq_refl))). assert (B := H (P qone (V3 9 18 27)) (P (Q 0 1 0 0) (V3 11 18 33)) (or_introl eq_refl) (or_intror (or_intror (or_introl eq_refl)))). cbn [rot] in A, B.
    rewrite qrot_one, qrot_mat in A by (un; ring). rewrite qrot_one, qrot_mat in B by (un; ring). assert (A1 := f_equal vy A). assert (A2 := f_equal vz A). assert (B1 := f_equal vx B). clear A B H. destruct d as [dx dy dz]. un. cbn in A1, A2, B1. apply v3_ext; cbn; lra. }
  exists (fun _ _ _ => Some (x_of (V3 1 2 3) (V3 10 20 30))).
  assert (G : gels_ok (fun _ _ _ => Some (x_of (V3 1 2 3) (V3 10 20 30))) tip_ps).
  { eexists. split; [reflexivity|]. intros x. rewrite !tip_residual by exact R. match goal with |- ?l <= _ => replace l with 0 end; [apply lsum_nonneg; intros; apply sq3_nonneg|].
    symmetry. unfold tip_error. rewrite (lsum_ext _ (fun _ => 0)); [rewrite lsum_const; ring|]. intros p Hp. change (V3 (x_of (V3 1 2 3) (V3 10 20 30) 0%nat) (x_of (V3 1 2 3) (V3 10 20 30) 1%nat) (x_of (V3 1 2 3) (V3 10 20 30) 2%nat)) with (V3 1 2 3). rewrite (X p Hp). unfold sq3, dot3. cbn. ring. }
  split; [exact R|]. split; [exact G|]. split; [exact T|]. apply tool_tip_exact; [exact R|exact G|exact T|discriminate|exact X].
Qed.

Print Assumptions tip_residual.
Print Assumptions tip_system_iff.
Print Assumptions tool_tip_optimal.
Print Assumptions tool_tip_exact.
Print Assumptions tool_tip_ambiguous.
Print Assumptions two_poses_ambiguous.

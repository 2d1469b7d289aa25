(** The nonlinear refinement of a tool tip calibration and its error estimate (C151, C152). *)
From Coq Require Import Reals Lra Lia List Arith Bool.
From Coquelicot Require Import Coquelicot.
Import ListNotations.
From Verif Require Import ToolTipProps Mat MatSetoid MatPd Spectral Quat QuatProofs QuatProps Dlt AbsOrient AbsOrientProofs AbsOrientProps LevMarq PlanarFitProps Jacobians JacobiansProofs ToolTipRefine.
Open Scope R_scope.

Notation start_of pw pm := (vlist [vx pw; vy pw; vz pw; vx pm; vy pm; vz pm]).
Definition miss (x : vect) (p : pose) : vec3 := v3sub (world_of x) (papp p (tip_of x)).

Lemma abs_sign a : a <> 0 -> Rabs a * (a / Rabs a) = a.
Proof. intros H. field. apply Rabs_no_R0, H. Qed.
Lemma abs_abs a : Rabs a * Rabs a = a * a.
Proof. rewrite <- Rabs_mult. apply Rabs_pos_eq, Rle_0_sqr. Qed.

(** the row of the code in closed form: with u = miss / | miss |, the row is (u, - R^T u) *)
Lemma row_closed p x : rigid p -> vx (miss x p) <> 0 -> vy (miss x p) <> 0 -> vz (miss x p) <> 0 ->
  exists r, tip_jacobian_row p x = Some r /\ let m := miss x p in let d := tip_distance (world_of x) (tip_of x) p in let M := qmat (rot p) in
   r 0%nat = vx m / d /\ r 1%nat = vy m / d /\ r 2%nat = vz m / d /\
   (forall j, (j < 3)%nat -> r (3 + j)%nat = - (M 0%nat j * vx m + M 1%nat j * vy m + M 2%nat j * vz m) / d).
Proof.
  intros R.
  assert (EM : miss x p = v3sub (world_of x) (v3add (mv3 (qmat (rot p)) (tip_of x)) (tra p))) by (unfold miss, papp; rewrite (qrot_mat _ _ R); reflexivity).
  cbv zeta. set (a := vx (miss x p)). set (b := vy (miss x p)). set (c := vz (miss x p)).
  assert (EA : a = vx (miss x p)) by reflexivity. assert (EB : b = vy (miss x p)) by reflexivity. assert (EC : c = vz (miss x p)) by reflexivity.
  rewrite EM in EA, EB, EC. clearbody a b c. intros NA NB NC.
  assert (ED : tip_distance (world_of x) (tip_of x) p = sqrt (a * a + b * b + c * c)).
  { unfold tip_distance. change (v3sub (world_of x) (papp p (tip_of x))) with (miss x p). rewrite EM, EA, EB, EC. reflexivity. }
  cbv zeta. rewrite ED. clear ED EM R. destruct p as [[X Y Z W] [T1 T2 T3]].
  unfold world_of, tip_of, v3sub, v3add, mv3, qmat, mk33 in *. cbn [rot tra qx qy qz qw vx vy vz] in *. unfold tip_jacobian_row. cbn [rot tra qx qy qz qw vx vy vz]. cbv zeta.
  match goal with |- context [Req_EM_T ?e 0] => replace e with a by (rewrite EA; cbn; ring) end. destruct (Req_EM_T a 0) as [Q|_]; [contradiction|].
  match goal with |- context [Req_EM_T ?e 0] => replace e with b by (rewrite EB; cbn; ring) end. destruct (Req_EM_T b 0) as [Q|_]; [contradiction|].
  match goal with |- context [Req_EM_T ?e 0] => replace e with c by (rewrite EC; cbn; ring) end. destruct (Req_EM_T c 0) as [Q|_]; [contradiction|].
  rewrite !abs_abs. clear EA EB EC. set (d := sqrt (a * a + b * b + c * c)).
  assert (DP : d <> 0). { unfold d. apply Rgt_not_eq, sqrt_lt_R0. assert (0 < a * a) by (apply Rlt_0_sqr, NA). assert (0 <= b * b) by apply Rle_0_sqr. assert (0 <= c * c) by apply Rle_0_sqr. lra. }
  eexists. split; [reflexivity|]. assert (SA := Rabs_no_R0 a NA). assert (SB := Rabs_no_R0 b NB). assert (SC := Rabs_no_R0 c NC).
  unfold vlist. cbn [nth]. split; [field; split; assumption|]. split; [field; split; assumption|]. split; [field; split; assumption|].
  intros j Hj. destruct j as [|[|[|]]]; [| | |lia]; cbn; field; repeat split; assumption.
Qed.
(** and conversely it is undefined if one component of the miss is zero *)
Lemma row_undefined p x : rigid p -> vx (miss x p) = 0 \/ vy (miss x p) = 0 \/ vz (miss x p) = 0 -> tip_jacobian_row p x = None.
Proof.
  intros R.
  assert (EM : miss x p = v3sub (world_of x) (v3add (mv3 (qmat (rot p)) (tip_of x)) (tra p))) by (unfold miss, papp; rewrite (qrot_mat _ _ R); reflexivity).
  set (a := vx (miss x p)). set (b := vy (miss x p)). set (c := vz (miss x p)).
  assert (EA : a = vx (miss x p)) by reflexivity. assert (EB : b = vy (miss x p)) by reflexivity. assert (EC : c = vz (miss x p)) by reflexivity.
  rewrite EM in EA, EB, EC. clearbody a b c. clear EM R. destruct p as [[X Y Z W] [T1 T2 T3]]. intros H.
  unfold world_of, tip_of, v3sub, v3add, mv3, qmat, mk33 in *. cbn [rot tra qx qy qz qw vx vy vz] in *. unfold tip_jacobian_row. cbn [rot tra qx qy qz qw vx vy vz]. cbv zeta.
  match goal with |- context [Req_EM_T ?e 0] => replace e with a by (rewrite EA; cbn; ring) end. destruct (Req_EM_T a 0) as [Q|Q]; [reflexivity|].
  match goal with |- context [Req_EM_T ?e 0] => replace e with b by (rewrite EB; cbn; ring) end. destruct (Req_EM_T b 0) as [Q'|Q']; [reflexivity|].
  match goal with |- context [Req_EM_T ?e 0] => replace e with c by (rewrite EC; cbn; ring) end. destruct (Req_EM_T c 0) as [Q''|Q'']; [reflexivity|].
  exfalso. destruct H as [H|[H|H]]; contradiction.
Qed.

(** ** the derivative of the distance *)
Lemma distance_derivative p x (r : vect) : rigid p -> miss x p <> v3zero ->
  (let m := miss x p in let d := tip_distance (world_of x) (tip_of x) p in let M := qmat (rot p) in
   r 0%nat = vx m / d /\ r 1%nat = vy m / d /\ r 2%nat = vz m / d /\
   (forall j, (j < 3)%nat -> r (3 + j)%nat = - (M 0%nat j * vx m + M 1%nat j * vy m + M 2%nat j * vz m) / d)) ->
  derivative 6 1 (fun x _ => tip_distance (world_of x) (tip_of x) p) x (fun _ => r).
Proof.
  intros R NM (R0 & R1 & R2 & R3). assert (R30 := R3 0%nat ltac:(lia)). assert (R31 := R3 1%nat ltac:(lia)). assert (R32 := R3 2%nat ltac:(lia)). clear R3. cbn [Nat.add] in *.
  set (M := qmat (rot p)) in *. set (m := miss x p) in *.
  assert (MV : forall y, miss y p = V3 (y 0%nat - (M 0%nat 0%nat * y 3%nat + M 0%nat 1%nat * y 4%nat + M 0%nat 2%nat * y 5%nat + vx (tra p)))
      (y 1%nat - (M 1%nat 0%nat * y 3%nat + M 1%nat 1%nat * y 4%nat + M 1%nat 2%nat * y 5%nat + vy (tra p)))
      (y 2%nat - (M 2%nat 0%nat * y 3%nat + M 2%nat 1%nat * y 4%nat + M 2%nat 2%nat * y 5%nat + vz (tra p)))).
  { intros y. unfold miss, papp. rewrite (qrot_mat _ _ R). reflexivity. }
  assert (DE : forall y, tip_distance (world_of y) (tip_of y) p = sqrt (vx (miss y p) * vx (miss y p) + vy (miss y p) * vy (miss y p) + vz (miss y p) * vz (miss y p))) by reflexivity.
  assert (PM : 0 < vx m * vx m + vy m * vy m + vz m * vz m).
  { assert (A := Rle_0_sqr (vx m)). assert (B := Rle_0_sqr (vy m)). assert (C := Rle_0_sqr (vz m)). unfold Rsqr in *.
    destruct (Req_dec (vx m * vx m + vy m * vy m + vz m * vz m) 0) as [Z|Z]; [exfalso|lra]. apply NM.
    apply v3_ext; unfold v3zero; cbn [vx vy vz]; apply Rsqr_0_uniq; unfold Rsqr; lra. }
  set (d := tip_distance (world_of x) (tip_of x) p) in *. assert (Ed : d = sqrt (vx m * vx m + vy m * vy m + vz m * vz m)) by apply DE.
  assert (DP : 0 < d) by (rewrite Ed; apply sqrt_lt_R0, PM).
  intros g e Hc _ i Hi. destruct i; [|lia].
  apply (is_derive_ext (fun h => sqrt (vx (miss (at_time g h) p) * vx (miss (at_time g h) p) + vy (miss (at_time g h) p) * vy (miss (at_time g h) p) + vz (miss (at_time g h) p) * vz (miss (at_time g h) p)))); [intros; symmetry; apply DE|].
  assert (Mm := MV x). fold m in Mm.
  apply (is_derive_ext (fun h => let v := V3 (g 0%nat h - (M 0%nat 0%nat * g 3%nat h + M 0%nat 1%nat * g 4%nat h + M 0%nat 2%nat * g 5%nat h + vx (tra p)))
      (g 1%nat h - (M 1%nat 0%nat * g 3%nat h + M 1%nat 1%nat * g 4%nat h + M 1%nat 2%nat * g 5%nat h + vy (tra p)))
      (g 2%nat h - (M 2%nat 0%nat * g 3%nat h + M 2%nat 1%nat * g 4%nat h + M 2%nat 2%nat * g 5%nat h + vz (tra p))) in sqrt (vx v * vx v + vy v * vy v + vz v * vz v))).
  { intros t. cbv zeta. rewrite (MV (at_time g t)). reflexivity. }
  cbv zeta. cbn [vx vy vz]. unfold mvec. cbn [sum]. rewrite R0, R1, R2, R30, R31, R32.
  assert (M1 := f_equal vx Mm). assert (M2 := f_equal vy Mm). assert (M3 := f_equal vz Mm). cbn [vx vy vz] in M1, M2, M3.
  clearbody M d. clear Mm MV DE R0 R1 R2 R30 R31 R32.
  generalize (M 0%nat 0%nat) (M 0%nat 1%nat) (M 0%nat 2%nat) (M 1%nat 0%nat) (M 1%nat 1%nat) (M 1%nat 2%nat) (M 2%nat 0%nat) (M 2%nat 1%nat) (M 2%nat 2%nat) (vx (tra p)) (vy (tra p)) (vz (tra p)) M1 M2 M3.
  intros a0 a1 a2 b0 b1 b2 c0 c1 c2 tx ty tz N1 N2 N3. clear M1 M2 M3.
  generalize (vx m) (vy m) (vz m) Ed PM N1 N2 N3. clear m Ed PM N1 N2 N3 NM. intros m1 m2 m3 Ed PM N1 N2 N3.
  take_curve Hc 6%nat. clear Hc. use_curve. auto_derive.
  - repeat split; try (eexists; eassumption); rew_curve. match goal with |- 0 < ?e => replace e with (m1 * m1 + m2 * m2 + m3 * m3) by (rewrite N1, N2, N3; ring) end. exact PM.
  - rew_curve. match goal with |- context [sqrt ?e] => replace (sqrt e) with d by (rewrite Ed; f_equal; rewrite N1, N2, N3; ring) end. rewrite N1, N2, N3. match goal with |- @eq _ ?a ?b => change (@eq Rdefinitions.R a b) end. field. lra.
Qed.

(** C151: where no component of any miss is zero the rows are the derivatives of the distances *)
Theorem tip_jacobian_derivative ps x : (forall p, In p ps -> rigid p) ->
  (forall p, In p ps -> vx (miss x p) <> 0 /\ vy (miss x p) <> 0 /\ vz (miss x p) <> 0) ->
  exists rows, tip_jacobian ps x = Some rows /\ length rows = length ps /\
    derivative 6 (length ps) (tip_evaluate ps) x (jac_mat rows).
Proof.
  intros R H.
  assert (G : exists rows, tip_jacobian ps x = Some rows /\ length rows = length ps /\
    forall i, (i < length ps)%nat -> derivative 6 1 (fun x _ => tip_distance (world_of x) (tip_of x) (nth_pose ps i)) x (fun _ => nth i rows (fun _ => 0))).
  { induction ps as [|p ps IH]; [exists []; split; [reflexivity|]; split; [reflexivity|]; intros i Hi; cbn in Hi; lia|].
    destruct IH as (rows & E & L & D); [intros; apply R; right; assumption|intros; apply H; right; assumption|].
    destruct (H p (or_introl eq_refl)) as (NA & NB & NC). assert (RP := R p (or_introl eq_refl)).
    destruct (row_closed p x RP NA NB NC) as (r & Er & Cr). exists (r :: rows). cbn [tip_jacobian]. rewrite Er, E. split; [reflexivity|]. split; [cbn; rewrite L; reflexivity|].
    intros i Hi. destruct i as [|i].
    - apply (distance_derivative p x r RP); [|exact Cr]. intros Z. apply NA. rewrite Z. reflexivity.
    - apply D. cbn in Hi. lia. }
  destruct G as (rows & E & L & D). exists rows. split; [exact E|]. split; [exact L|].
  intros g e Hc Hs i Hi. exact (D i Hi g e Hc Hs 0%nat ltac:(lia)).
Qed.
(** ... but as soon as one component is zero the whole Jacobian is not a number, although the distance has a
    derivative there: only a tip exactly at the point has none *)
Theorem tip_jacobian_axis_refuted p x ps : In p ps -> rigid p -> miss x p <> v3zero ->
  vx (miss x p) = 0 \/ vy (miss x p) = 0 \/ vz (miss x p) = 0 ->
  tip_jacobian ps x = None /\ exists r, derivative 6 1 (fun x _ => tip_distance (world_of x) (tip_of x) p) x (fun _ => r).
Proof.
  intros HI R NM Z. split.
  - induction ps as [|q ps IH]; [contradiction|]. cbn [tip_jacobian]. destruct HI as [->|HI]; [rewrite (row_undefined p x R Z); reflexivity|].
    rewrite (IH HI). destruct (tip_jacobian_row q x); reflexivity.
  - set (m := miss x p). set (d := tip_distance (world_of x) (tip_of x) p). set (M := qmat (rot p)).
    exists (vlist [vx m / d; vy m / d; vz m / d; - (M 0%nat 0%nat * vx m + M 1%nat 0%nat * vy m + M 2%nat 0%nat * vz m) / d;
      - (M 0%nat 1%nat * vx m + M 1%nat 1%nat * vy m + M 2%nat 1%nat * vz m) / d; - (M 0%nat 2%nat * vx m + M 1%nat 2%nat * vy m + M 2%nat 2%nat * vz m) / d]).
    apply (distance_derivative p x _ R NM). cbv zeta. fold m d M. repeat split.
    intros j Hj. destruct j as [|[|[|]]]; [reflexivity..|lia].
Qed.

(** ** the refinement *)
Lemma squares_error ps x : squares ps x = tip_error ps (tip_of x) (world_of x).
Proof.
  unfold squares, tip_error. 
  assert (S1 : forall p, tip_distance (world_of x) (tip_of x) p * tip_distance (world_of x) (tip_of x) p = sq3 (v3sub (papp p (tip_of x)) (world_of x))).
  { intros p. unfold tip_distance. cbv zeta. rewrite sqrt_sqrt.
    - unfold sq3, dot3, v3sub. cbn [vx vy vz]. ring.
    - set (v := v3sub _ _). assert (A := Rle_0_sqr (vx v)). assert (B := Rle_0_sqr (vy v)). assert (C := Rle_0_sqr (vz v)). unfold Rsqr in *. lra. }
  induction ps as [|p ps IH]; [reflexivity|]. change (length (p :: ps)) with (1 + length ps)%nat. rewrite sum_split. cbn [sum]. unfold lsum. cbn [fold_right]. fold (@lsum pose).
  assert (IH' : sum (length ps) (fun i => tip_evaluate (p :: ps) x (S i) * tip_evaluate (p :: ps) x (S i)) = lsum (fun p => sq3 (v3sub (papp p (tip_of x)) (world_of x))) ps) by exact IH.
  cbn [Nat.add]. rewrite IH'. unfold tip_evaluate, nth_pose. cbn [nth]. rewrite S1. unfold lsum. ring.
Qed.
Lemma tloop_invariant ps lin term fuel (I : tstate -> Prop) : (forall s s' b, I s -> tround ps lin term s = Some (s', b) -> I s') ->
  forall s p e, I s -> tloop ps lin term fuel s = TDone p e -> exists s', I s' /\ p = tparams s' /\ e = terr s'.
Proof.
  intros HI. induction fuel as [|fuel IH]; intros s p e Hs H; cbn [tloop] in H; [discriminate|].
  destruct (tround ps lin term s) as [[s' [|]]|] eqn:E; [|apply (IH s'); [eapply HI; eassumption|exact H]|discriminate].
  injection H. intros <- <-. exists s'. split; [eapply HI; eassumption|]. split; reflexivity.
Qed.
Lemma start_world pw pm : world_of (start_of pw pm) = pw.
Proof. destruct pw. reflexivity. Qed.
Lemma start_tip pw pm : tip_of (start_of pw pm) = pm.
Proof. destruct pm. reflexivity. Qed.

(** C151: an estimate that is a number is as good as the linear one, which is optimal for the same sum of
    squares: the refinement can never improve on its start *)
Theorem tip_refine_optimal gels lin term ps fuel pw pm : (forall p, In p ps -> rigid p) -> gels_ok gels ps ->
  tool_tip_refined ps lin term gels fuel = Estimate (Some (pw, pm)) ->
  exists pw0 pm0, tool_tip gels ps = Some (pw0, pm0) /\ tip_error ps pm pw = tip_error ps pm0 pw0 /\
    forall pm' pw', tip_error ps pm pw <= tip_error ps pm' pw'.
Proof.
  intros R G H. unfold tool_tip_refined in H. destruct (tool_tip gels ps) as [[pw0 pm0]|] eqn:E; [|discriminate].
  exists pw0, pm0. split; [reflexivity|]. assert (O := tool_tip_optimal gels ps pw0 pm0 R G E).
  destruct (tloop _ _ _ _ _) as [p e| |] eqn:L; try discriminate.
  set (Inv := fun s : tstate => match tparams s with Some q => terr s = Some (squares ps q) /\ squares ps q <= squares ps (start_of pw0 pm0) | None => terr s = None end).
  destruct (tloop_invariant ps lin term fuel Inv) with (s := tinitial ps (start_of pw0 pm0)) (p := p) (e := e) as (s' & I' & EP & EE).
  - intros s s' b I0 HR. unfold tround in HR. cbv zeta in HR. destruct (lin _ _) as [dx|].
    + destruct (tparams s) as [q|] eqn:ET.
      * unfold Inv in I0. rewrite ET in I0. destruct I0 as (I1 & I2). destruct dx as [dx|].
        -- cbn [option_map] in HR. rewrite I1 in HR. cbn [ge] in HR. destruct (Rle_dec _ _) as [Q|Q]; injection HR; intros _ <-; unfold Inv; cbn [tparams terr].
           ++ split; [reflexivity|exact I2].
           ++ split; [reflexivity|lra].
        -- cbn [option_map ge] in HR. injection HR; intros _ <-. unfold Inv. cbn [tparams terr]. reflexivity.
      * cbn [option_map ge] in HR. injection HR; intros _ <-. reflexivity.
    + destruct (tkind s); try discriminate. injection HR; intros _ <-. exact I0.
  - unfold Inv, tinitial. cbn [tparams terr]. split; [reflexivity|lra].
  - exact L.
  - destruct p as [q|]; [|discriminate]. cbn [option_map] in H. injection H. intros <- <-.
    unfold Inv in I'. rewrite <- EP in I'. destruct I' as (_ & LE). rewrite !squares_error, start_world, start_tip in LE.
    assert (O1 := O (tip_of q) (world_of q)). split; [lra|]. intros pm' pw'. specialize (O pm' pw'). lra.
Qed.
(** C151 (refuted): with perfect measurements the linear estimate is exact, but the Jacobian at an exact
    estimate is not a number, and the refined function never returns a number *)
Theorem tip_refine_exact_refuted gels lin term ps fuel pm0 pw0 : (forall p, In p ps -> rigid p) -> gels_ok gels ps -> nan_stays lin -> turned ps -> ps <> [] ->
  (forall p, In p ps -> papp p pm0 = pw0) ->
  tool_tip gels ps = Some (pw0, pm0) /\ forall w, tool_tip_refined ps lin term gels fuel <> Estimate (Some w).
Proof.
  intros R G NS T NE X. assert (E := tool_tip_exact gels ps pm0 pw0 R G T NE X). split; [exact E|]. intros w H.
  unfold tool_tip_refined in H. rewrite E in H. destruct (tloop _ _ _ _ _) as [p e| |] eqn:L; try discriminate.
  assert (JN : tlinearise ps (start_of pw0 pm0) = None).
  { unfold tlinearise. destruct ps as [|q ps']; [contradiction|]. cbn [tip_jacobian]. rewrite row_undefined; [reflexivity|apply R; left; reflexivity|].
    left. unfold miss. rewrite start_world, start_tip, (X q (or_introl eq_refl)). unfold v3sub. cbn [vx]. ring. }
  (* once the linearisation is not a number the parameters are the start or not a number; no round ends with the start *)
  assert (Q : forall f s, tlin s = None -> forall x e, tloop ps lin term f s <> TDone (Some x) e).
  { induction f as [|f IH]; intros s Hs x e' HL; cbn [tloop] in HL; [discriminate|].
    unfold tround in HL. rewrite Hs in HL. cbn [normal_equations option_map] in HL. cbv zeta in HL. specialize (NS (tkind s)).
    destruct (lin (tkind s) None) as [[dx|]|].
    - exact (NS dx eq_refl).
    - replace (match tparams s with Some _ | _ => None end) with (@None vect) in HL by (destruct (tparams s); reflexivity).
      cbn [option_map ge] in HL. destruct (term _ _ _); [discriminate|]. revert HL. apply IH. reflexivity.
    - destruct (tkind s); try discriminate. revert HL. apply IH. reflexivity. }
  destruct p as [x|]; [|discriminate]. revert L. apply Q. unfold tinitial. cbn [tlin]. exact JN.
Qed.

(** the damping: a step that does not reduce the sum of squares is undone and the damping grows by ten; otherwise the
    step is kept and the damping falls by ten.  Every round counts. *)
Theorem tip_damping ps lin term s s' b x dx : tround ps lin term s = Some (s', b) -> tparams s = Some x -> terr s = Some (squares ps x) ->
  lin (tkind s) (normal_equations (length ps) (tlambda s) (tlin s)) = Solution (Some dx) ->
  titer s' = S (titer s) /\
  (squares ps x <= squares ps (vadd x dx) /\ tparams s' = Some x /\ tlambda s' = 10 * tlambda s \/
   squares ps (vadd x dx) < squares ps x /\ tparams s' = Some (vadd x dx) /\ tlambda s = 10 * tlambda s').
Proof.
  intros H P E L. unfold tround in H. rewrite L, P, E in H. cbv zeta in H. cbn [option_map ge] in H. destruct (Rle_dec _ _) as [Q|Q]; injection H as <- _; cbn [titer tparams tlambda].
  - split; [reflexivity|]. left. split; [exact Q|]. split; [reflexivity|]. ring.
  - split; [reflexivity|]. right. split; [lra|]. split; [reflexivity|]. field.
Qed.
(** with an iteration limit and no precision the refinement takes exactly that many rounds *)
Theorem tip_round_limit ps lin limit x fuel : (0 < limit)%nat -> (forall k sys, lin k sys <> Failure) ->
  (tloop ps lin (opt_terminate limit 0) fuel (tinitial ps x) = TRunning <-> (fuel < limit)%nat).
Proof.
  intros HL NF. assert (G : forall fuel s, (titer s < limit)%nat -> (tloop ps lin (opt_terminate limit 0) fuel s = TRunning <-> (titer s + fuel < limit)%nat)).
  { clear fuel. induction fuel as [|fuel IH]; intros s Hs; cbn [tloop]; [split; [intros _; lia|reflexivity]|].
    assert (R : exists s', tround ps lin (opt_terminate limit 0) s = Some (s', (limit <=? S (titer s))%nat) /\ titer s' = S (titer s)).
    { assert (T : forall a b, opt_terminate limit 0 (S (titer s)) a b = (limit <=? S (titer s))%nat).
      { intros a b. unfold opt_terminate. rewrite (proj2 (Nat.ltb_lt _ _)) by exact HL. destruct (Req_EM_T 0 0) as [_|N]; [|lra]. cbn [andb]. apply orb_false_r. }
      unfold tround. destruct (lin _ _) as [dx|] eqn:E; [|contradiction (NF _ _ E)]. cbv zeta. rewrite T. destruct (ge _ _); eexists; split; reflexivity. }
    destruct R as (s' & -> & I). destruct (Nat.leb_spec limit (S (titer s))) as [Q|Q].
    - split; [discriminate|lia].
    - rewrite IH by lia. lia. }
  apply (G fuel (tinitial ps x)). exact HL.
Qed.

(** ** the error estimate *)
(** every step that solves the damped normal equations leads downhill: along it the sum of squares first decreases *)
Theorem tip_step_downhill ps x dj lam dx : (forall p, In p ps -> rigid p) ->
  (forall p, In p ps -> vx (miss x p) <> 0 /\ vy (miss x p) <> 0 /\ vz (miss x p) <> 0) ->
  tlinearise ps x = Some dj -> 0 < lam ->
  (forall A b, normal_equations (length ps) lam (Some dj) = Some (A, b) -> veq 6 (mvec 6 A dx) b) ->
  exists slope, is_derive (fun h => squares ps (fun k => x k + h * dx k)) 0 slope /\ slope <= - (2 * lam * vdot 6 dx dx).
Proof.
  intros RG NM ED L0 NE. destruct (tip_jacobian_derivative ps x RG NM) as (rows & ER & _ & D). unfold tlinearise in ED. rewrite ER in ED. cbn [option_map] in ED. injection ED as <-.
  set (n := length ps) in *. set (J := jac_mat rows) in *. set (d := tip_evaluate ps x).
  specialize (NE _ _ eq_refl). cbn [fst snd] in NE.
  exists (sum n (fun i => 2 * (d i * mvec 6 J dx i))). split.
  - unfold squares. fold n. apply is_derive_sum. intros i Hi.
    assert (C : curve 6 (fun k h => x k + h * dx k) x dx) by (intros k Hk; split; [ring|auto_derive; [exact I|ring]]).
    assert (DI := D (fun k h => x k + h * dx k) dx C (fun _ => I) i Hi). unfold at_time in DI. set (F := fun h => tip_evaluate ps (fun k => x k + h * dx k) i) in *.
    assert (F0 : F 0 = d i). { unfold F, d, tip_evaluate, tip_distance, world_of, tip_of. rewrite !Rmult_0_l, !Rplus_0_r. reflexivity. }
    assert (X := is_derive_mult F F 0 _ _ DI DI Rmult_comm). cbn in X. unfold plus, mult in X. cbn in X. rewrite F0 in X.
    replace (2 * (d i * mvec 6 J dx i)) with (mvec 6 J dx i * d i + d i * mvec 6 J dx i) by ring. exact X.
  - (* - 2 dx . J^T r = - 2 dx . (J^T J + lam) dx *)
    assert (E1 : sum n (fun i => 2 * (d i * mvec 6 J dx i)) = - 2 * vdot 6 dx (mvec n (tr J) (fun i => 0 - d i))).
    { unfold vdot, mvec, tr. rewrite (sum_ext 6 _ (fun k => sum n (fun i => dx k * (J i k * (0 - d i))))) by (intros k _; rewrite <- sum_scal_l; reflexivity). rewrite sum_swap, <- sum_scal_l. apply sum_ext. intros i _.
      rewrite (sum_ext 6 (fun k => dx k * (J i k * (0 - d i))) (fun k => (- d i) * (J i k * dx k))) by (intros; ring). rewrite sum_scal_l. ring. }
    assert (E2 : vdot 6 dx (mvec n (tr J) (fun i => 0 - d i)) = sum n (fun i => mvec 6 J dx i * mvec 6 J dx i) + lam * vdot 6 dx dx).
    { transitivity (vdot 6 dx (mvec 6 (madd (mmul n (tr J) J) (mscale lam eye)) dx)); [unfold vdot; apply sum_ext; intros k Hk; rewrite (NE k Hk); reflexivity|].
      unfold vdot. rewrite (sum_ext 6 _ (fun k => dx k * sum n (fun i => J i k * mvec 6 J dx i) + lam * (dx k * dx k))).
      - rewrite sum_plus, sum_scal_l. f_equal. rewrite (sum_ext 6 _ (fun k => sum n (fun i => dx k * (J i k * mvec 6 J dx i)))) by (intros k _; rewrite <- sum_scal_l; reflexivity). rewrite sum_swap. apply sum_ext. intros i _.
        rewrite (sum_ext 6 (fun k => dx k * (J i k * mvec 6 J dx i)) (fun k => (J i k * dx k) * mvec 6 J dx i)) by (intros; ring). rewrite sum_scal_r. reflexivity.
      - intros k Hk. unfold mvec at 1. unfold madd, mscale. rewrite (sum_ext 6 _ (fun l => mmul n (tr J) J k l * dx l + lam * (eye k l * dx l))) by (intros; ring). rewrite sum_plus, sum_scal_l.
        rewrite (sum_single 6 (fun l => eye k l * dx l) k Hk) by (intros l _ N; unfold eye; destruct (Nat.eqb_spec k l); [congruence|ring]). unfold eye. rewrite Nat.eqb_refl.
        replace (sum 6 (fun l => mmul n (tr J) J k l * dx l)) with (sum n (fun i => J i k * mvec 6 J dx i)); [ring|].
        unfold mmul, tr, mvec. rewrite (sum_ext n _ (fun i => sum 6 (fun l => J i k * (J i l * dx l)))) by (intros i _; rewrite <- sum_scal_l; reflexivity). rewrite sum_swap. apply sum_ext. intros l _. rewrite <- sum_scal_r. apply sum_ext. intros i _. ring. }
    rewrite E1, E2. assert (0 <= sum n (fun i => mvec 6 J dx i * mvec 6 J dx i)) by (apply sum_nonneg; intros i _; apply Rle_0_sqr). lra.
Qed.
(** such a step always exists *)
Lemma damped_step n m (J : mat) lam b : 0 < lam -> exists dx, veq n (mvec n (madd (mmul m (tr J) J) (mscale lam eye)) dx) b.
Proof.
  intros L. set (A := madd (mmul m (tr J) J) (mscale lam eye)).
  assert (SY : symm n A). { intros i j _ _. unfold A, madd, mscale, mmul, tr, eye. rewrite Nat.eqb_sym. f_equal. apply sum_ext. intros; ring. }
  assert (PD : pd n A).
  { apply pd_add_psd.
    - intros y. apply Rle_trans with (sum m (fun i => mvec n J y i * mvec n J y i)); [apply sum_nonneg; intros i _; apply Rle_0_sqr|]. right. unfold quad, vdot, mvec, mmul, tr.
      rewrite (sum_ext n _ (fun k => sum m (fun i => y k * J i k * sum n (fun l => J i l * y l)))).
      + rewrite sum_swap. apply sum_ext. intros i _. rewrite <- sum_scal_r. apply sum_ext. intros k _. ring.
      + intros k _. rewrite (sum_ext n _ (fun l => sum m (fun i => J i k * J i l * y l))) by (intros l _; rewrite <- sum_scal_r; reflexivity). rewrite sum_swap, <- sum_scal_l. apply sum_ext. intros i _.
        rewrite <- !sum_scal_l. apply sum_ext. intros; ring.
    - intros y (i & Hi & Ny). assert (Q : quad n (mscale lam eye) y = lam * vdot n y y).
      { unfold quad, vdot. rewrite <- sum_scal_l. apply sum_ext. intros k Hk. unfold mvec, mscale. rewrite (sum_single n (fun l => lam * eye k l * y l) k Hk) by (intros l _ N; unfold eye; destruct (Nat.eqb_spec k l); [congruence|ring]). unfold eye. rewrite Nat.eqb_refl. ring. }
      rewrite Q. apply Rmult_lt_0_compat; [exact L|exact (dot_pos n y i Hi Ny)]. }
  destruct (pd_invertible n A SY PD) as [I1 _]. exists (mvec n (pd_inverse n A) b). intros k Hk.
  transitivity (mvec n (mmul n A (pd_inverse n A)) b k).
  - unfold mvec, mmul. rewrite (sum_ext n _ (fun l => sum n (fun j => A k l * (pd_inverse n A l j * b j)))) by (intros l _; rewrite <- sum_scal_l; reflexivity). rewrite sum_swap. apply sum_ext. intros j _. rewrite <- sum_scal_r. apply sum_ext. intros; ring.
  - unfold mvec. rewrite (sum_ext n _ (fun l => eye k l * b l)) by (intros l Hl; rewrite (I1 k l Hk Hl); reflexivity).
    rewrite (sum_single n (fun l => eye k l * b l) k Hk) by (intros l _ N; unfold eye; destruct (Nat.eqb_spec k l); [congruence|ring]). unfold eye. rewrite Nat.eqb_refl. ring.
Qed.
Example tip_step_case : let x := vlist [4; 5; 6; 1; 1; 1] in let ps := [P qone (V3 0 0 0); P qone (V3 1 1 1)] in
  exists dj dx, tlinearise ps x = Some dj /\ (forall A b, normal_equations (length ps) 1 (Some dj) = Some (A, b) -> veq 6 (mvec 6 A dx) b) /\
  exists slope, is_derive (fun h => squares ps (fun k => x k + h * dx k)) 0 slope /\ slope <= - (2 * 1 * vdot 6 dx dx).
Proof.
  intros x ps. assert (RG : forall p, In p ps -> rigid p) by (intros p [<-|[<-|[]]]; unfold rigid, qone; un; ring).
  assert (NM : forall p, In p ps -> vx (miss x p) <> 0 /\ vy (miss x p) <> 0 /\ vz (miss x p) <> 0).
  { intros p [<-|[<-|[]]]; unfold miss, papp, x; cbn [rot tra]; rewrite qrot_one; unfold world_of, tip_of, v3sub, v3add, vlist; cbn; repeat split; lra. }
  destruct (tip_jacobian_derivative ps x RG NM) as (rows & ER & _ & _). 
  assert (ED : tlinearise ps x = Some (fun i => 0 - tip_evaluate ps x i, jac_mat rows)) by (unfold tlinearise; rewrite ER; reflexivity).
  destruct (damped_step 6 (length ps) (jac_mat rows) 1 (mvec (length ps) (tr (jac_mat rows)) (fun i => 0 - tip_evaluate ps x i)) Rlt_0_1) as (dx & Hdx).
  assert (NE : forall A b, normal_equations (length ps) 1 (Some (fun i => 0 - tip_evaluate ps x i, jac_mat rows)) = Some (A, b) -> veq 6 (mvec 6 A dx) b) by (intros A b H; injection H as <- <-; exact Hdx).
  eexists. exists dx. split; [exact ED|]. split; [exact NE|]. exact (tip_step_downhill ps x _ 1 dx RG NM ED Rlt_0_1 NE).
Qed.
Lemma fold_plus l : forall a, fold_left Rplus l a = a + lsum (fun e => e) l.
Proof. induction l as [|e l IH]; intros a; unfold lsum in *; cbn [fold_left fold_right]; [ring|]. rewrite IH. ring. Qed.
Lemma fold_square l m : forall a, fold_left (fun s e => s + (e - m) * (e - m)) l a = a + lsum (fun e => (e - m) * (e - m)) l.
Proof. induction l as [|e l IH]; intros a; unfold lsum in *; cbn [fold_left fold_right]; [ring|]. rewrite IH. ring. Qed.
Lemma lsum_map {A B} (f : A -> B) (g : B -> R) l : lsum g (map f l) = lsum (fun a => g (f a)) l.
Proof. unfold lsum. induction l as [|a l IH]; cbn [map fold_right]; [reflexivity|]. rewrite IH. reflexivity. Qed.
Lemma distance_nonneg pw pm p : 0 <= tip_distance pw pm p.
Proof. apply sqrt_pos. Qed.
Lemma distance_square pw pm p : tip_distance pw pm p * tip_distance pw pm p = sq3 (v3sub (papp p pm) pw).
Proof.
  unfold tip_distance. cbv zeta. rewrite sqrt_sqrt.
  - unfold sq3, dot3, v3sub. cbn [vx vy vz]. ring.
  - set (v := v3sub _ _). assert (A := Rle_0_sqr (vx v)). assert (B := Rle_0_sqr (vy v)). assert (C := Rle_0_sqr (vz v)). unfold Rsqr in *. lra.
Qed.
Lemma distance_zero pw pm p : tip_distance pw pm p = 0 <-> papp p pm = pw.
Proof.
  split.
  - intros H. assert (S := distance_square pw pm p). rewrite H, Rmult_0_l in S. apply v3_ext_sub, sq3_zero. symmetry. exact S.
  - intros H. apply Rsqr_0_uniq. unfold Rsqr. rewrite distance_square, H. unfold sq3, dot3, v3sub. cbn [vx vy vz]. ring.
Qed.
Lemma lsum_zero {A} (f : A -> R) l : (forall a, In a l -> 0 <= f a) -> lsum f l = 0 -> forall a, In a l -> f a = 0.
Proof.
  unfold lsum. induction l as [|b l IH]; intros H Z a Ha; [contradiction|]. cbn [fold_right] in Z.
  assert (N := lsum_nonneg f l (fun a Ha => H a (or_intror Ha))). unfold lsum in N. assert (B := H b (or_introl eq_refl)).
  destruct Ha as [<-|Ha]; [lra|]. apply IH; [intros; apply H; right; assumption|lra|exact Ha].
Qed.
(** what the two numbers are *)
Lemma errors_value pw p q ps pm : let l := p :: q :: ps in let n := INR (length l) in
  exists m s, tip_errors pw l pm = (Some m, Some s) /\ n * m = lsum (tip_distance pw pm) l /\ 0 <= s /\
    (n - 1) * (s * s) = lsum (fun p => (tip_distance pw pm p - m) * (tip_distance pw pm p - m)) l.
Proof.
  intros l n. assert (N1 : 1 < n). { unfold n, l. cbn [length]. rewrite !S_INR. pose proof (pos_INR (length ps)). lra. }
  assert (E : tip_errors pw l pm = (Some (fold_left Rplus (map (tip_distance pw pm) l) 0 / n),
     Some (sqrt (fold_left (fun s e => s + (e - fold_left Rplus (map (tip_distance pw pm) l) 0 / n) * (e - fold_left Rplus (map (tip_distance pw pm) l) 0 / n)) (map (tip_distance pw pm) l) 0 / (n - 1))))) by reflexivity.
  set (m := fold_left Rplus (map (tip_distance pw pm) l) 0 / n) in *. exists m. eexists. split; [exact E|].
  assert (Em : n * m = lsum (tip_distance pw pm) l). { unfold m. rewrite fold_plus, lsum_map. change (lsum (fun a => tip_distance pw pm a) l) with (lsum (tip_distance pw pm) l). field. lra. }
  split; [exact Em|]. split; [apply sqrt_pos|]. rewrite fold_square, lsum_map, Rplus_0_l. set (q2 := lsum _ l). change (lsum (fun p0 => (tip_distance pw pm p0 - m) * (tip_distance pw pm p0 - m)) l) with q2. assert (Q0 : 0 <= q2) by (apply lsum_nonneg; intros; apply Rle_0_sqr). clearbody q2. rewrite sqrt_sqrt; [field; lra|].
  apply Rmult_le_pos; [exact Q0|left; apply Rinv_0_lt_compat; lra].
Qed.
(** C152: with two or more poses both numbers are defined; the mean vanishes exactly for a perfect calibration,
    the deviation exactly if all distances are equal; together they give the sum of squares which the
    calibration minimises *)
Theorem tip_errors_meaning pw ps pm : (2 <= length ps)%nat -> exists m s, tip_errors pw ps pm = (Some m, Some s) /\ 0 <= m /\ 0 <= s /\
  (m = 0 <-> forall p, In p ps -> papp p pm = pw) /\
  (s = 0 <-> forall p, In p ps -> tip_distance pw pm p = m) /\
  INR (length ps) * (m * m) + (INR (length ps) - 1) * (s * s) = tip_error ps pm pw.
Proof.
  intros L. destruct ps as [|p [|q ps]]; try (cbn in L; lia). destruct (errors_value pw p q ps pm) as (m & s & E & Em & S0 & Es).
  set (l := p :: q :: ps) in *. set (n := INR (length l)) in *. assert (N1 : 1 < n). { unfold n, l. cbn [length]. rewrite !S_INR. pose proof (pos_INR (length ps)). lra. }
  assert (M0 : 0 <= m). { apply Rmult_le_reg_l with n; [lra|]. rewrite Em, Rmult_0_r. apply lsum_nonneg. intros. apply distance_nonneg. }
  exists m, s. split; [exact E|]. split; [exact M0|]. split; [exact S0|]. split; [|split].
  - split.
    + intros Z a Ha. apply distance_zero. rewrite Z, Rmult_0_r in Em. symmetry in Em. apply (lsum_zero _ l (fun a _ => distance_nonneg pw pm a) Em a Ha).
    + intros H. rewrite (lsum_ext _ (fun _ => 0)) in Em; [rewrite lsum_const in Em; apply Rmult_eq_reg_l with n; [rewrite Em; ring|lra]|]. intros a Ha. apply distance_zero, H, Ha.
  - split.
    + intros Z a Ha. rewrite Z in Es. replace ((n - 1) * (0 * 0)) with 0 in Es by ring. symmetry in Es.
      assert (Q := lsum_zero _ l (fun a _ => Rle_0_sqr (tip_distance pw pm a - m)) Es a Ha). cbv beta in Q. apply Rsqr_0_uniq in Q. lra.
    + intros H. rewrite (lsum_ext _ (fun _ => 0)) in Es; [|intros a Ha; rewrite (H a Ha); ring]. rewrite lsum_const in Es.
      apply Rsqr_0_uniq. unfold Rsqr. apply Rmult_eq_reg_l with (n - 1); [rewrite Es; ring|lra].
  - rewrite Es. unfold tip_error. rewrite (lsum_ext (fun p => sq3 _) (fun p => (tip_distance pw pm p - m) * (tip_distance pw pm p - m) + (2 * m * tip_distance pw pm p + (- (m * m))))).
    + rewrite !lsum_plus, lsum_scale, <- Em, lsum_const. fold n. ring.
    + intros a _. rewrite <- distance_square. ring.
Qed.
(** moving the world changes neither number *)
Theorem tip_errors_world g pw ps pm : rigid g -> (forall p, In p ps -> rigid p) ->
  tip_errors (papp g pw) (map (pmul g) ps) pm = tip_errors pw ps pm.
Proof.
  intros RG R. assert (E : map (tip_distance (papp g pw) pm) (map (pmul g) ps) = map (tip_distance pw pm) ps).
  { rewrite map_map. apply map_ext_in. intros p Hp. unfold tip_distance. cbv zeta. f_equal.
    change (vx ?v * vx ?v + vy ?v * vy ?v + vz ?v * vz ?v) with (sq3 v). rewrite (papp_mul g p pm RG (R p Hp)).
    assert (V : v3sub (papp g pw) (papp g (papp p pm)) = qrot (rot g) (v3sub pw (papp p pm))).
    { unfold papp. rewrite !(qrot_mat _ _ RG). unfold v3sub, v3add, mv3. cbn [vx vy vz]. f_equal; ring. }
    rewrite V. unfold sq3. apply (qrot_dot _ _ _ RG). }
  unfold tip_errors. cbv zeta. rewrite E, map_length. destruct ps as [|p [|q ps]]; reflexivity.
Qed.
(** C152 (refuted): a single pose has a mean but no deviation, no pose has no mean but the deviation zero *)
Theorem tip_errors_few_refuted pw pm p : fst (tip_errors pw [] pm) = None /\ snd (tip_errors pw [] pm) = Some 0 /\ snd (tip_errors pw (p :: nil) pm) = None.
Proof. repeat split. Qed.

(** the tool of ToolTipProps: perfect measurements *)
Example tip_lost : exists gels, (forall p, In p tip_ps -> rigid p) /\ gels_ok gels tip_ps /\ nan_stays still /\ turned tip_ps /\ (forall p, In p tip_ps -> papp p (V3 1 2 3) = V3 10 20 30) /\
  tool_tip_refined tip_ps still (fun _ _ _ => true) gels 1 = Estimate None.
Proof.
  destruct tip_found as (gels & R & G & T & E). exists gels. split; [exact R|]. split; [exact G|]. split; [exact still_nan|]. split; [exact T|].
  assert (X : forall p, In p tip_ps -> papp p (V3 1 2 3) = V3 10 20 30).
  { intros p Hp; assert (RP := R p Hp); unfold papp; rewrite (qrot_mat _ _ RP); destruct Hp as [<-|[<-|[<-|[]]]]; unfold qone; un; f_equal; ring. }
  split; [exact X|].
  assert (N : forall w, tool_tip_refined tip_ps still (fun _ _ _ => true) gels 1 <> Estimate (Some w)).
  { apply (tip_refine_exact_refuted gels still (fun _ _ _ => true) tip_ps 1 (V3 1 2 3) (V3 10 20 30) R G still_nan T); [discriminate|exact X]. }
  destruct (tool_tip_refined tip_ps still (fun _ _ _ => true) gels 1) as [| | |[w|]] eqn:EQ; try reflexivity; exfalso; [..|exact (N w eq_refl)].
  all: unfold tool_tip_refined in EQ; rewrite E in EQ; cbn [tloop] in EQ; unfold tround in EQ; cbn [tinitial tlin tkind] in EQ.
  all: destruct (tlinearise _ _) as [dj|]; cbn [normal_equations option_map still] in EQ; cbv zeta in EQ; destruct (ge _ _); discriminate.
Qed.
(** one tool seen twice, the second time two units off: mean 1, deviation the root of two *)
Example tip_errors_case : let ps := [P qone (V3 0 0 0); P qone (V3 0 0 2)] in
  exists s, tip_errors (V3 1 2 3) ps (V3 1 2 3) = (Some 1, Some s) /\ s * s = 2.
Proof.
  intros ps. assert (D0 : tip_distance (V3 1 2 3) (V3 1 2 3) (P qone (V3 0 0 0)) = 0). { apply distance_zero. unfold papp. cbn [rot tra]. rewrite qrot_one. unfold v3add. cbn. f_equal; ring. }
  assert (D1 : tip_distance (V3 1 2 3) (V3 1 2 3) (P qone (V3 0 0 2)) = 2).
  { apply Rsqr_inj; [apply distance_nonneg|lra|]. unfold Rsqr. rewrite distance_square. unfold papp. cbn [rot tra]. rewrite qrot_one. unfold sq3, dot3, v3sub, v3add. cbn. ring. }
  destruct (errors_value (V3 1 2 3) (P qone (V3 0 0 0)) (P qone (V3 0 0 2)) [] (V3 1 2 3)) as (m & s & E & Em & S0 & Es).
  unfold lsum in Em, Es. cbn [length INR fold_right] in Em, Es. rewrite D0, D1 in Em, Es. assert (m = 1) as -> by lra. exists s. split; [exact E|]. lra.
Qed.
Print Assumptions tip_jacobian_derivative.
Print Assumptions tip_jacobian_axis_refuted.
Print Assumptions tip_refine_optimal.
Print Assumptions tip_step_downhill.
Print Assumptions tip_refine_exact_refuted.
Print Assumptions tip_errors_meaning.
Print Assumptions tip_errors_world.
Print Assumptions tip_errors_few_refuted.

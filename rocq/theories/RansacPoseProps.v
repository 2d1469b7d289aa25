(** Robust absolute orientation and robust tool tip calibration (C153, C154). *)
From Coq Require Import Reals Lra Lia List Arith ZArith.
Import ListNotations.
From Verif Require Import Mat Quat QuatProofs QuatProps Dlt DltProofs AbsOrient AbsOrientProofs AbsOrientProps ToolTipProps Ransac RansacProofs RansacProps RansacPose.
Open Scope R_scope.

(** * What both share *)
(** a run ends with a result built from a qualifying consensus set *)
Lemma ransac_robust {A H D : Type} (ltb : D -> D -> bool) thr (est : H -> list A -> bool * H) (eval : H -> A -> D) h0 data setSize nMin nMax sched r0 (good : H -> Prop) k h :
  (Z.of_nat (length data) < 2 ^ 31)%Z -> (1 <= nMin)%nat -> (forall j, (j < nMax)%nat -> sample A data setSize (sched j) <> None) ->
  (k < nMax)%nat -> proposes A H est h0 data setSize sched k h -> (nMin <= length (consensus A H D ltb thr eval data h))%nat ->
  (forall j h', proposes A H est h0 data setSize sched j h' -> (nMin <= length (consensus A H D ltb thr eval data h'))%nat ->
     good (snd (est r0 (consensus A H D ltb thr eval data h')))) ->
  exists n r it, ransac A H D ltb thr est eval h0 data setSize nMin nMax sched r0 = Done n r [] it /\ (nMin <= n)%nat /\ good r.
Proof.
  intros S N1 V K P Q G. destruct (ransac_early_abort_complete A H D ltb thr est eval h0 data setSize nMin nMax sched r0 k h S V K P) as (n & r & it & E & N0 & NM & _); [split; lia|].
  destruct (ransac_reports_existing_consensus A H D ltb thr est eval h0 data setSize nMin nMax sched r0 n r [] it S E N0) as (j & h' & _ & P' & EN & _ & ER).
  exists n, r, it. split; [exact E|]. split; [exact NM|]. rewrite ER. apply (G j h' P'). lia.
Qed.
Lemma in_sample {A} (data : list A) idx s x : deref A data idx = Some s -> In x s -> In x data.
Proof.
  revert s. induction idx as [|i idx IH]; intros s; cbn [deref]; [intros E; injection E as <-; intros []|].
  destruct (nth_error data i) as [a|] eqn:EA; [|discriminate]. destruct (deref A data idx) as [l|]; [|discriminate]. intros E. injection E as <-.
  intros [<-|Hx]; [exact (nth_error_In _ _ EA)|exact (IH l eq_refl Hx)].
Qed.
Lemma below_iff d t : below d t = true <-> d < t.
Proof. unfold below. destruct (Rlt_dec d t); split; intros; try reflexivity; try assumption; try discriminate; contradiction. Qed.

(** the triangle inequality *)
Lemma cauchy u v : dot3 u v <= norm3 u * norm3 v.
Proof.
  destruct (Rle_lt_dec (dot3 u v) 0) as [L|P]; [apply Rle_trans with 0; [exact L|]; apply Rmult_le_pos; apply norm3_nonneg|].
  apply Rsqr_incr_0_var; [|apply Rmult_le_pos; apply norm3_nonneg]. unfold Rsqr.
  replace (norm3 u * norm3 v * (norm3 u * norm3 v)) with ((norm3 u * norm3 u) * (norm3 v * norm3 v)) by ring. rewrite !norm3_sq.
  unfold sq3, dot3. destruct u as [a b c], v as [d e f]. cbn [vx vy vz].
  pose proof (Rle_0_sqr (a * e - b * d)). pose proof (Rle_0_sqr (a * f - c * d)). pose proof (Rle_0_sqr (b * f - c * e)). unfold Rsqr in *. lra.
Qed.
Lemma norm3_triangle u v : norm3 (v3add u v) <= norm3 u + norm3 v.
Proof.
  apply Rsqr_incr_0_var; [|pose proof (norm3_nonneg u); pose proof (norm3_nonneg v); lra]. unfold Rsqr.
  replace ((norm3 u + norm3 v) * (norm3 u + norm3 v)) with (norm3 u * norm3 u + norm3 v * norm3 v + 2 * (norm3 u * norm3 v)) by ring.
  rewrite !norm3_sq. pose proof (cauchy u v). unfold sq3, dot3 in *. destruct u as [a b c], v as [d e f]. cbn [v3add vx vy vz] in *. lra.
Qed.
Lemma norm3_sym a b : norm3 (v3sub a b) = norm3 (v3sub b a).
Proof. unfold norm3. f_equal. destruct a, b. cbn. ring. Qed.
Lemma norm3_between a b c : norm3 (v3sub a c) <= norm3 (v3sub a b) + norm3 (v3sub b c).
Proof. replace (v3sub a c) with (v3add (v3sub a b) (v3sub b c)); [apply norm3_triangle|]. destruct a, b, c. apply v3_ext; cbn; ring. Qed.
Lemma rigid_distance p a b : rigid p -> norm3 (v3sub (papp p a) (papp p b)) = norm3 (v3sub a b).
Proof.
  intros R. assert (E : v3sub (papp p a) (papp p b) = qrot (rot p) (v3sub a b)). { rewrite qrot_sub. unfold papp. destruct (qrot (rot p) a), (qrot (rot p) b), (tra p). apply v3_ext; cbn; ring. }
  rewrite E. unfold norm3. f_equal. change (dot3 (qrot (rot p) (v3sub a b)) (qrot (rot p) (v3sub a b)) = dot3 (v3sub a b) (v3sub a b)). apply qrot_dot. exact R.
Qed.

(** * C153: robust absolute orientation *)
(** the correspondences within the threshold of a pose *)
Definition fits (t : R) (p : pose) (x : vec3 * vec3) : Prop := norm3 (v3sub (fst x) (papp p (snd x))) < t.
Definition agreeing (t : R) (data : list (vec3 * vec3)) (p : pose) : list (vec3 * vec3) := filter (fun x => if Rlt_dec (norm3 (v3sub (fst x) (papp p (snd x)))) t then true else false) data.
(** a correspondence of the true motion *)
Definition true_match (p0 : pose) (x : vec3 * vec3) : Prop := fst x = papp p0 (snd x).
Definition horn_solver (syev : syev4_oracle) : Prop := forall left right lc rc, exists w v,
  syev (horn_of left right lc rc) = Some (w, v) /\ syev4_contract (horn_of left right lc rc) w v.
(** no pose is supported by a wrong match and by enough matches altogether *)
Definition separated (t : R) (nMin : nat) (data : list (vec3 * vec3)) (p0 : pose) : Prop := forall p x, rigid p -> In x data -> fits t p x ->
  ~ true_match p0 x -> (length (agreeing t data p) < nMin)%nat.

Lemma true_matches_left p0 l : (forall x, In x l -> true_match p0 x) -> map fst l = map (papp p0) (map snd l).
Proof. induction l as [|x l IH]; intros H; [reflexivity|]. cbn [map]. rewrite IH by (intros; apply H; right; assumption). f_equal. apply H. left. reflexivity. Qed.
Lemma true_match_dec p0 x : true_match p0 x \/ ~ true_match p0 x.
Proof.
  unfold true_match. destruct (fst x) as [a b c], (papp p0 (snd x)) as [d e f].
  destruct (Req_dec a d) as [->|N]; [|right; intros E; apply N; exact (f_equal vx E)]. destruct (Req_dec b e) as [->|N]; [|right; intros E; apply N; exact (f_equal vy E)].
  destruct (Req_dec c f) as [->|N]; [|right; intros E; apply N; exact (f_equal vz E)]. left. reflexivity.
Qed.
Lemma estimator_exact syev p0 h l : horn_solver syev -> rigid p0 -> (forall x, In x l -> true_match p0 x) -> non_collinear (map snd l) ->
  exists p, pose_estimator syev h l = (true, p) /\ rigid p /\ forall x, papp p x = papp p0 x.
Proof.
  intros HS R T NC. unfold pose_estimator. rewrite (true_matches_left p0 l T).
  destruct (HS (map (papp p0) (map snd l)) (map snd l) (centroid (length (map (papp p0) (map snd l))) (map (papp p0) (map snd l))) (centroid (length (map (papp p0) (map snd l))) (map snd l))) as (w & v & E & C).
  destruct (pose_exact syev p0 (map snd l) w v R NC E C) as (p & EP & RP & X). exists p. rewrite EP. auto.
Qed.
Lemma estimator_rigid syev h l p : horn_solver syev -> l <> [] -> pose_estimator syev h l = (true, p) -> rigid p.
Proof.
  intros HS NE. unfold pose_estimator. destruct (estimate_pose syev (map fst l) (map snd l)) as [q|] eqn:E; [|discriminate]. intros X. injection X as <-.
  refine (proj1 (pose_optimal syev (map fst l) (map snd l) q _ _ _ E)); [rewrite !map_length; reflexivity|destruct l; [congruence|discriminate]|].
  intros w v EW. destruct (HS (map fst l) (map snd l) (centroid (length (map fst l)) (map fst l)) (centroid (length (map fst l)) (map snd l))) as (w' & v' & E' & C). congruence.
Qed.
Lemma agreeing_consensus t data p : consensus _ _ _ below t pose_evaluator data p = agreeing t data p.
Proof. reflexivity. Qed.
Lemma in_agreeing t data p x : In x (agreeing t data p) <-> In x data /\ fits t p x.
Proof. unfold agreeing. rewrite filter_In. unfold fits. destruct (Rlt_dec _ _); split; intros [A B]; try discriminate; try contradiction; auto. Qed.
Lemma separated_true t nMin data p0 p x : separated t nMin data p0 -> rigid p -> (nMin <= length (agreeing t data p))%nat -> In x (agreeing t data p) -> true_match p0 x.
Proof.
  intros SEP R N Hx. apply in_agreeing in Hx. destruct Hx as [Hx F]. destruct (true_match_dec p0 x) as [T|T]; [exact T|]. specialize (SEP p x R Hx F T). lia.
Qed.

(** One iteration that samples true matches only suffices: the exact motion is returned, whatever
    the other iterations drew before it. *)
Theorem ransac_pose_exact syev t setSize nMin nMax sched data pose0 p0 k s :
  horn_solver syev -> rigid p0 -> (Z.of_nat (length data) < 2 ^ 31)%Z -> (1 <= nMin)%nat -> (1 <= setSize)%nat ->
  (forall j, (j < nMax)%nat -> sample _ data setSize (sched j) <> None) ->
  (k < nMax)%nat -> sample _ data setSize (sched k) = Some s -> (forall x, In x s -> true_match p0 x) -> non_collinear (map snd s) ->
  (nMin <= length (agreeing t data p0))%nat -> separated t nMin data p0 ->
  (forall p, rigid p -> (nMin <= length (agreeing t data p))%nat -> non_collinear (map snd (agreeing t data p))) ->
  exists r, ransac_pose syev t setSize nMin nMax sched data pose0 = Some (true, r) /\ rigid r /\ forall x, papp r x = papp p0 x.
Proof.
  intros HS R SZ N1 S1 V K ES TS NC Q SEP NCA.
  destruct (estimator_exact syev p0 pone s HS R TS NC) as (h & EH & RH & XH).
  assert (AG : forall p, (forall x, papp p x = papp p0 x) -> agreeing t data p = agreeing t data p0).
  { intros p Hp. unfold agreeing. apply filter_ext. intros x. rewrite Hp. reflexivity. }
  destruct (ransac_robust below t (pose_estimator syev) pose_evaluator pone data setSize nMin nMax sched pose0 (fun r => rigid r /\ forall x, papp r x = papp p0 x) k h SZ N1 V K) as (n & r & it & E & NN & G).
  - exists s. split; assumption.
  - rewrite agreeing_consensus, (AG h XH). exact Q.
  - intros j h' (s' & ES' & EH') QH. rewrite agreeing_consensus in *.
    assert (RH' : rigid h').
    { apply (estimator_rigid syev pone s' h' HS); [|exact EH']. unfold sample in ES'. destruct (setSize <=? length (sched j))%nat eqn:L; [|discriminate]. apply Nat.leb_le in L.
      intros ->. destruct (sched j) as [|i l]; [cbn in L; lia|]. destruct setSize; [lia|]. cbn in ES'. destruct (nth_error data i); [|discriminate]. destruct (deref _ data (firstn setSize l)); discriminate. }
    destruct (estimator_exact syev p0 pose0 (agreeing t data h') HS R (fun x Hx => separated_true t nMin data p0 h' x SEP RH' QH Hx) (NCA h' RH' QH)) as (p & EP & RP & XP).
    rewrite EP. auto.
  - exists r. unfold ransac_pose. rewrite E. split; [|exact G]. assert (0 < n)%nat by lia. apply Nat.ltb_lt in H. rewrite H. reflexivity.
Qed.

(** two matches which fit the same motion have nearly the same distance on both sides *)
Theorem fits_distance t p x y : rigid p -> fits t p x -> fits t p y ->
  Rabs (norm3 (v3sub (fst x) (fst y)) - norm3 (v3sub (snd x) (snd y))) < 2 * t.
Proof.
  unfold fits. intros R X Y. rewrite <- (rigid_distance p (snd x) (snd y) R).
  pose proof (norm3_between (fst x) (papp p (snd x)) (fst y)). pose proof (norm3_between (papp p (snd x)) (papp p (snd y)) (fst y)).
  pose proof (norm3_between (papp p (snd x)) (fst x) (papp p (snd y))). pose proof (norm3_between (fst x) (fst y) (papp p (snd y))).
  rewrite (norm3_sym (papp p (snd x)) (fst x)) in *. rewrite (norm3_sym (papp p (snd y)) (fst y)) in *. apply Rabs_def1; lra.
Qed.
(** so wrong matches are harmless when each contradicts the distances of enough others *)
Definition compatible (t : R) (x y : vec3 * vec3) : bool :=
  if Rlt_dec (Rabs (norm3 (v3sub (fst x) (fst y)) - norm3 (v3sub (snd x) (snd y)))) (2 * t) then true else false.
Theorem separated_by_distance t nMin data p0 : (forall x, In x data -> ~ true_match p0 x -> (length (filter (compatible t x) data) < nMin)%nat) -> separated t nMin data p0.
Proof.
  intros H p x R Hx F T. specialize (H x Hx T). apply Nat.le_lt_trans with (length (filter (compatible t x) data)); [|exact H]. unfold agreeing.
  clear H Hx. induction data as [|y l IH]; [reflexivity|]. cbn [filter]. destruct (Rlt_dec _ t) as [Y|Y].
  - assert (C : compatible t x y = true) by (unfold compatible; destruct (Rlt_dec _ _) as [|N]; [reflexivity|exfalso; apply N; exact (fits_distance t p x y R F Y)]). rewrite C. cbn [length]. lia.
  - destruct (compatible t x y); cbn [length]; lia.
Qed.
Print Assumptions ransac_pose_exact. Print Assumptions fits_distance. Print Assumptions separated_by_distance.

(** When the final estimation from the consensus set fails, success is reported with a pose that was never computed. *)
Definition line_data : list (vec3 * vec3) :=
  [(V3 1 0 0, V3 3 0 0); (V3 (-1) 0 0, V3 (-3) 0 0); (v3zero, v3zero); (v3zero, v3zero); (v3zero, v3zero)].
Lemma rotation_far q : unit q -> forall s, s * s = 1 -> ~ norm3 (v3sub (V3 s 0 0) (papp (P q v3zero) (V3 (3 * s) 0 0))) < 1.
Proof.
  intros U s S L. assert (E := rigid_distance (P q v3zero) (V3 (3 * s) 0 0) v3zero U).
  assert (Z : papp (P q v3zero) v3zero = v3zero) by (unfold papp; cbn [rot tra]; rewrite (qrot_mat q v3zero U); unfold mv3, v3add, v3zero; destruct q; cbn; f_equal; ring). rewrite Z in E.
  pose proof (norm3_between (papp (P q v3zero) (V3 (3 * s) 0 0)) (V3 s 0 0) v3zero) as T. rewrite (norm3_sym (papp (P q v3zero) (V3 (3 * s) 0 0)) (V3 s 0 0)) in T. rewrite E in T.
  assert (A : norm3 (v3sub (V3 (3 * s) 0 0) v3zero) = 3). { unfold norm3. cbn [v3sub v3zero vx vy vz]. replace ((3 * s - 0) * (3 * s - 0) + (0 - 0) * (0 - 0) + (0 - 0) * (0 - 0)) with (9 * (s * s)) by ring. rewrite S. replace (9 * 1) with (3 * 3) by ring. apply sqrt_square. lra. }
  assert (B : norm3 (v3sub (V3 s 0 0) v3zero) = 1). { unfold norm3. cbn [v3sub v3zero vx vy vz]. replace ((s - 0) * (s - 0) + (0 - 0) * (0 - 0) + (0 - 0) * (0 - 0)) with (s * s) by ring. rewrite S. apply sqrt_1. }
  rewrite A, B in T. lra.
Qed.
Theorem ransac_pose_unset_refuted : forall syev pose0, horn_solver syev ->
  ransac_pose syev 1 3 3 1 (fun _ => [0; 1; 2; 3; 4]%nat) line_data pose0 = Some (true, pose0).
Proof.
  intros syev pose0 HS.
  set (s := [(V3 1 0 0, V3 3 0 0); (V3 (-1) 0 0, V3 (-3) 0 0); (v3zero, v3zero)]).
  assert (SM : sample _ line_data 3 [0; 1; 2; 3; 4]%nat = Some s) by reflexivity.
  assert (EZ : centroid 3 (map fst s) = v3zero /\ centroid 3 (map snd s) = v3zero) by (split; unfold centroid, v3sum, s; cbn; unfold v3scale, v3add, v3zero; cbn; f_equal; ring).
  assert (H0 : exists q, unit q /\ pose_estimator syev pone s = (true, P q v3zero)).
  { unfold pose_estimator, estimate_pose. change (length (map fst s)) with 3%nat. destruct EZ as [-> ->].
    destruct (HS (map fst s) (map snd s) v3zero v3zero) as (w & v & EW & C).
    destruct (estimate_rotation syev (map fst s) (map snd s) v3zero v3zero) as [q|] eqn:EQ.
    - exists q. assert (U : unit q). { refine (proj1 (rotation_optimal syev (map fst s) (map snd s) v3zero v3zero q eq_refl _ EQ)). intros w' v' E'. congruence. }
      split; [exact U|]. do 2 f_equal. rewrite (qrot_mat q v3zero U). unfold mv3, v3sub, v3zero. destruct q. cbn. f_equal; ring.
    - exfalso. apply (rotation_fails_iff syev _ _ _ _ w v EW C) with (i := 0%nat) (j := 0%nat) in EQ; [|lia|lia]. revert EQ. unfold horn_m, s, lsum. cbn. lra. }
  destruct H0 as (q & U & EH).
  assert (AG : agreeing 1 line_data (P q v3zero) = [(v3zero, v3zero); (v3zero, v3zero); (v3zero, v3zero)]).
  { assert (Z : norm3 (v3sub v3zero (papp (P q v3zero) v3zero)) = 0).
    { assert (E : papp (P q v3zero) v3zero = v3zero) by (unfold papp; cbn [rot tra]; rewrite (qrot_mat q v3zero U); unfold mv3, v3add, v3zero; destruct q; cbn; f_equal; ring). rewrite E. unfold norm3, v3zero. cbn. replace ((0 - 0) * (0 - 0) + (0 - 0) * (0 - 0) + (0 - 0) * (0 - 0)) with 0 by ring. apply sqrt_0. }
    unfold agreeing, line_data. cbn [filter fst snd]. rewrite Z.
    destruct (Rlt_dec (norm3 (v3sub (V3 1 0 0) (papp (P q v3zero) (V3 3 0 0)))) 1) as [L|_].
    { exfalso. apply (rotation_far q U 1 ltac:(ring)). replace (3 * 1) with 3 by ring. exact L. }
    destruct (Rlt_dec (norm3 (v3sub (V3 (-1) 0 0) (papp (P q v3zero) (V3 (-3) 0 0)))) 1) as [L|_].
    { exfalso. apply (rotation_far q U (-1) ltac:(ring)). replace (3 * -1) with (-3) by ring. exact L. }
    destruct (Rlt_dec 0 1); [reflexivity|lra]. }
  assert (LAST : pose_estimator syev pose0 [(v3zero, v3zero); (v3zero, v3zero); (v3zero, v3zero)] = (false, pose0)).
  { unfold pose_estimator, estimate_pose. cbn [map fst snd length]. assert (CZ : centroid 3 [v3zero; v3zero; v3zero] = v3zero) by (unfold centroid, v3sum; cbn; unfold v3scale, v3add, v3zero; cbn; f_equal; ring). rewrite CZ.
    destruct (HS [v3zero; v3zero; v3zero] [v3zero; v3zero; v3zero] v3zero v3zero) as (w & v & EW & C).
    assert (F : estimate_rotation syev [v3zero; v3zero; v3zero] [v3zero; v3zero; v3zero] v3zero v3zero = None).
    { apply (rotation_fails_iff syev _ _ _ _ w v EW C). intros i j _ _. unfold horn_m, lsum. cbn [combine fold_right fst snd]. assert (N : forall i, v3nth (v3sub v3zero v3zero) i = 0) by (intros [|[|[|?]]]; cbn; ring). rewrite !N. ring. }
    rewrite F. reflexivity. }
  destruct (ransac_robust below 1 (pose_estimator syev) pose_evaluator pone line_data 3 3 1 (fun _ => [0; 1; 2; 3; 4]%nat) pose0 (fun r => r = pose0) 0 (P q v3zero)) as (n & r & it & E & NN & G).
  - vm_compute. reflexivity.
  - lia.
  - intros. rewrite SM. discriminate.
  - lia.
  - exists s. split; [reflexivity|exact EH].
  - rewrite agreeing_consensus, AG. cbn. lia.
  - intros j h' (s' & ES & EH') _. rewrite SM in ES. injection ES as <-. rewrite EH in EH'. injection EH' as <-. rewrite agreeing_consensus, AG, LAST. reflexivity.
  - unfold ransac_pose. rewrite E, G. assert (X : (0 <? n = true)%nat) by (apply Nat.ltb_lt; lia). rewrite X. reflexivity.
Qed.
Print Assumptions ransac_pose_unset_refuted.

(** a half turn about z, four true matches and a wrong one; the first sample contains the wrong one *)
Definition turn_pose : pose := P (Q 0 0 1 0) (V3 1 2 3).
Definition turn_data : list (vec3 * vec3) :=
  [(V3 1 2 3, V3 0 0 0); (V3 0 2 3, V3 1 0 0); (V3 1 1 3, V3 0 1 0); (V3 1 2 4, V3 0 0 1); (V3 0 0 0, V3 100 0 0)].
Definition turn_sched (k : nat) : list nat := match k with O => [4; 0; 1; 2; 3]%nat | _ => [0; 1; 2; 3; 4]%nat end.
Lemma norm3_le v c : 0 <= c -> sq3 v <= c * c -> norm3 v <= c.
Proof. intros C H. unfold norm3. rewrite <- (sqrt_square c C). apply sqrt_le_1_alt. exact H. Qed.
Lemma norm3_ge v c : 0 <= c -> c * c <= sq3 v -> c <= norm3 v.
Proof. intros C H. unfold norm3. rewrite <- (sqrt_square c C) at 1. apply sqrt_le_1_alt. exact H. Qed.
Lemma turn_matches x : In x turn_data -> true_match turn_pose x \/ x = (V3 0 0 0, V3 100 0 0).
Proof.
  assert (U : unit (rot turn_pose)) by (unfold unit, qnorm; cbn; ring).
  intros [<-|[<-|[<-|[<-|[<-|[]]]]]]; [left|left|left|left|right; reflexivity]; unfold true_match, papp; rewrite (qrot_mat _ _ U); unfold mv3, v3add; cbn; f_equal; ring.
Qed.
Lemma turn_false x : In x turn_data -> ~ true_match turn_pose x -> x = (V3 0 0 0, V3 100 0 0).
Proof. intros Hx N. destruct (turn_matches x Hx) as [T|E]; [contradiction|exact E]. Qed.
Lemma turn_incompatible y : In y turn_data -> y <> (V3 0 0 0, V3 100 0 0) -> compatible (1 / 10) (V3 0 0 0, V3 100 0 0) y = false.
Proof.
  intros Hy N. unfold compatible. destruct (Rlt_dec _ _) as [L|]; [exfalso|reflexivity]. apply Rabs_def2 in L. destruct L as [_ L]. revert L.
  assert (A : norm3 (v3sub (V3 0 0 0) (fst y)) <= 10) by (apply norm3_le; [lra|]; destruct Hy as [<-|[<-|[<-|[<-|[<-|[]]]]]]; unfold sq3, dot3; cbn; lra).
  assert (B : 98 <= norm3 (v3sub (V3 100 0 0) (snd y))) by (apply norm3_ge; [lra|]; destruct Hy as [<-|[<-|[<-|[<-|[<-|[]]]]]]; try congruence; unfold sq3, dot3; cbn; lra).
  cbn [fst snd] in *. lra.
Qed.
Lemma v3_differ a b : vx a <> vx b \/ vy a <> vy b \/ vz a <> vz b -> a <> b.
Proof. intros H E. rewrite E in H. destruct H as [H|[H|H]]; apply H; reflexivity. Qed.
Ltac not_wrong := intros E; apply (f_equal (fun x => vx (snd x))) in E; cbn in E; lra.
Lemma turn_separated : separated (1 / 10) 4 turn_data turn_pose.
Proof.
  apply separated_by_distance. intros x Hx N. rewrite (turn_false x Hx N). unfold turn_data. cbn [filter].
  rewrite !turn_incompatible by (try not_wrong; unfold turn_data; cbn; auto). destruct (compatible _ _ _); cbn; lia.
Qed.
Lemma turn_good_fits x : In x turn_data -> true_match turn_pose x -> fits (1 / 10) turn_pose x.
Proof.
  intros _ T. unfold fits. rewrite T. replace (v3sub _ _) with v3zero by (destruct (papp turn_pose (snd x)); apply v3_ext; cbn; ring).
  apply Rle_lt_trans with 0; [|lra]. apply norm3_le; [lra|]. unfold sq3, dot3. cbn. lra.
Qed.
Example ransac_pose_exact_case syev pose0 : horn_solver syev ->
  exists r, ransac_pose syev (1 / 10) 3 4 2 turn_sched turn_data pose0 = Some (true, r) /\ rigid r /\ forall x, papp r x = papp turn_pose x.
Proof.
  intros HS. assert (U : rigid turn_pose) by (unfold rigid, unit, qnorm; cbn; ring).
  assert (TM : forall x, In x turn_data -> x <> (V3 0 0 0, V3 100 0 0) -> true_match turn_pose x) by (intros x Hx N; destruct (turn_matches x Hx); [assumption|contradiction]).
  apply (ransac_pose_exact syev (1 / 10) 3 4 2 turn_sched turn_data pose0 turn_pose 1 (firstn 3 turn_data) HS U).
  - vm_compute. reflexivity.
  - lia.
  - lia.
  - intros [|j] _; discriminate.
  - lia.
  - reflexivity.
  - intros x Hx. apply TM; [unfold turn_data; cbn in *; tauto|]. destruct Hx as [<-|[<-|[<-|[]]]]; not_wrong.
  - exists (V3 0 0 0), (V3 1 0 0), (V3 0 1 0). cbn [firstn turn_data map snd In]. split; [auto|]. split; [auto|]. split; [auto|]. intros E. apply (f_equal vz) in E. cbn in E. lra.
  - unfold turn_data, agreeing. cbn [filter]. 
    assert (F : forall x, In x turn_data -> x <> (V3 0 0 0, V3 100 0 0) -> norm3 (v3sub (fst x) (papp turn_pose (snd x))) < 1 / 10) by (intros x Hx N; exact (turn_good_fits x Hx (TM x Hx N))).
    repeat match goal with |- context [Rlt_dec (norm3 (v3sub (fst ?x) _)) _] => lazymatch x with (V3 0 0 0, _) => fail | _ => destruct (Rlt_dec (norm3 (v3sub (fst x) (papp turn_pose (snd x)))) (1 / 10)) as [_|Y]; [|exfalso; apply Y; apply F; [unfold turn_data; cbn; auto|not_wrong]] end end.
    destruct (Rlt_dec _ _); cbn; lia.
  - exact turn_separated.
  - intros p RP N.
    assert (W : In (V3 0 0 0, V3 100 0 0) (agreeing (1 / 10) turn_data p) -> False).
    { intros HI. assert (T := separated_true _ _ _ _ _ _ turn_separated RP N HI). unfold true_match, papp in T. rewrite (qrot_mat _ _ U) in T. apply (f_equal vx) in T. cbn in T. unfold mv3, v3add in T. cbn in T. lra. }
    assert (ALL : forall x, In x (firstn 4 turn_data) -> In x (agreeing (1 / 10) turn_data p)).
    { intros x Hx. rewrite in_agreeing. split; [unfold turn_data; cbn in *; tauto|]. unfold agreeing in N, W. unfold turn_data in N, W. cbn [filter] in N, W. unfold fits.
      destruct (Rlt_dec (norm3 (v3sub (fst (V3 0 0 0, V3 100 0 0)) (papp p (snd (V3 0 0 0, V3 100 0 0))))) (1 / 10)) as [X|X].
      { exfalso. apply W. repeat match goal with |- context [if ?b then _ else _] => destruct b end; cbn; auto 10. }
      destruct Hx as [<-|[<-|[<-|[<-|[]]]]]; match goal with |- ?g => destruct (Rlt_dec (norm3 (v3sub (fst (V3 1 2 3, V3 0 0 0)) (papp p (snd (V3 1 2 3, V3 0 0 0))))) (1 / 10)), (Rlt_dec (norm3 (v3sub (fst (V3 0 2 3, V3 1 0 0)) (papp p (snd (V3 0 2 3, V3 1 0 0))))) (1 / 10)), (Rlt_dec (norm3 (v3sub (fst (V3 1 1 3, V3 0 1 0)) (papp p (snd (V3 1 1 3, V3 0 1 0))))) (1 / 10)), (Rlt_dec (norm3 (v3sub (fst (V3 1 2 4, V3 0 0 1)) (papp p (snd (V3 1 2 4, V3 0 0 1))))) (1 / 10)); try assumption; cbn in N; lia end. }
    exists (V3 0 0 0), (V3 1 0 0), (V3 0 1 0). split; [apply (in_map snd _ (V3 1 2 3, V3 0 0 0)), ALL; cbn; auto|]. split; [apply (in_map snd _ (V3 0 2 3, V3 1 0 0)), ALL; cbn; auto|]. split; [apply (in_map snd _ (V3 1 1 3, V3 0 1 0)), ALL; cbn; auto|].
    intros E. apply (f_equal vz) in E. cbn in E. lra.
Qed.

(** * C154: robust tool tip calibration *)
Definition tip_fits (t : R) (pw pm : vec3) (p : pose) : Prop := norm3 (v3sub pw (papp p pm)) < t.
Definition tip_agreeing (t : R) (data : list pose) (pw pm : vec3) : list pose := filter (fun p => if Rlt_dec (norm3 (v3sub pw (papp p pm))) t then true else false) data.
(** the least squares routine needs to be right for well conditioned inputs only *)
Definition tip_solver (gels : gels6) : Prop := forall ps, ps <> [] -> (forall p, In p ps -> rigid p) -> turned ps -> gels_ok gels ps.
(** no calibration is supported by a wrong pose and by enough poses altogether *)
Definition tip_separated (t : R) (nMin : nat) (data : list pose) (pw0 pm0 : vec3) : Prop := forall pw pm p, In p data -> tip_fits t pw pm p ->
  papp p pm0 <> pw0 -> (length (tip_agreeing t data pw pm) < nMin)%nat.
Lemma in_tip_agreeing t data pw pm p : In p (tip_agreeing t data pw pm) <-> In p data /\ tip_fits t pw pm p.
Proof. unfold tip_agreeing. rewrite filter_In. unfold tip_fits. destruct (Rlt_dec _ _); split; intros [A B]; try discriminate; try contradiction; auto. Qed.
Lemma v3_dec (a b : vec3) : a = b \/ a <> b.
Proof.
  destruct a as [a b' c], b as [d e f].
  destruct (Req_dec a d) as [->|N]; [|right; intros E; apply N; exact (f_equal vx E)]. destruct (Req_dec b' e) as [->|N]; [|right; intros E; apply N; exact (f_equal vy E)].
  destruct (Req_dec c f) as [->|N]; [|right; intros E; apply N; exact (f_equal vz E)]. left. reflexivity.
Qed.
Theorem ransac_tip_exact gels junk junk' t setSize nMin nMax sched data pw0 pm0 k s :
  tip_solver gels -> (forall p, In p data -> rigid p) -> (Z.of_nat (length data) < 2 ^ 31)%Z -> (1 <= nMin)%nat ->
  (forall j, (j < nMax)%nat -> sample _ data setSize (sched j) <> None) ->
  (k < nMax)%nat -> sample _ data setSize (sched k) = Some s -> s <> [] -> (forall p, In p s -> papp p pm0 = pw0) -> turned s ->
  (nMin <= length (tip_agreeing t data pw0 pm0))%nat -> tip_separated t nMin data pw0 pm0 ->
  (forall pw pm, (nMin <= length (tip_agreeing t data pw pm))%nat -> turned (tip_agreeing t data pw pm)) ->
  ransac_tip gels junk junk' t setSize nMin nMax sched data = Some (true, (pw0, pm0)).
Proof.
  intros GS R SZ N1 V K ES NE TS TU Q SEP TA.
  assert (EX : forall h l, l <> [] -> (forall p, In p l -> In p data) -> (forall p, In p l -> papp p pm0 = pw0) -> turned l -> tip_estimator gels h l = (true, (pw0, pm0))).
  { intros h l NL SUB TL TT. unfold tip_estimator. assert (RL : forall p, In p l -> rigid p) by (intros; apply R; auto). rewrite (tool_tip_exact gels l pm0 pw0 RL (GS l NL RL TT) TT NL TL). reflexivity. }
  assert (SD : forall p, In p s -> In p data).
  { intros p Hp. unfold sample in ES. destruct (_ <=? _)%nat; [|discriminate]. exact (in_sample data _ s p ES Hp). }
  destruct (ransac_robust below t (tip_estimator gels) tip_evaluator junk' data setSize nMin nMax sched junk (fun r => r = (pw0, pm0)) k (pw0, pm0) SZ N1 V K) as (n & r & it & E & NN & G).
  - exists s. split; [exact ES|]. apply EX; assumption.
  - exact Q.
  - intros j [pw pm] _ QH. change (consensus _ _ _ below t tip_evaluator data (pw, pm)) with (tip_agreeing t data pw pm) in *. rewrite EX; [reflexivity| | | |].
    + intros E. rewrite E in QH. cbn in QH. lia.
    + intros p Hp. apply in_tip_agreeing in Hp. apply Hp.
    + intros p Hp. apply in_tip_agreeing in Hp. destruct Hp as [Hp F]. destruct (v3_dec (papp p pm0) pw0) as [T|T]; [exact T|]. specialize (SEP pw pm p Hp F T). lia.
    + apply TA. exact QH.
  - unfold ransac_tip. rewrite E, G. assert (X : (0 <? n = true)%nat) by (apply Nat.ltb_lt; lia). rewrite X. reflexivity.
Qed.
(** a failed calibration overwrites the caller's variables with whatever the local vector contained *)
Theorem ransac_tip_failure_refuted : forall gels junk junk',
  ransac_tip gels junk junk' 0 3 3 1 (fun _ => [0; 1; 2]%nat) tip_ps = Some (false, junk).
Proof.
  intros gels junk junk'. unfold ransac_tip, ransac, runs. change (sample _ tip_ps 3 [0; 1; 2]%nat) with (Some tip_ps). cbv beta iota.
  destruct (tip_estimator gels junk' tip_ps) as [ok h]. destruct ok; [|reflexivity]. cbn [negb].
  assert (B : forall p, below (tip_evaluator h p) 0 = false) by (intros p; unfold below, tip_evaluator; destruct (Rlt_dec _ _) as [L|]; [|reflexivity]; pose proof (norm3_nonneg (v3sub (fst h) (papp p (snd h)))); lra).
  assert (S : forall rest i, fst (scan pose (vec3 * vec3) R below 0 tip_evaluator h (length tip_ps) 3 rest i 0 []) = 0%nat).
  { induction rest as [|x rest IH]; intros i; cbn [scan]; [reflexivity|]. destruct (scan_goes_on _ _ _ _); [|reflexivity]. rewrite B. apply IH. }
  specialize (S tip_ps 0%nat). destruct (scan _ _ _ _ _ _ _ _ _ _ _ _ _) as [n l]. cbn [fst] in S. subst n. reflexivity.
Qed.
(** the reference orientation, the three half turns, and a pose that does not belong *)
Definition pivot_data : list pose := [P qone (V3 9 18 27); P (Q 1 0 0 0) (V3 9 22 33); P (Q 0 1 0 0) (V3 11 18 33); P (Q 0 0 1 0) (V3 11 22 27); P qone (V3 1000 0 0)].
Definition pivot_sched (k : nat) : list nat := match k with O => [4; 0; 1; 2; 3]%nat | _ => [0; 1; 2; 3; 4]%nat end.
Lemma norm3_comp v t : norm3 v < t -> (- t < vx v < t) /\ (- t < vy v < t) /\ (- t < vz v < t).
Proof.
  intros H. pose proof (norm3_nonneg v). assert (S : sq3 v < t * t) by (rewrite <- norm3_sq; apply Rmult_le_0_lt_compat; lra). unfold sq3, dot3 in S.
  pose proof (Rle_0_sqr (vx v)). pose proof (Rle_0_sqr (vy v)). pose proof (Rle_0_sqr (vz v)). unfold Rsqr in *.
  repeat split; try (apply Rnot_le_lt; intros L; assert (t * t <= (- vx v) * (- vx v)) by (apply Rmult_le_compat; lra); lra);
    try (apply Rnot_le_lt; intros L; assert (t * t <= (- vy v) * (- vy v)) by (apply Rmult_le_compat; lra); lra);
    try (apply Rnot_le_lt; intros L; assert (t * t <= (- vz v) * (- vz v)) by (apply Rmult_le_compat; lra); lra);
    try (apply Rnot_le_lt; intros L; assert (t * t <= vx v * vx v) by (apply Rmult_le_compat; lra); lra);
    try (apply Rnot_le_lt; intros L; assert (t * t <= vy v * vy v) by (apply Rmult_le_compat; lra); lra);
    try (apply Rnot_le_lt; intros L; assert (t * t <= vz v * vz v) by (apply Rmult_le_compat; lra); lra).
Qed.
Lemma papp_axis p v : rigid p -> papp p v = v3add (mv3 (qmat (rot p)) v) (tra p).
Proof. intros R. unfold papp. rewrite (qrot_mat _ _ R). reflexivity. Qed.
Lemma pivot_rigid p : In p pivot_data -> rigid p.
Proof. intros [<-|[<-|[<-|[<-|[<-|[]]]]]]; unfold rigid, qone; un; ring. Qed.
Lemma pivot_value a b c : papp (P qone (V3 9 18 27)) (V3 a b c) = V3 (a + 9) (b + 18) (c + 27) /\ papp (P (Q 1 0 0 0) (V3 9 22 33)) (V3 a b c) = V3 (a + 9) (- b + 22) (- c + 33) /\
  papp (P (Q 0 1 0 0) (V3 11 18 33)) (V3 a b c) = V3 (- a + 11) (b + 18) (- c + 33) /\ papp (P (Q 0 0 1 0) (V3 11 22 27)) (V3 a b c) = V3 (- a + 11) (- b + 22) (c + 27) /\
  papp (P qone (V3 1000 0 0)) (V3 a b c) = V3 (a + 1000) b c.
Proof. repeat split; rewrite papp_axis by (unfold rigid, qone; un; ring); unfold mv3, v3add, qone; cbn; f_equal; ring. Qed.
(** the poses agreeing with a calibration: either not the wrong one, or few *)
Lemma pivot_counts pw pm : tip_fits (1 / 10) pw pm (P qone (V3 1000 0 0)) -> (length (tip_agreeing (1 / 10) pivot_data pw pm) < 4)%nat.
Proof.
  destruct pm as [a b c], pw as [d e f]. destruct (pivot_value a b c) as (E1 & E2 & E3 & E4 & E5). unfold tip_fits. rewrite E5. intros W. apply norm3_comp in W. cbn [v3sub vx vy vz] in W.
  unfold tip_agreeing, pivot_data. cbn [filter]. rewrite E1, E2, E3, E4, E5.
  destruct (Rlt_dec (norm3 (v3sub (V3 d e f) (V3 (a + 9) (b + 18) (c + 27)))) (1 / 10)) as [A|_]; [apply norm3_comp in A; cbn [v3sub vx vy vz] in A|];
  (destruct (Rlt_dec (norm3 (v3sub (V3 d e f) (V3 (a + 9) (- b + 22) (- c + 33)))) (1 / 10)) as [B|_]; [apply norm3_comp in B; cbn [v3sub vx vy vz] in B|]);
  (destruct (Rlt_dec (norm3 (v3sub (V3 d e f) (V3 (- a + 11) (b + 18) (- c + 33)))) (1 / 10)) as [C|_]; [apply norm3_comp in C; cbn [v3sub vx vy vz] in C|]);
  (destruct (Rlt_dec (norm3 (v3sub (V3 d e f) (V3 (- a + 11) (- b + 22) (c + 27)))) (1 / 10)) as [D|_]; [apply norm3_comp in D; cbn [v3sub vx vy vz] in D|]);
  destruct (Rlt_dec _ _); cbn [length]; try lia; exfalso; lra.
Qed.
Lemma pivot_true p : In p pivot_data -> papp p (V3 1 2 3) <> V3 10 20 30 -> p = P qone (V3 1000 0 0).
Proof.
  destruct (pivot_value 1 2 3) as (E1 & E2 & E3 & E4 & E5). intros [<-|[<-|[<-|[<-|[<-|[]]]]]] N; [exfalso; apply N; rewrite ?E1, ?E2, ?E3, ?E4; f_equal; ring..|reflexivity].
Qed.
Lemma turned_more ps ps' : (forall p, In p ps -> In p ps') -> turned ps -> turned ps'.
Proof. intros S T d H. apply T. intros p q Hp Hq. apply H; apply S; assumption. Qed.
Lemma turned_tip_ps : turned tip_ps.
Proof. destruct tip_found as (g & _ & _ & T & _). exact T. Qed.
Example ransac_tip_exact_case gels junk junk' : tip_solver gels ->
  ransac_tip gels junk junk' (1 / 10) 3 4 2 pivot_sched pivot_data = Some (true, (V3 10 20 30, V3 1 2 3)).
Proof.
  intros GS. assert (SEP : tip_separated (1 / 10) 4 pivot_data (V3 10 20 30) (V3 1 2 3)) by (intros pw pm p Hp F N; rewrite (pivot_true p Hp N) in F; exact (pivot_counts pw pm F)).
  assert (ALL : forall pw pm, (4 <= length (tip_agreeing (1 / 10) pivot_data pw pm))%nat -> forall p, In p tip_ps -> In p (tip_agreeing (1 / 10) pivot_data pw pm)).
  { intros pw pm N p Hp. apply in_tip_agreeing. split; [unfold tip_ps, pivot_data in *; cbn in *; tauto|]. unfold tip_fits.
    destruct (Rlt_dec (norm3 (v3sub pw (papp (P qone (V3 1000 0 0)) pm))) (1 / 10)) as [X|X]; [pose proof (pivot_counts pw pm X); lia|].
    unfold tip_agreeing, pivot_data in N. cbn [filter] in N.
    destruct (Rlt_dec (norm3 (v3sub pw (papp (P qone (V3 1000 0 0)) pm))) (1 / 10)) as [|_]; [contradiction|].
    destruct (Rlt_dec (norm3 (v3sub pw (papp (P qone (V3 9 18 27)) pm))) (1 / 10)), (Rlt_dec (norm3 (v3sub pw (papp (P (Q 1 0 0 0) (V3 9 22 33)) pm))) (1 / 10)), (Rlt_dec (norm3 (v3sub pw (papp (P (Q 0 1 0 0) (V3 11 18 33)) pm))) (1 / 10)),
      (Rlt_dec (norm3 (v3sub pw (papp (P (Q 0 0 1 0) (V3 11 22 27)) pm))) (1 / 10)); cbn [length] in N; try lia.
    destruct Hp as [<-|[<-|[<-|[]]]]; assumption. }
  apply (ransac_tip_exact gels junk junk' (1 / 10) 3 4 2 pivot_sched pivot_data (V3 10 20 30) (V3 1 2 3) 1 tip_ps GS pivot_rigid).
  - vm_compute. reflexivity.
  - lia.
  - intros [|j] _; discriminate.
  - lia.
  - reflexivity.
  - discriminate.
  - destruct (pivot_value 1 2 3) as (E1 & E2 & E3 & _ & _). intros p [<-|[<-|[<-|[]]]]; rewrite ?E1, ?E2, ?E3; f_equal; ring.
  - exact turned_tip_ps.
  - destruct (pivot_value 1 2 3) as (E1 & E2 & E3 & E4 & E5). unfold tip_agreeing, pivot_data. cbn [filter]. rewrite E1, E2, E3, E4, E5.
    assert (Z : forall v, v = v3zero -> norm3 v < 1 / 10) by (intros v ->; apply Rle_lt_trans with 0; [apply norm3_le; [lra|unfold sq3, dot3; cbn; lra]|lra]).
    repeat match goal with |- context [Rlt_dec (norm3 (v3sub ?x ?y)) _] => lazymatch y with V3 (1 + 1000) _ _ => fail | _ => destruct (Rlt_dec (norm3 (v3sub x y)) (1 / 10)) as [_|Y]; [|exfalso; apply Y; apply Z; apply v3_ext; cbn; ring] end end.
    destruct (Rlt_dec _ _); cbn [length]; lia.
  - exact SEP.
  - intros pw pm N. exact (turned_more tip_ps _ (ALL pw pm N) turned_tip_ps).
Qed.
Print Assumptions ransac_tip_exact. Print Assumptions ransac_tip_failure_refuted.

(** * C155: which consensus set wins *)
(** the one- and two-range variants stop at the first hypothesis with enough support *)
Theorem ransac_first_qualifying (A H D : Type) (ltb : D -> D -> bool) (threshold : D) (est : H -> list A -> bool * H) (eval : H -> A -> D) (h_init : H)
    (data : list A) (setSize nMin nMax : nat) (sched : nat -> list nat) (r0 : H) n r fl it :
  (Z.of_nat (length data) < 2 ^ 31)%Z -> (forall j, (j < nMax)%nat -> sample A data setSize (sched j) <> None) ->
  ransac A H D ltb threshold est eval h_init data setSize nMin nMax sched r0 = Done n r fl it ->
  forall k h, (S k < it)%nat -> (k < nMax)%nat -> proposes A H est h_init data setSize sched k h -> ~ qualifies A H D ltb threshold eval data nMin h.
Proof.
  intros SZ V E k h LT K P Q. destruct (ransac_early_abort_complete A H D ltb threshold est eval h_init data setSize nMin nMax sched r0 k h SZ V K P Q) as (n' & r' & it' & E' & _ & _ & L).
  rewrite E in E'. injection E' as _ _ _ <-. lia.
Qed.
(** so it is not the best one: one of four numbers wins although the next sample would have found three *)
Theorem ransac_best_refuted :
  let data := [10; 50; 51; 52]%nat in let sched := fun k => match k with O => [0; 1; 2; 3]%nat | _ => [1; 2; 3; 0]%nat end in
  let run := ransac nat nat nat Nat.ltb 3%nat ex_est ex_eval 0%nat data in
  run 1%nat 1%nat 5%nat sched 0%nat = Done 1 10%nat [] 1 /\
  exists h, proposes nat nat ex_est 0%nat data 1 sched 1 h /\ length (consensus nat nat nat Nat.ltb 3%nat ex_eval data h) = 3%nat.
Proof. cbv zeta. split; [vm_compute; reflexivity|]. exists 50%nat. split; [exists [50%nat]; split; reflexivity|]. vm_compute. reflexivity. Qed.
Print Assumptions ransac_first_qualifying. Print Assumptions ransac_best_refuted.

(** The hand-eye calibration of Tsai and Lenz finds the transformation it is asked for (C104), except
    where a half turn is involved (C105). *)
From Coq Require Import Reals Lra Lia Psatz Nsatz List Arith Bool.
Import ListNotations.
From Verif Require Import Mat Quat QuatProofs QuatMatProofs QuatTrigProofs QuatProps Dlt DltProofs AbsOrient AbsOrientProofs AbsOrientProps ToolTipProps TsaiLenz TsaiLenzProofs.
Open Scope R_scope.

(** ** Specification *)
(** what is known of the inversion of matrices *)
Definition inverts (inv : mat -> mat) (ps : list pose) : Prop :=
  forall p, In p ps -> meq 4 4 (mmul 4 (inv (pose_mat p)) (pose_mat p)) eye.
(** the hand seen from the base, the world seen from the eye: base <- hand <- eye <- world is the same for all i *)
Definition hand_eye (hand eyes : list pose) (X : pose) : Prop :=
  exists W : vec3 -> vec3, forall i x, (i < length hand)%nat -> papp (nth i hand pone) (papp X (papp (nth i eyes pone) x)) = W x.
(** pairs of positions of which the motion is used *)
Definition used (n : nat) (all : bool) (i k : nat) : Prop := (i < k < n)%nat /\ (all = false -> k = S i).
(** the rotation of the hand between two positions *)
Definition turn (hand : list pose) (i k : nat) : quat := rot (pmul (pinv (nth k hand pone)) (nth i hand pone)).
(** both least squares problems are solved *)
Definition rot_problem (gels : gels3) (ms : list (mat * mat)) : Prop :=
  let rows := flat_map rot_rows ms in let b := fun i => nth i (flat_map rot_rhs ms) 0 in
  least_squares (length rows) 3 (rows_mat rows) b (gels (length rows) (rows_mat rows) b).
Definition tra_problem (gels : gels3) (ms : list (mat * mat)) : Prop :=
  let rows := flat_map tra_rows ms in let b := fun i => nth i (flat_map (tra_rhs (compute_rcg gels ms)) ms) 0 in
  least_squares (length rows) 3 (rows_mat rows) b (gels (length rows) (rows_mat rows) b).
Definition solves_both (gels : gels3) (inv : mat -> mat) (hand eyes : list pose) (all : bool) : Prop :=
  let ms := motions inv (map pose_mat hand) (map pose_mat eyes) all in rot_problem gels ms /\ tra_problem gels ms.

(** ** Lemmas *)
Lemma inverse_is inv p : rigid p -> meq 4 4 (mmul 4 (inv (pose_mat p)) (pose_mat p)) eye -> meq 4 4 (inv (pose_mat p)) (pose_mat (pinv p)).
Proof.
  intros R H. set (A := inv (pose_mat p)) in *. intros i j Hi Hj. rewrite <- (mmul_eye_r 4 A i j Hj).
  transitivity (mmul 4 A (mmul 4 (pose_mat p) (pose_mat (pinv p))) i j).
  - apply (mmul_ext 4 4 4); try assumption; [intros ? ? ? ?; reflexivity|]. intros a b Ha Hb. symmetry. exact (proj1 (pose_mat_inv p R) a b Ha Hb).
  - rewrite <- mmul_assoc. transitivity (mmul 4 eye (pose_mat (pinv p)) i j).
    + apply (mmul_ext 4 4 4); try assumption. intros ? ? ? ?; reflexivity.
    + apply mmul_eye_l. exact Hi.
Qed.
(** a pair of matrices that describes one motion, as seen by hand and eye *)
Definition motion (X : pose) (gc : mat * mat) (g : pose) : Prop :=
  exists c, rigid g /\ rigid c /\ meq 4 4 (fst gc) (pose_mat g) /\ meq 4 4 (snd gc) (pose_mat c) /\
  qw (rot g) <> 0 /\ forall x, papp g (papp X x) = papp X (papp c x).

Lemma papp_inv_l p x : rigid p -> papp (pinv p) (papp p x) = x.
Proof. intros R. rewrite <- papp_mul by (try apply rigid_inv; exact R). rewrite (pmul_inv_l p R). apply papp_one. Qed.
Lemma papp_inv_r p x : rigid p -> papp p (papp (pinv p) x) = x.
Proof. intros R. rewrite <- papp_mul by (try apply rigid_inv; exact R). rewrite (pmul_inv_r p R). apply papp_one. Qed.

Lemma pairs_iff n all i k : In (i, k) (pairs n all) <-> used n all i k.
Proof.
  unfold pairs, used. rewrite in_flat_map. split.
  - intros (a & Ha & H). apply in_map_iff in H. destruct H as (b & E & Hb). injection E as <- <-. apply in_seq in Ha, Hb. destruct all; split; intros; try discriminate; lia.
  - intros (A & B). exists i. split; [apply in_seq; lia|]. apply in_map_iff. exists k. split; [reflexivity|]. apply in_seq. destruct all; [lia|]. specialize (B eq_refl). lia.
Qed.
Lemma nth_pose l i : (i < length l)%nat -> nth i (map pose_mat l) mzero = pose_mat (nth i l pone).
Proof. intros H. rewrite (nth_indep _ mzero (pose_mat pone)) by (rewrite map_length; exact H). apply map_nth. Qed.

Lemma pair_mats inv hand eyes i k : length eyes = length hand -> (forall p, In p hand -> rigid p) -> (forall p, In p eyes -> rigid p) ->
  inverts inv hand -> inverts inv eyes -> (i < length hand)%nat -> (k < length hand)%nat ->
  meq 4 4 (relative_hand inv (nth i (map pose_mat hand) mzero) (nth k (map pose_mat hand) mzero)) (pose_mat (pmul (pinv (nth k hand pone)) (nth i hand pone))) /\
  meq 4 4 (relative_eye inv (nth i (map pose_mat eyes) mzero) (nth k (map pose_mat eyes) mzero)) (pose_mat (pmul (nth k eyes pone) (pinv (nth i eyes pone)))).
Proof.
  intros L RH RE IH IE Hi Hk. rewrite !nth_pose by (rewrite ?L; assumption).
  assert (Rhi := RH _ (nth_In hand pone Hi)). assert (Rhk := RH _ (nth_In hand pone Hk)).
  assert (Hi' : (i < length eyes)%nat) by (rewrite L; exact Hi). assert (Hk' : (k < length eyes)%nat) by (rewrite L; exact Hk).
  assert (Rei := RE _ (nth_In eyes pone Hi')). assert (Rek := RE _ (nth_In eyes pone Hk')). split.
  - unfold relative_hand. intros a b Ha Hb. rewrite (pose_mat_mul _ _ (rigid_inv _ Rhk) Rhi a b Ha Hb). apply (mmul_ext 4 4 4); try assumption; [apply inverse_is; [exact Rhk|apply IH, nth_In; exact Hk]|intros ? ? ? ?; reflexivity].
  - unfold relative_eye. intros a b Ha Hb. rewrite (pose_mat_mul _ _ Rek (rigid_inv _ Rei) a b Ha Hb). apply (mmul_ext 4 4 4); try assumption; [intros ? ? ? ?; reflexivity|apply inverse_is; [exact Rei|apply IE, nth_In; exact Hi']].
Qed.

Section Data.
Variables (inv : mat -> mat) (hand eyes : list pose) (X : pose) (all : bool).
Hypotheses (L : length eyes = length hand) (RH : forall p, In p hand -> rigid p) (RE : forall p, In p eyes -> rigid p) (RX : rigid X)
  (IH : inverts inv hand) (IE : inverts inv eyes) (HE : hand_eye hand eyes X)
  (NH : forall i k, used (length hand) all i k -> qw (turn hand i k) <> 0).
Let ms := motions inv (map pose_mat hand) (map pose_mat eyes) all.
Lemma motion_pair i k : used (length hand) all i k ->
  motion X (relative_hand inv (nth i (map pose_mat hand) mzero) (nth k (map pose_mat hand) mzero), relative_eye inv (nth i (map pose_mat eyes) mzero) (nth k (map pose_mat eyes) mzero))
    (pmul (pinv (nth k hand pone)) (nth i hand pone)).
Proof.
  intros U. assert (Hi : (i < length hand)%nat) by (destruct U; lia). assert (Hk : (k < length hand)%nat) by (destruct U; lia).
  assert (Rhi := RH _ (nth_In hand pone Hi)). assert (Rhk := RH _ (nth_In hand pone Hk)).
  assert (Hi' : (i < length eyes)%nat) by (rewrite L; exact Hi). assert (Hk' : (k < length eyes)%nat) by (rewrite L; exact Hk).
  assert (Rei := RE _ (nth_In eyes pone Hi')). assert (Rek := RE _ (nth_In eyes pone Hk')).
  exists (pmul (nth k eyes pone) (pinv (nth i eyes pone))).
  split; [apply rigid_mul; [apply rigid_inv|]; assumption|]. split; [apply rigid_mul; [|apply rigid_inv]; assumption|].
  destruct (pair_mats inv hand eyes i k L RH RE IH IE Hi Hk) as [MG MC]. split; [exact MG|]. split; [exact MC|].
  split; [exact (NH i k U)|].
  intros x. destruct HE as (W & HW). rewrite !papp_mul by (try apply rigid_inv; assumption).
  set (y := papp (pinv (nth i eyes pone)) x).
  replace (papp X x) with (papp X (papp (nth i eyes pone) y)) by (unfold y; rewrite papp_inv_r by exact Rei; reflexivity).
  rewrite (HW i y Hi), <- (HW k y Hk). rewrite papp_inv_l by exact Rhk. reflexivity.
Qed.
Lemma motion_at i k : used (length hand) all i k -> exists gc, In gc ms /\ motion X gc (pmul (pinv (nth k hand pone)) (nth i hand pone)).
Proof.
  intros U. eexists. split; [|exact (motion_pair i k U)]. unfold ms, motions. apply in_map_iff. exists (i, k). split; [reflexivity|]. rewrite map_length. apply pairs_iff. exact U.
Qed.
Lemma motion_all gc : In gc ms -> exists g, motion X gc g.
Proof.
  unfold ms, motions. intros H. apply in_map_iff in H. destruct H as ([i k] & E & H). rewrite map_length in H. apply pairs_iff in H.
  eexists. rewrite <- E. exact (motion_pair i k H).
Qed.
End Data.

(** the rotation equations hold for imag / real of the sought rotation *)
Lemma motion_rotation X gc g : rigid X -> qw (rot X) <> 0 -> motion X gc g ->
  exists c, get_quaternion (fst gc) = upper (rot g) /\ get_quaternion (snd gc) = c /\ upper (rot g) = qrot (rot X) c.
Proof.
  intros RX WX (c & RG & RC & MG & MC & WG & H).
  assert (H' : forall x, papp (pmul g X) x = papp (pmul X c) x) by (intros x; rewrite !papp_mul by assumption; apply H).
  destruct (same_motion _ _ H') as [HR _]. destruct (upper_conj (rot X) (rot g) (rot c) RX RG RC WG HR) as [WC E].
  exists (upper (rot c)). split; [|split; [|exact E]]; apply get_quaternion_spec; try assumption; intros i j Hi Hj.
  - rewrite (MG i j) by lia. idx i Hi; idx j Hj; reflexivity.
  - rewrite (MC i j) by lia. idx i Hi; idx j Hj; reflexivity.
Qed.
Lemma mv3_skew u v : mv3 (skew_v u) v = cross3 u v.
Proof. unfold mv3, skew_v, mk33, cross3. f_equal; ring. Qed.
Lemma rot_met X gc g : rigid X -> qw (rot X) <> 0 -> motion X gc g ->
  mv3 (skew_v (vec_add (get_quaternion (fst gc)) (get_quaternion (snd gc)))) (v3scale (/ qw (rot X)) (imv (rot X))) = vec_sub (get_quaternion (snd gc)) (get_quaternion (fst gc)).
Proof.
  intros RX WX M. destruct (motion_rotation X gc g RX WX M) as (c & -> & -> & ->). rewrite mv3_skew. exact (rot_equation (rot X) c RX WX).
Qed.
Lemma upper_cross a b : cross3 (imv a) (imv b) <> v3zero -> cross3 (upper a) (upper b) <> v3zero.
Proof.
  intros H E. apply H. unfold upper in E. destruct (Rlt_dec (qw a) 0), (Rlt_dec (qw b) 0);
  (assert (A := f_equal vx E); assert (B := f_equal vy E); assert (C := f_equal vz E); unfold cross3, v3opp in A, B, C; cbn [vx vy vz v3zero] in A, B, C; apply v3_ext; unfold cross3; cbn [vx vy vz v3zero]; lra).
Qed.
Lemma rot_unique X gc g gc' g' d : rigid X -> qw (rot X) <> 0 -> motion X gc g -> motion X gc' g' -> cross3 (imv (rot g)) (imv (rot g')) <> v3zero ->
  mv3 (skew_v (vec_add (get_quaternion (fst gc)) (get_quaternion (snd gc)))) d = v3zero ->
  mv3 (skew_v (vec_add (get_quaternion (fst gc')) (get_quaternion (snd gc')))) d = v3zero -> d = v3zero.
Proof.
  intros RX WX M M' N. destruct (motion_rotation X gc g RX WX M) as (c & -> & -> & E). destruct (motion_rotation X gc' g' RX WX M') as (c' & -> & -> & E').
  rewrite !mv3_skew. apply upper_cross in N. rewrite E, E' in *. intros A B. apply (common_direction_turned (rot X) c c' d RX WX); [|exact A|exact B].
  intros Z. apply N. rewrite <- qrot_cross by exact RX. rewrite Z. unfold qrot, v3zero. cbn. f_equal; ring.
Qed.
(** the translation equations *)
Lemma tra_met X gc g rcg : rigid X -> motion X gc g -> meq 3 3 rcg (qmat (rot X)) ->
  mv3 (msub (fst gc) eye) (tra X) = vec_sub (mv3 rcg (column3 (snd gc))) (column3 (fst gc)).
Proof.
  intros RX (c & RG & RC & MG & MC & WG & H) MR. assert (Z := H v3zero).
  assert (QZ : forall r, qrot r v3zero = v3zero) by (intros r; d4; un; f_equal; ring). unfold papp in Z. rewrite !QZ in Z.
  replace (v3add v3zero (tra X)) with (tra X) in Z by (destruct (tra X); unfold v3add, v3zero; cbn; f_equal; ring).
  replace (v3add v3zero (tra c)) with (tra c) in Z by (destruct (tra c); unfold v3add, v3zero; cbn; f_equal; ring).
  rewrite (qrot_mat _ _ RG), (qrot_mat _ _ RX) in Z.
  assert (Z0 := f_equal vx Z). assert (Z1 := f_equal vy Z). assert (Z2 := f_equal vz Z). unfold v3add, mv3 in Z0, Z1, Z2. cbn [vx vy vz] in Z0, Z1, Z2.
  unfold mv3, vec_sub, column3, msub, eye. cbn [vx vy vz Nat.eqb].
  rewrite !MG, !MC, !MR by lia. unfold pose_mat. f_equal; lra.
Qed.
Lemma tra_unique X gc g gc' g' d : motion X gc g -> motion X gc' g' -> cross3 (imv (rot g)) (imv (rot g')) <> v3zero ->
  mv3 (msub (fst gc) eye) d = v3zero -> mv3 (msub (fst gc') eye) d = v3zero -> d = v3zero.
Proof.
  assert (A : forall gc g, motion X gc g -> mv3 (msub (fst gc) eye) d = v3zero -> cross3 (imv (rot g)) d = v3zero).
  { clear. intros gc g (c & RG & RC & MG & MC & WG & H) Z. apply (scale_zero 2); [lra|]. apply fixed_axis; [exact RG|].
    rewrite <- Z, (qrot_mat _ _ RG). unfold mv3, v3sub, v3add, v3opp, msub, eye. cbn [vx vy vz Nat.eqb]. rewrite !MG by lia. unfold pose_mat. f_equal; ring. }
  intros M M' N Z Z'. apply (common_direction _ _ d N); eapply A; eassumption.
Qed.

(** ** Exact data yield the exact transformation *)
Lemma rotation_ext m q : unit q -> meq 3 3 m (qmat q) -> rotation m.
Proof.
  intros U M. destruct (qmat_rotation q U) as (A & B & C). split; [|split].
  - intros i j Hi Hj. rewrite <- (A i j Hi Hj). apply (mmul_ext 3 3 3); try assumption. intros a b Ha Hb. unfold tr. apply M; assumption.
  - intros i j Hi Hj. rewrite <- (B i j Hi Hj). apply (mmul_ext 3 3 3); try assumption. intros a b Ha Hb. unfold tr. apply M; assumption.
  - rewrite <- C. unfold det33. rewrite !M by lia. reflexivity.
Qed.
Lemma three_poses gels inv hand eyes all : length eyes = length hand -> (3 <= length hand)%nat ->
  tsai_lenz_poses inv gels hand eyes all =
    let ms := motions inv (map pose_mat hand) (map pose_mat eyes) all in
    match quat_of_mat (compute_rcg gels ms) with
    | None => Some None | Some q => Some (Some (P q (compute_tcg gels ms (compute_rcg gels ms)))) end.
Proof.
  intros L N. unfold tsai_lenz_poses, tsai_lenz. rewrite !map_length, L, Nat.eqb_refl. cbn [negb]. destruct (Nat.leb_spec (length hand) 2); [lia|reflexivity].
Qed.
Theorem tsai_lenz_exact inv gels hand eyes X all : length eyes = length hand -> (3 <= length hand)%nat ->
  (forall p, In p hand -> rigid p) -> (forall p, In p eyes -> rigid p) -> rigid X -> qw (rot X) <> 0 ->
  inverts inv hand -> inverts inv eyes -> hand_eye hand eyes X ->
  (forall i k, used (length hand) all i k -> qw (turn hand i k) <> 0) ->
  (exists i k i' k', used (length hand) all i k /\ used (length hand) all i' k' /\ cross3 (imv (turn hand i k)) (imv (turn hand i' k')) <> v3zero) ->
  solves_both gels inv hand eyes all ->
  exists p, tsai_lenz_poses inv gels hand eyes all = Some (Some p) /\ rigid p /\ forall x, papp p x = papp X x.
Proof.
  intros L N RH RE RX WX IH IE HE NH (i & k & i' & k' & U & U' & NP) (LR & LT).
  rewrite (three_poses gels inv hand eyes all L N). cbv zeta. set (ms := motions inv (map pose_mat hand) (map pose_mat eyes) all) in *.
  destruct (motion_at inv hand eyes X all L RH RE IH IE HE NH i k U) as (gc & I & M). destruct (motion_at inv hand eyes X all L RH RE IH IE HE NH i' k' U') as (gc' & I' & M'). fold ms in I, I'.
  assert (A := motion_all inv hand eyes X all L RH RE IH IE HE NH). fold ms in A.
  assert (SR : solve3 gels (flat_map rot_rows ms) (flat_map rot_rhs ms) = v3scale (/ qw (rot X)) (imv (rot X))).
  { apply (block_solution gels (fun a => skew_v (vec_add (get_quaternion (fst a)) (get_quaternion (snd a)))) (fun a => vec_sub (get_quaternion (snd a)) (get_quaternion (fst a))) ms); [exact LR| |].
    - intros a Ha. destruct (A a Ha) as (g & Mg). exact (rot_met X a g RX WX Mg).
    - intros d Hd. exact (rot_unique X _ _ _ _ d RX WX M M' NP (Hd gc I) (Hd gc' I')). }
  assert (MR : meq 3 3 (compute_rcg gels ms) (qmat (rot X))) by (unfold compute_rcg; rewrite SR; apply get_rcg_spec; assumption).
  assert (ST : compute_tcg gels ms (compute_rcg gels ms) = tra X).
  { unfold compute_tcg. apply (block_solution gels (fun a => msub (fst a) eye) (fun a => vec_sub (mv3 (compute_rcg gels ms) (column3 (snd a))) (column3 (fst a))) ms); [exact LT| |].
    - intros a Ha. destruct (A a Ha) as (g & Mg). exact (tra_met X a g _ RX Mg MR).
    - intros d Hd. exact (tra_unique X _ _ _ _ d M M' NP (Hd gc I) (Hd gc' I')). }
  destruct (quat_of_mat_rotation _ (rotation_ext _ _ RX MR)) as (q & EQ & UQ & MQ). rewrite EQ, ST. eexists. split; [reflexivity|]. split; [exact UQ|].
  intros x. unfold papp. cbn [rot tra]. f_equal. rewrite !qrot_mat by (exact UQ || exact RX). unfold mv3. rewrite !MQ, !MR by lia. reflexivity.
Qed.

(** an inversion that does what it should, for the cases below *)
Definition rigid_inverse (m : mat) : mat := fun i j =>
  match i, j with
  | 3%nat, 3%nat => 1 | 3%nat, _ => 0
  | _, 3%nat => - (m 0%nat i * m 0%nat 3%nat + m 1%nat i * m 1%nat 3%nat + m 2%nat i * m 2%nat 3%nat)
  | _, _ => m j i
  end.
Lemma rigid_inverse_inverts ps : (forall p, In p ps -> rigid p) -> inverts rigid_inverse ps.
Proof.
  intros RP p Hp. specialize (RP p Hp). destruct p as [[a b c d] [x y z]]. unfold rigid, unit, qnorm in RP. cbn [rot qx qy qz qw] in RP. clear Hp.
  intros i j Hi Hj. unfold mmul, rigid_inverse, pose_mat, eye, qmat, mk33. cbn [sum rot tra qx qy qz qw vx vy vz].
  idx i Hi; idx j Hj; cbn -[Rplus Rmult Rminus Ropp IZR]; nsatz.
Qed.
(** eyes that see what they should *)
Definition eyes_for (X : pose) (hand : list pose) : list pose := map (fun h => pmul (pinv X) (pmul (pinv h) X)) hand.
Lemma eyes_for_rigid X hand : rigid X -> (forall p, In p hand -> rigid p) -> forall p, In p (eyes_for X hand) -> rigid p.
Proof. intros RX RH p Hp. apply in_map_iff in Hp. destruct Hp as (h & <- & Hh). apply rigid_mul; [apply rigid_inv; exact RX|]. apply rigid_mul; [apply rigid_inv; apply RH; exact Hh|exact RX]. Qed.
Lemma eyes_for_sees X hand : rigid X -> (forall p, In p hand -> rigid p) -> hand_eye hand (eyes_for X hand) X.
Proof.
  intros RX RH. exists (papp X). intros i x Hi. assert (R := RH _ (nth_In hand pone Hi)).
  unfold eyes_for. rewrite (nth_indep (map (fun h => pmul (pinv X) (pmul (pinv h) X)) hand) pone (pmul (pinv X) (pmul (pinv pone) X))) by (rewrite map_length; exact Hi).
  rewrite (map_nth (fun h => pmul (pinv X) (pmul (pinv h) X)) hand pone i).
  rewrite !papp_mul by (repeat (apply rigid_mul || apply rigid_inv); assumption). rewrite papp_inv_r by exact RX. apply papp_inv_r. exact R.
Qed.
Definition ex_X : pose := P (Q 0 0 (3/5) (4/5)) (V3 1 2 3).
Definition ex_hand : list pose := [P qone (V3 5 0 1); P (Q 0 (3/5) 0 (4/5)) (V3 1 1 0); P (Q (3/5) 0 0 (4/5)) (V3 0 2 7)].
Definition ex_gels : gels3 := fun _ A _ => if Req_EM_T (A 0%nat 0%nat) 0 then vlist [0; 0; 3/4] else vlist [1; 2; 3].
Example tsai_lenz_case : let eyes := eyes_for ex_X ex_hand in
  (forall p, In p ex_hand -> rigid p) /\ (forall p, In p eyes -> rigid p) /\ rigid ex_X /\ qw (rot ex_X) <> 0 /\
  inverts rigid_inverse ex_hand /\ inverts rigid_inverse eyes /\ hand_eye ex_hand eyes ex_X /\
  (forall i k, used 3 false i k -> qw (turn ex_hand i k) <> 0) /\
  (exists i k i' k', used 3 false i k /\ used 3 false i' k' /\ cross3 (imv (turn ex_hand i k)) (imv (turn ex_hand i' k')) <> v3zero) /\
  solves_both ex_gels rigid_inverse ex_hand eyes false.
Proof.
  assert (RH : forall p, In p ex_hand -> rigid p) by (intros p [<-|[<-|[<-|[]]]]; unfold rigid, unit, qnorm, qone; cbn [rot qx qy qz qw]; lra).
  assert (RX : rigid ex_X) by (unfold rigid, unit, qnorm, ex_X; cbn [rot qx qy qz qw]; lra).
  assert (WX : qw (rot ex_X) <> 0) by (cbn; lra).
  assert (RE := eyes_for_rigid ex_X ex_hand RX RH). cbv zeta.
  assert (NH : forall i k, used 3 false i k -> qw (turn ex_hand i k) <> 0).
  { intros i k [A B]. specialize (B eq_refl). assert (C : i = 0%nat \/ i = 1%nat) by lia. destruct C as [-> | ->]; subst k; unfold turn, ex_hand, qone; cbn [nth]; un; un; intros EE; lra. }
  assert (IH := rigid_inverse_inverts ex_hand RH). assert (IE := rigid_inverse_inverts _ RE). assert (HE := eyes_for_sees ex_X ex_hand RX RH).
  repeat (split; [first [exact RH|exact RE|exact RX|exact WX|exact IH|exact IE|exact HE|exact NH]|]).
  split.
  { exists 0%nat, 1%nat, 1%nat, 2%nat. split; [split; [lia|reflexivity]|]. split; [split; [lia|reflexivity]|]. intros E. assert (Z := f_equal vx E). unfold turn, ex_hand, imv, qone in Z. cbn [nth] in Z. un. un. lra. }
  unfold solves_both. cbv zeta. set (ms := motions rigid_inverse (map pose_mat ex_hand) (map pose_mat (eyes_for ex_X ex_hand)) false).
  assert (A : forall gc, In gc ms -> exists g, motion ex_X gc g) by (exact (motion_all rigid_inverse ex_hand (eyes_for ex_X ex_hand) ex_X false eq_refl RH RE IH IE HE NH)).
  assert (P0 : forall (l : list (mat * mat)) f, 0 <= lsum (fun a => sq3 (f a)) l) by (intros; apply lsum_nonneg; intros; apply sq3_nonneg).
  assert (GR : ex_gels (length (flat_map rot_rows ms)) (rows_mat (flat_map rot_rows ms)) (fun i => nth i (flat_map rot_rhs ms) 0) = vlist [0; 0; 3/4]).
  { unfold ex_gels. destruct (Req_EM_T _ 0) as [_|N]; [reflexivity|]. exfalso. apply N. unfold ms, motions. cbn -[pose_mat relative_hand relative_eye get_quaternion]. reflexivity. }
  assert (R0 : solve3 ex_gels (flat_map rot_rows ms) (flat_map rot_rhs ms) = v3scale (/ qw (rot ex_X)) (imv (rot ex_X))).
  { unfold solve3. rewrite GR. unfold vlist, v3scale, imv, ex_X. cbn [nth rot qx qy qz qw vx vy vz]. f_equal; lra. }
  split.
  - intros x. rewrite GR. eapply Rle_trans; [right|].
    + exact (block_residual (fun a => skew_v (vec_add (get_quaternion (fst a)) (get_quaternion (snd a)))) (fun a => vec_sub (get_quaternion (snd a)) (get_quaternion (fst a))) ms (vlist [0; 0; 3/4])).
    + rewrite (lsum_ext _ (fun _ => 0)).
      * rewrite lsum_const, Rmult_0_r. apply sum_nonneg. intros i Hi. apply Rle_0_sqr.
      * intros a Ha. destruct (A a Ha) as (g & Mg). replace (vec_of (vlist [0; 0; 3/4])) with (v3scale (/ qw (rot ex_X)) (imv (rot ex_X))).
        -- rewrite (rot_met ex_X a g RX WX Mg). unfold sq3, dot3, v3sub, v3add, v3opp. cbn [vx vy vz]. ring.
        -- unfold vec_of, vlist, v3scale, imv, ex_X. cbn [nth rot qx qy qz qw vx vy vz]. f_equal; lra.
  - assert (MR : meq 3 3 (compute_rcg ex_gels ms) (qmat (rot ex_X))) by (unfold compute_rcg; rewrite R0; apply get_rcg_spec; assumption).
    set (rcg := compute_rcg ex_gels ms) in *.
    assert (GT : ex_gels (length (flat_map tra_rows ms)) (rows_mat (flat_map tra_rows ms)) (fun i => nth i (flat_map (tra_rhs rcg) ms) 0) = vlist [1; 2; 3]).
    { unfold ex_gels. destruct (Req_EM_T _ 0) as [E|_]; [exfalso|reflexivity].
      assert (Z : rows_mat (flat_map tra_rows ms) 0%nat 0%nat = relative_hand rigid_inverse (nth 0 (map pose_mat ex_hand) mzero) (nth 1 (map pose_mat ex_hand) mzero) 0%nat 0%nat - 1) by reflexivity.
      rewrite Z in E. destruct (pair_mats rigid_inverse ex_hand (eyes_for ex_X ex_hand) 0 1 eq_refl RH RE IH IE) as [MG _]; [cbn; lia|cbn; lia|].
      rewrite MG in E by lia. unfold ex_hand, qone in E. cbn [nth] in E. unfold pose_mat in E. un. un. lra. }
    unfold tra_problem. cbv zeta. fold rcg. rewrite GT. intros x. eapply Rle_trans; [right|].
    + exact (block_residual (fun a => msub (fst a) eye) (fun a => vec_sub (mv3 rcg (column3 (snd a))) (column3 (fst a))) ms (vlist [1; 2; 3])).
    + rewrite (lsum_ext _ (fun _ => 0)).
      * rewrite lsum_const, Rmult_0_r. apply sum_nonneg. intros i Hi. apply Rle_0_sqr.
      * intros a Ha. destruct (A a Ha) as (g & Mg). change (vec_of (vlist [1; 2; 3])) with (tra ex_X). rewrite (tra_met ex_X a g rcg RX Mg MR). unfold sq3, dot3, v3sub, v3add, v3opp. cbn [vx vy vz]. ring.
Qed.
Print Assumptions tsai_lenz_exact.

(** ** Half turns *)
(** what is returned turns by less than half a turn *)
Theorem tsai_lenz_less_than_half inv gels hand eyes all : length eyes = length hand ->
  exists p q, tsai_lenz_poses inv gels hand eyes all = Some (Some p) /\ rigid p /\ unit q /\ 0 < qw q /\ forall x, qrot (rot p) x = qrot q x.
Proof.
  intros L. destruct (le_lt_dec (length hand) 2) as [H|H].
  - exists pone, qone. split; [|split; [exact unit_one|split; [exact unit_one|split; [cbn; lra|reflexivity]]]].
    unfold tsai_lenz_poses, tsai_lenz. rewrite !map_length, L, Nat.eqb_refl. cbn [negb]. destruct (Nat.leb_spec (length hand) 2); [reflexivity|lia].
  - rewrite (three_poses gels inv hand eyes all L H). cbv zeta. set (ms := motions _ _ _ _). unfold compute_rcg at 1. set (p' := solve3 _ _ _).
    destruct (get_rcg_upper p') as (q & U & W & M). destruct (quat_of_mat_rotation _ (rotation_ext _ _ U M)) as (r & ER & UR & MR). rewrite ER.
    eexists. exists q. split; [reflexivity|]. split; [exact UR|]. split; [exact U|]. split; [exact W|]. intros x. cbn [rot]. rewrite !qrot_mat by assumption. unfold mv3. rewrite !MR, !M by lia. reflexivity.
Qed.
(** so a half turn between hand and eye is never found, whatever the data *)
Theorem tsai_half_turn_never_found inv gels hand eyes all X p : rigid X -> qw (rot X) = 0 ->
  tsai_lenz_poses inv gels hand eyes all = Some (Some p) -> exists x, papp p x <> papp X x.
Proof.
  intros RX WX E. assert (L : length eyes = length hand).
  { unfold tsai_lenz_poses, tsai_lenz in E. rewrite !map_length in E. destruct (Nat.eqb_spec (length eyes) (length hand)); [assumption|discriminate]. }
  destruct (tsai_lenz_less_than_half inv gels hand eyes all L) as (p' & q & E' & RP & U & W & H). assert (p' = p) by congruence. subst p'.
  assert (D : ~ forall x, papp p x = papp X x).
  { intros A. destruct (same_motion _ _ A) as [B _].
    destruct (qmat_inj q (rot X) U RX (qrot_same_mat _ _ U RX (fun x => eq_trans (eq_sym (H x)) (B x)))) as [F|F]; rewrite F in W; unfold qopp in W; cbn [qw] in W; lra. }
  (* a point that is moved differently: one of four *)
  destruct (v3_eq_dec_zero (v3sub (papp p v3zero) (papp X v3zero))) as [Z0|N0]; [|exists v3zero; intros F; apply N0; rewrite F; unfold v3sub, v3add, v3opp, v3zero; cbn; f_equal; ring].
  destruct (v3_eq_dec_zero (v3sub (papp p (V3 1 0 0)) (papp X (V3 1 0 0)))) as [Z1|N1]; [|exists (V3 1 0 0); intros F; apply N1; rewrite F; unfold v3sub, v3add, v3opp, v3zero; cbn; f_equal; ring].
  destruct (v3_eq_dec_zero (v3sub (papp p (V3 0 1 0)) (papp X (V3 0 1 0)))) as [Z2|N2]; [|exists (V3 0 1 0); intros F; apply N2; rewrite F; unfold v3sub, v3add, v3opp, v3zero; cbn; f_equal; ring].
  destruct (v3_eq_dec_zero (v3sub (papp p (V3 0 0 1)) (papp X (V3 0 0 1)))) as [Z3|N3]; [|exists (V3 0 0 1); intros F; apply N3; rewrite F; unfold v3sub, v3add, v3opp, v3zero; cbn; f_equal; ring].
  exfalso. apply D. intros x. apply v3_ext_sub in Z0, Z1, Z2, Z3. unfold papp in *.
  assert (LIN : forall r, qrot r x = v3add (v3scale (vx x) (qrot r (V3 1 0 0))) (v3add (v3scale (vy x) (qrot r (V3 0 1 0))) (v3scale (vz x) (qrot r (V3 0 0 1))))) by (intros r; destruct x, r; un; f_equal; ring).
  assert (QZ : forall r, qrot r v3zero = v3zero) by (intros r; d4; un; f_equal; ring). rewrite !QZ in Z0.
  rewrite (LIN (rot p)), (LIN (rot X)). set (a1 := qrot (rot p) (V3 1 0 0)) in *. set (a2 := qrot (rot p) (V3 0 1 0)) in *. set (a3 := qrot (rot p) (V3 0 0 1)) in *. set (b1 := qrot (rot X) (V3 1 0 0)) in *. set (b2 := qrot (rot X) (V3 0 1 0)) in *. set (b3 := qrot (rot X) (V3 0 0 1)) in *.
  clearbody a1 a2 a3 b1 b2 b3. destruct (tra p) as [t0 t1 t2], (tra X) as [u0 u1 u2]. unfold v3add, v3zero in *. cbn [vx vy vz] in *.
  assert (T0 := f_equal vx Z0). assert (T1 := f_equal vy Z0). assert (T2 := f_equal vz Z0). cbn [vx vy vz] in T0, T1, T2. assert (t0 = u0) by lra. assert (t1 = u1) by lra. assert (t2 = u2) by lra. subst.
  assert (A1 : a1 = b1) by (apply v3_ext; [assert (F := f_equal vx Z1)|assert (F := f_equal vy Z1)|assert (F := f_equal vz Z1)]; cbn [vx vy vz] in F; lra).
  assert (A2 : a2 = b2) by (apply v3_ext; [assert (F := f_equal vx Z2)|assert (F := f_equal vy Z2)|assert (F := f_equal vz Z2)]; cbn [vx vy vz] in F; lra).
  assert (A3 : a3 = b3) by (apply v3_ext; [assert (F := f_equal vx Z3)|assert (F := f_equal vy Z3)|assert (F := f_equal vz Z3)]; cbn [vx vy vz] in F; lra).
  rewrite A1, A2, A3. reflexivity.
Qed.
(** two positions: the identity is returned, whatever the poses *)
Theorem tsai_lenz_two_positions inv gels hand eyes all : length eyes = length hand -> (length hand <= 2)%nat -> tsai_lenz_poses inv gels hand eyes all = Some (Some pone).
Proof. intros L H. unfold tsai_lenz_poses, tsai_lenz. rewrite !map_length, L, Nat.eqb_refl. cbn [negb]. destruct (Nat.leb_spec (length hand) 2); [reflexivity|lia]. Qed.
Theorem tsai_lenz_throws inv gels hand eyes all : tsai_lenz_poses inv gels hand eyes all = None <-> length eyes <> length hand.
Proof.
  unfold tsai_lenz_poses, tsai_lenz. rewrite !map_length. destruct (Nat.eqb_spec (length eyes) (length hand)) as [E|E]; cbn [negb]; [|tauto].
  split; [|tauto]. destruct (length eyes <=? 2)%nat; [discriminate|]. cbv zeta. destruct (quat_of_mat _); discriminate.
Qed.
(** Half turns of the hand are as bad: the axis of a half turn is known but for its sign, and the signs
    chosen for hand and eye need not agree. *)
Lemma gq_facts m x y z : x * x + y * y + z * z = 1 -> meq 3 3 m (qmat (Q x y z 0)) ->
  gq_q m 0 = 0 /\ gq_q m 1 = x * x /\ gq_q m 2 = y * y /\ gq_q m 3 = z * z /\
  (m 2%nat 1%nat - m 1%nat 2%nat) / 4 = 0 /\ (m 0%nat 2%nat - m 2%nat 0%nat) / 4 = 0 /\ (m 1%nat 0%nat - m 0%nat 1%nat) / 4 = 0 /\
  (m 1%nat 0%nat + m 0%nat 1%nat) / 4 = x * y /\ (m 0%nat 2%nat + m 2%nat 0%nat) / 4 = x * z /\ (m 2%nat 1%nat + m 1%nat 2%nat) / 4 = y * z.
Proof. intros U M. unfold gq_q. rewrite !M by lia. unfold qmat, mk33. cbn [qx qy qz qw]. repeat split; lra. Qed.
Lemma get_quaternion_x m x y z : x * x + y * y + z * z = 1 -> 0 < x -> y * y <= x * x -> z * z <= x * x -> meq 3 3 m (qmat (Q x y z 0)) -> get_quaternion m = V3 x y z.
Proof.
  intros U P A B M. destruct (gq_facts m x y z U M) as (Q0 & Q1 & Q2 & Q3 & O0 & O1 & O2 & O3 & O4 & O5).
  assert (C : gq_largest (gq_q m) = 1%nat). { unfold gq_largest. rewrite Q0, Q1. destruct (Rlt_dec 0 (x * x)); [|nra]. rewrite Q1, Q2. destruct (Rlt_dec (x * x) (y * y)); [lra|]. rewrite Q1, Q3. destruct (Rlt_dec (x * x) (z * z)); [lra|reflexivity]. }
  unfold get_quaternion. cbv zeta. rewrite O0, O1, O2, O3, O4, O5, C, Q1, sqrt_square by lra. replace (0 / x) with 0 by (field; lra). destruct (Rlt_dec 0 0); [lra|]. f_equal; field; lra.
Qed.
Lemma get_quaternion_y m x y z : x * x + y * y + z * z = 1 -> 0 < y -> x * x < y * y -> z * z <= y * y -> meq 3 3 m (qmat (Q x y z 0)) -> get_quaternion m = V3 x y z.
Proof.
  intros U P A B M. destruct (gq_facts m x y z U M) as (Q0 & Q1 & Q2 & Q3 & O0 & O1 & O2 & O3 & O4 & O5).
  assert (C : gq_largest (gq_q m) = 2%nat). { unfold gq_largest. rewrite Q0, Q1. destruct (Rlt_dec 0 (x * x)); rewrite ?Q1, ?Q0, Q2; [destruct (Rlt_dec (x * x) (y * y)); [|lra]|destruct (Rlt_dec 0 (y * y)); [|nra]]; rewrite Q2, Q3; (destruct (Rlt_dec (y * y) (z * z)); [lra|reflexivity]). }
  unfold get_quaternion. cbv zeta. rewrite O0, O1, O2, O3, O4, O5, C, Q2, sqrt_square by lra. replace (0 / y) with 0 by (field; lra). destruct (Rlt_dec 0 0); [lra|]. f_equal; field; lra.
Qed.
Lemma get_quaternion_z m : meq 3 3 m (qmat (Q 0 0 1 0)) -> get_quaternion m = V3 0 0 1.
Proof.
  intros M. assert (U : 0 * 0 + 0 * 0 + 1 * 1 = 1) by ring. destruct (gq_facts m 0 0 1 U M) as (Q0 & Q1 & Q2 & Q3 & O0 & O1 & O2 & O3 & O4 & O5).
  assert (C : gq_largest (gq_q m) = 3%nat). { unfold gq_largest. rewrite Q0, Q1, Rmult_0_l. destruct (Rlt_dec 0 0); [lra|]. rewrite Q0, Q2, Rmult_0_l. destruct (Rlt_dec 0 0); [lra|]. rewrite Q0, Q3. destruct (Rlt_dec 0 (1 * 1)); [reflexivity|lra]. }
  unfold get_quaternion. cbv zeta. rewrite O0, O1, O2, O3, O4, O5, C, Q3, sqrt_square by lra. replace (0 / 1) with 0 by field. destruct (Rlt_dec 0 0); [lra|]. f_equal; field.
Qed.
Definition ht_X : pose := P (Q 0 0 (4/5) (3/5)) v3zero.
Definition ht_hand : list pose := [pone; P (Q 1 0 0 0) v3zero; P (Q 0 1 0 0) v3zero].
Definition ht_eyes : list pose := [pone; P (Q (7/25) (24/25) 0 0) v3zero; P (Q (24/25) (-7/25) 0 0) v3zero].
Definition ht_gels : gels3 := fun _ _ _ _ => 0.
Theorem tsai_half_turn_motion_refuted :
  length ht_eyes = length ht_hand /\ (3 <= length ht_hand)%nat /\
  (forall p, In p ht_hand -> rigid p) /\ (forall p, In p ht_eyes -> rigid p) /\ rigid ht_X /\ qw (rot ht_X) <> 0 /\
  inverts rigid_inverse ht_hand /\ inverts rigid_inverse ht_eyes /\ hand_eye ht_hand ht_eyes ht_X /\
  (exists i k i' k', used (length ht_hand) true i k /\ used (length ht_hand) true i' k' /\ cross3 (imv (turn ht_hand i k)) (imv (turn ht_hand i' k')) <> v3zero) /\
  solves_both ht_gels rigid_inverse ht_hand ht_eyes true /\
  exists p, tsai_lenz_poses rigid_inverse ht_gels ht_hand ht_eyes true = Some (Some p) /\ (forall x, papp p x = x) /\ exists x, papp p x <> papp ht_X x.
Proof.
  assert (RH : forall p, In p ht_hand -> rigid p) by (intros p [<-|[<-|[<-|[]]]]; unfold rigid, unit, qnorm, pone, qone; cbn [rot qx qy qz qw]; lra).
  assert (RE : forall p, In p ht_eyes -> rigid p) by (intros p [<-|[<-|[<-|[]]]]; unfold rigid, unit, qnorm, pone, qone; cbn [rot qx qy qz qw]; lra).
  assert (RX : rigid ht_X) by (unfold rigid, unit, qnorm, ht_X; cbn [rot qx qy qz qw]; lra).
  assert (IH := rigid_inverse_inverts ht_hand RH). assert (IE := rigid_inverse_inverts ht_eyes RE).
  split; [reflexivity|]. split; [cbn; lia|]. split; [exact RH|]. split; [exact RE|]. split; [exact RX|]. split; [cbn; lra|]. split; [exact IH|]. split; [exact IE|]. split.
  { exists (papp ht_X). intros i x Hi. assert (C : i = 0%nat \/ i = 1%nat \/ i = 2%nat) by (cbn in Hi; lia). destruct x as [a b c].
    destruct C as [-> |[-> | ->]]; unfold ht_hand, ht_eyes, ht_X, pone, qone; cbn [nth]; un; un; f_equal; lra. }
  split.
  { exists 0%nat, 1%nat, 0%nat, 2%nat. split; [split; [cbn; lia|discriminate]|]. split; [split; [cbn; lia|discriminate]|]. intros E. assert (Z := f_equal vz E). unfold turn, ht_hand, imv, pone, qone in Z. cbn [nth] in Z. un. un. lra. }
  set (ms := motions rigid_inverse (map pose_mat ht_hand) (map pose_mat ht_eyes) true).
  assert (PM := fun i k => pair_mats rigid_inverse ht_hand ht_eyes i k eq_refl RH RE IH IE).
  destruct (PM 0%nat 1%nat ltac:(cbn; lia) ltac:(cbn; lia)) as [G01 C01]. destruct (PM 0%nat 2%nat ltac:(cbn; lia) ltac:(cbn; lia)) as [G02 C02]. destruct (PM 1%nat 2%nat ltac:(cbn; lia) ltac:(cbn; lia)) as [G12 C12].
  set (rh := fun i k => relative_hand rigid_inverse (nth i (map pose_mat ht_hand) mzero) (nth k (map pose_mat ht_hand) mzero)) in *.
  set (re := fun i k => relative_eye rigid_inverse (nth i (map pose_mat ht_eyes) mzero) (nth k (map pose_mat ht_eyes) mzero)) in *.
  assert (EM : ms = [(rh 0%nat 1%nat, re 0%nat 1%nat); (rh 0%nat 2%nat, re 0%nat 2%nat); (rh 1%nat 2%nat, re 1%nat 2%nat)]) by reflexivity.
  change (meq 4 4 (rh 0%nat 1%nat) (pose_mat (pmul (pinv (nth 1 ht_hand pone)) (nth 0 ht_hand pone)))) in G01. change (meq 4 4 (rh 0%nat 2%nat) (pose_mat (pmul (pinv (nth 2 ht_hand pone)) (nth 0 ht_hand pone)))) in G02. change (meq 4 4 (rh 1%nat 2%nat) (pose_mat (pmul (pinv (nth 2 ht_hand pone)) (nth 1 ht_hand pone)))) in G12.
  change (meq 4 4 (re 0%nat 1%nat) (pose_mat (pmul (nth 1 ht_eyes pone) (pinv (nth 0 ht_eyes pone))))) in C01. change (meq 4 4 (re 0%nat 2%nat) (pose_mat (pmul (nth 2 ht_eyes pone) (pinv (nth 0 ht_eyes pone))))) in C02. change (meq 4 4 (re 1%nat 2%nat) (pose_mat (pmul (nth 2 ht_eyes pone) (pinv (nth 1 ht_eyes pone))))) in C12.
  clearbody rh re. unfold ht_hand, ht_eyes in G01, G02, G12, C01, C02, C12. cbn [nth] in G01, G02, G12, C01, C02, C12.
  assert (g01 : get_quaternion (rh 0%nat 1%nat) = V3 1 0 0). { apply get_quaternion_x; try lra. intros i j Hi Hj. rewrite G01 by lia. idx i Hi; idx j Hj; cbn; lra. }
  assert (g02 : get_quaternion (rh 0%nat 2%nat) = V3 0 1 0). { apply get_quaternion_y; try lra. intros i j Hi Hj. rewrite G02 by lia. idx i Hi; idx j Hj; cbn; lra. }
  assert (g12 : get_quaternion (rh 1%nat 2%nat) = V3 0 0 1). { apply get_quaternion_z. intros i j Hi Hj. rewrite G12 by lia. idx i Hi; idx j Hj; cbn; lra. }
  assert (c01 : get_quaternion (re 0%nat 1%nat) = V3 (7/25) (24/25) 0). { apply get_quaternion_y; try lra. intros i j Hi Hj. rewrite C01 by lia. idx i Hi; idx j Hj; cbn; lra. }
  assert (c02 : get_quaternion (re 0%nat 2%nat) = V3 (24/25) (-7/25) 0). { apply get_quaternion_x; try lra. intros i j Hi Hj. rewrite C02 by lia. idx i Hi; idx j Hj; cbn; lra. }
  assert (c12 : get_quaternion (re 1%nat 2%nat) = V3 0 0 1). { apply get_quaternion_z. intros i j Hi Hj. rewrite C12 by lia. idx i Hi; idx j Hj; cbn; lra. }
  assert (S0 : forall rows b, solve3 ht_gels rows b = v3zero) by reflexivity.
  assert (MR : meq 3 3 (compute_rcg ht_gels ms) (qmat qone)). { unfold compute_rcg. rewrite S0. assert (H := get_rcg_spec qone unit_one ltac:(cbn; lra)). replace (v3scale (/ qw qone) (imv qone)) with v3zero in H by (unfold v3scale, imv, qone, v3zero; cbn; f_equal; ring). exact H. }
  split.
  - split; fold ms.
    + intros x. unfold rot_problem. cbv zeta.
      eapply Rle_trans; [right; exact (block_residual (fun a => skew_v (vec_add (get_quaternion (fst a)) (get_quaternion (snd a)))) (fun a => vec_sub (get_quaternion (snd a)) (get_quaternion (fst a))) ms _)|].
      eapply Rle_trans; [|right; symmetry; exact (block_residual (fun a => skew_v (vec_add (get_quaternion (fst a)) (get_quaternion (snd a)))) (fun a => vec_sub (get_quaternion (snd a)) (get_quaternion (fst a))) ms x)].
      rewrite EM. unfold lsum. cbn [fold_right fst snd]. rewrite g01, g02, g12, c01, c02, c12. rewrite !mv3_skew. unfold vec_of, ht_gels, sq3, dot3, v3sub, v3add, v3opp, vec_add, vec_sub, cross3. cbn [vx vy vz].
      set (p1 := x 0%nat). set (p2 := x 1%nat). set (p3 := x 2%nat). nra.
    + intros x. eapply Rle_trans; [right; exact (block_residual (fun a => msub (fst a) eye) (fun a => vec_sub (mv3 (compute_rcg ht_gels ms) (column3 (snd a))) (column3 (fst a))) ms _)|].
      rewrite (lsum_ext _ (fun _ => 0)); [rewrite lsum_const, Rmult_0_r; apply sum_nonneg; intros; apply Rle_0_sqr|].
      assert (K : forall a, In a ms -> column3 (fst a) = v3zero /\ column3 (snd a) = v3zero).
      { rewrite EM. intros a [<-|[<-|[<-|[]]]]; cbn [fst snd]; unfold column3; rewrite ?G01, ?G02, ?G12, ?C01, ?C02, ?C12 by lia; unfold pone, qone, v3zero; cbn; split; f_equal; lra. }
      intros a Ha. destruct (K a Ha) as [-> ->]. unfold vec_of, ht_gels, mv3, vec_sub, sq3, dot3, v3sub, v3add, v3opp, v3zero. cbn [vx vy vz]. ring.
  - rewrite (three_poses ht_gels rigid_inverse ht_hand ht_eyes true eq_refl ltac:(cbn; lia)). cbv zeta. fold ms.
    destruct (quat_of_mat_rotation _ (rotation_ext _ _ unit_one MR)) as (q & EQ & UQ & MQ). rewrite EQ. eexists. split; [reflexivity|].
    assert (I : forall x, papp (P q (compute_tcg ht_gels ms (compute_rcg ht_gels ms))) x = x).
    { intros x. unfold papp, compute_tcg. cbn [rot tra]. rewrite S0, v3add_zero, qrot_mat by exact UQ. rewrite <- (qrot_one x) at 2. rewrite qrot_mat by exact unit_one. unfold mv3. rewrite !MQ, !MR by lia. reflexivity. }
    split; [exact I|]. exists (V3 1 0 0). rewrite I. intros E. assert (Z := f_equal vx E). unfold ht_X in Z. un. un. lra.
Qed.
Print Assumptions tsai_lenz_less_than_half.
Print Assumptions tsai_half_turn_never_found.
Print Assumptions tsai_half_turn_motion_refuted.
Print Assumptions tsai_lenz_two_positions.
Print Assumptions tsai_lenz_throws.

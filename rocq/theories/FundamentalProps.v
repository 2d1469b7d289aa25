(** The eight-point algorithm and the fundamental matrix of two poses (C50, C101, C102). *)
From Coq Require Import Reals Lra Lia List Arith Bool.
Import ListNotations.
From Verif Require Import Mat Quat QuatProofs QuatTrigProofs QuatProps LinAlg LinAlgProps Dlt DltProofs HomographyProps ProjectionDltProps.
Open Scope R_scope.

(** * normalisation *)
Definition lsum_ {A} (f : A -> R) (l : list A) : R := fold_right (fun x a => f x + a) 0 l.
Lemma fold_sum {A} (f : A -> R) l : forall a, fold_left (fun s p => s + f p) l a = a + lsum_ f l.
Proof. induction l as [|x l IH]; intros a; cbn [fold_left lsum_ fold_right]; [lra|]. rewrite IH. unfold lsum_. lra. Qed.
Lemma lsum__scale {A} (f : A -> R) c l : lsum_ (fun x => c * f x) l = c * lsum_ f l.
Proof. unfold lsum_. induction l as [|x l IH]; cbn [fold_right]; [lra|]. rewrite IH. lra. Qed.
Lemma lsum__ext {A} (f g : A -> R) l : (forall x, In x l -> f x = g x) -> lsum_ f l = lsum_ g l.
Proof. intros H. unfold lsum_. induction l as [|x l IH]; cbn [fold_right]; [reflexivity|]. rewrite IH by (intros; apply H; right; assumption). rewrite (H x) by (left; reflexivity). reflexivity. Qed.
Lemma lsum__sub {A} (f : A -> R) c l : lsum_ (fun x => f x - c) l = lsum_ f l - INR (length l) * c.
Proof. induction l as [|x l IH]; [cbn; lra|]. cbn [length]. rewrite S_INR. unfold lsum_ in *. cbn [fold_right]. rewrite IH. lra. Qed.
Lemma lsum__nonneg {A} (f : A -> R) l : (forall x, 0 <= f x) -> 0 <= lsum_ f l.
Proof. intros H. unfold lsum_. induction l as [|x l IH]; cbn [fold_right]; [lra|]. specialize (H x). lra. Qed.
Lemma lsum__zero {A} (f : A -> R) l : (forall x, 0 <= f x) -> lsum_ f l = 0 -> forall x, In x l -> f x = 0.
Proof.
  intros H. induction l as [|y l IH]; intros E x Hx; [destruct Hx|]. unfold lsum_ in *. cbn [fold_right] in E.
  assert (L := lsum__nonneg f l H). unfold lsum_ in L. assert (Y := H y). destruct Hx as [<-|Hx]; [lra|apply IH; [lra|exact Hx]].
Qed.
Definition dist2 (p q : vect) : R := sqrt ((p 0%nat - q 0%nat) * (p 0%nat - q 0%nat) + (p 1%nat - q 1%nat) * (p 1%nat - q 1%nat)).
Definition mean (f : vect -> R) (l : list vect) : R := lsum_ f l / INR (length l).
Lemma mean2_eq pts i : mean2 pts i = mean (fun p => p i) pts.
Proof. unfold mean2, mean. rewrite (fold_sum (fun p : vect => p i)), Rplus_0_l. reflexivity. Qed.
Lemma mean_distance_eq sh pts : mean_distance sh pts = mean (fun p => dist2 p sh) pts.
Proof. unfold mean_distance, mean, dist2. rewrite (fold_sum (fun p : vect => sqrt ((p 0%nat - sh 0%nat) * (p 0%nat - sh 0%nat) + (p 1%nat - sh 1%nat) * (p 1%nat - sh 1%nat)))), Rplus_0_l. reflexivity. Qed.
Lemma dist2_nonneg p q : 0 <= dist2 p q. Proof. apply sqrt_pos. Qed.
Lemma dist2_zero p q : dist2 p q = 0 -> p 0%nat = q 0%nat /\ p 1%nat = q 1%nat.
Proof.
  unfold dist2. intros Z. set (x := p 0%nat - q 0%nat) in *. set (y := p 1%nat - q 1%nat) in *.
  pose proof (Rle_0_sqr x) as X. pose proof (Rle_0_sqr y) as Y. unfold Rsqr in *.
  apply sqrt_eq_0 in Z; [|lra]. assert (XZ : x = 0) by (apply Rsqr_0_uniq; unfold Rsqr; lra). assert (YZ : y = 0) by (apply Rsqr_0_uniq; unfold Rsqr; lra). unfold x in XZ. unfold y in YZ. lra.
Qed.
(** normalised points have mean zero and mean distance sqrt 2 from it *)
Theorem fm_normalize_spec pts sh s : fm_normalize pts = Some (sh, s) ->
  0 < s /\ mean (fun p => fm_point sh s p 0%nat) pts = 0 /\ mean (fun p => fm_point sh s p 1%nat) pts = 0 /\
  mean (fun p => dist2 (fm_point sh s p) (fun _ => 0)) pts = sqrt 2.
Proof.
  unfold fm_normalize. destruct (length pts =? 0)%nat eqn:L0; [discriminate|]. apply Nat.eqb_neq in L0. destruct (Req_EM_T _ 0) as [|N]; [discriminate|]. intros E.
  assert (ES : mean2 pts = sh) by congruence. assert (EC : sqrt 2 / mean_distance (mean2 pts) pts = s) by congruence. rewrite ES in *. clear E.
  assert (P : 0 < INR (length pts)) by (apply lt_0_INR; lia).
  assert (MD0 : 0 <= mean_distance sh pts). { rewrite mean_distance_eq. apply Rmult_le_pos; [apply lsum__nonneg; intros; apply dist2_nonneg|left; apply Rinv_0_lt_compat, P]. }
  assert (S0 : 0 < s) by (rewrite <- EC; apply Rdiv_lt_0_compat; [apply sqrt_lt_R0; lra|lra]).
  assert (C : forall i, mean (fun p => fm_point sh s p i) pts = 0).
  { intros i. unfold mean, fm_point. rewrite (lsum__ext _ (fun p => s * (p i - sh i))) by (intros; ring). rewrite (lsum__scale (fun p : vect => p i - sh i)), (lsum__sub (fun p : vect => p i)).
    rewrite <- ES, mean2_eq. unfold mean. field. lra. }
  split; [exact S0|]. split; [apply C|]. split; [apply C|].
  unfold mean. rewrite (lsum__ext _ (fun p => s * dist2 p sh)).
  - rewrite lsum__scale. rewrite <- EC, mean_distance_eq in *. unfold mean in *. field. split; [lra|]. intros Z. apply N. rewrite Z. unfold Rdiv. ring.
  - intros p _. unfold dist2, fm_point. rewrite <- (sqrt_square s) at 5 by lra. rewrite <- sqrt_mult_alt by nra. f_equal. ring.
Qed.
Theorem fm_normalize_fails pts : pts <> [] -> (fm_normalize pts = None <-> forall p q, In p pts -> In q pts -> p 0%nat = q 0%nat /\ p 1%nat = q 1%nat).
Proof.
  intros NE. unfold fm_normalize. destruct (length pts =? 0)%nat eqn:L0; [apply Nat.eqb_eq in L0; destruct pts; [congruence|discriminate]|]. apply Nat.eqb_neq in L0.
  assert (P : 0 < INR (length pts)) by (apply lt_0_INR; lia). rewrite mean_distance_eq. destruct (Req_EM_T _ 0) as [Z|N]; (split; [intros E; try discriminate|]).
  - intros p q Hp Hq. assert (Z' : lsum_ (fun p => dist2 p (mean2 pts)) pts = 0). { unfold mean in Z. replace (lsum_ (fun p => dist2 p (mean2 pts)) pts) with (lsum_ (fun p => dist2 p (mean2 pts)) pts / INR (length pts) * INR (length pts)) by (field; lra). rewrite Z. ring. }
    destruct (dist2_zero _ _ (lsum__zero _ _ (fun p => dist2_nonneg p _) Z' p Hp)). destruct (dist2_zero _ _ (lsum__zero _ _ (fun p => dist2_nonneg p _) Z' q Hq)). split; lra.
  - reflexivity.
  - intros A. exfalso. apply N. destruct pts as [|p0 l]; [congruence|]. set (pts := p0 :: l) in *.
    assert (M : forall i, (i < 2)%nat -> mean2 pts i = p0 i).
    { intros i Hi. rewrite mean2_eq. unfold mean. rewrite (lsum__ext _ (fun p => p0 i * 1)).
      - rewrite lsum__scale. assert (O : lsum_ (fun _ : vect => 1) pts = INR (length pts)). { clear. induction pts as [|x t IH]; [reflexivity|]. cbn [length]. rewrite S_INR. unfold lsum_ in *. cbn [fold_right]. rewrite IH. lra. }
        rewrite O. field. lra.
      - intros p Hp. destruct (A p p0 Hp (or_introl eq_refl)) as [X Y]. destruct i as [|[|]]; [rewrite X|rewrite Y|lia]; ring. }
    unfold mean. rewrite (lsum__ext _ (fun _ => 0 * 0)); [rewrite lsum__scale; unfold Rdiv; ring|]. intros p Hp. destruct (A p p0 Hp (or_introl eq_refl)) as [X Y].
    unfold dist2. rewrite !M, X, Y by lia. rewrite Rmult_0_l. rewrite <- sqrt_0. f_equal. ring.
Qed.

(** * the system *)
Definition used (step : nat) (from to : list vect) : list (vect * vect) := combine (every step from zero2) (every step to zero2).
Theorem fm_system_iff fs fc ts tc from to step F :
  (solves 9 (fm_system fs fc ts tc from to step) (entries 3 F) <->
   forall f t, In (f, t) (used step from to) -> epipolar (denorm_f fs fc ts tc F) f t).
Proof.
  unfold fm_system. rewrite solves_map. split.
  - intros S f t Hi. specialize (S (f, t) Hi). cbn [fst snd] in S. apply denorm_f_iff, fm_row_iff, S.
  - intros S [f t] Hi. cbn [fst snd]. apply fm_row_iff, denorm_f_iff, S, Hi.
Qed.
(** with step 1 all correspondences are used; in general only given points, length / step of them *)
Theorem every_one {A} (l : list A) d : every 1 l d = l.
Proof.
  unfold every. rewrite Nat.div_1_r. apply nth_ext with d d; [rewrite map_length, seq_length; reflexivity|]. rewrite map_length, seq_length. intros n Hn.
  rewrite (nth_indep _ d (nth (0 * 1) l d)) by (rewrite map_length, seq_length; exact Hn). rewrite (map_nth (fun i => nth (i * 1) l d) (seq 0 (length l)) 0%nat n). rewrite seq_nth by exact Hn. f_equal. lia.
Qed.
Theorem every_spec {A} step (l : list A) d i : (0 < step)%nat -> length (every step l d) = (length l / step)%nat /\
  ((i < length l / step)%nat -> (i * step < length l)%nat /\ nth i (every step l d) d = nth (i * step) l d).
Proof.
  intros Hs. unfold every. split; [rewrite map_length, seq_length; reflexivity|]. intros Hi. split.
  - assert (M := Nat.mul_div_le (length l) step ltac:(lia)). nia.
  - rewrite (nth_indep _ d (nth (0 * step) l d)) by (rewrite map_length, seq_length; exact Hi). rewrite (map_nth (fun i => nth (i * step) l d) (seq 0 (length l / step)) 0%nat i). rewrite seq_nth by exact Hi. reflexivity.
Qed.
Lemma used_in step from to f t : (0 < step)%nat -> length from = length to -> In (f, t) (used step from to) -> In (f, t) (combine from to).
Proof.
  intros Hs L Hi. unfold used in Hi. destruct (In_nth _ _ (zero2, zero2) Hi) as (k & Hk & E). rewrite combine_length in Hk.
  destruct (every_spec step from zero2 k Hs) as [L1 S1]. destruct (every_spec step to zero2 k Hs) as [L2 S2]. rewrite L1, L2, <- L, Nat.min_id in Hk.
  rewrite combine_nth in E by (rewrite L1, L2, L; reflexivity). destruct (S1 Hk) as [B1 E1]. rewrite <- L in S2. destruct (S2 Hk) as [B2 E2].
  rewrite E1, E2 in E. rewrite <- E, <- (combine_nth from to (k * step) zero2 zero2 L). apply nth_In. rewrite combine_length, <- L. lia.
Qed.

(** * the result *)
Lemma det3_mul A B : det3 (mmul 3 A B) = det3 A * det3 B.
Proof. unfold det3, mmul. cbn [sum]. ring. Qed.
Lemma det3_ext A B : meq 3 3 A B -> det3 A = det3 B.
Proof. intros E. unfold det3. rewrite !E by lia. reflexivity. Qed.
Lemma det3_tr A : det3 (tr A) = det3 A. Proof. unfold det3, tr. ring. Qed.
Lemma det3_eye : det3 eye = 1. Proof. unfold det3, eye. cbn. ring. Qed.
Lemma det3_scale c A : det3 (mscale c A) = c * c * c * det3 A. Proof. unfold det3, mscale. ring. Qed.
Lemma rank_two_det u s v : det3 (rank_two u s v) = 0.
Proof. unfold rank_two. rewrite det3_mul. unfold det3 at 1. cbn [Nat.eqb]. ring. Qed.
(** the result always is singular *)
Theorem fundamental_singular svd svd3 from to step F : fundamental_matrix svd svd3 from to step = Some (Some F) -> det3 F = 0.
Proof.
  unfold fundamental_matrix. destruct (step <? 1)%nat; [discriminate|]. destruct (negb _); [discriminate|]. destruct (length from <? 8)%nat; [discriminate|].
  destruct (fm_normalize from) as [[fs fc]|]; [|discriminate]. destruct (fm_normalize to) as [[ts tc]|]; [|discriminate].
  destruct (svd _ _) as [vt|]; [|discriminate]. destruct (svd3 _) as [[[u s] v]|]; [|discriminate]. intros E. assert (EF : F = mmul 3 (mmul 3 (tr (mod_matrix ts tc)) (rank_two u s v)) (mod_matrix fs fc)) by congruence.
  rewrite EF, !det3_mul, rank_two_det. ring.
Qed.
(** the second decomposition succeeds and is right on this matrix *)
Definition svd3_ok (svd3 : gesvd3) (F : mat) : Prop := exists u s v, svd3 F = Some (u, s, v) /\ full_svd 3 3 F u s v.
(** both decompositions meet their contract on the matrices of this call *)
Definition f_svd_ok (svd : nat -> mat -> option mat) (svd3 : gesvd3) (from to : list vect) (step : nat) : Prop := forall fs fc ts tc,
  fm_normalize from = Some (fs, fc) -> fm_normalize to = Some (ts, tc) ->
  let rows := fm_system fs fc ts tc from to step in
  exists vt, svd (length rows) (rows_mat rows) = Some vt /\ least_direction (length rows) 9 (rows_mat rows) (fun j => vt 8%nat j) /\
    svd3_ok svd3 (fun i j => vt 8%nat (3 * i + j)%nat).
Lemma rank_two_keeps F u s v : full_svd 3 3 F u s v -> det3 F = 0 -> meq 3 3 (rank_two u s v) F.
Proof.
  intros (HF & HU & HV & _ & S0 & SD) D.
  assert (Z : s 2%nat = 0).
  { destruct (Req_dec (s 2%nat) 0) as [Z|N]; [exact Z|]. exfalso.
    assert (P2 : 0 < s 2%nat) by (assert (0 <= s 2%nat) by (apply S0; lia); lra).
    assert (P : forall k, (k < 3)%nat -> s k <> 0) by (intros k Hk; assert (s 2%nat <= s k) by (apply SD; lia); lra).
    assert (OU : meq 3 3 (mmul 3 (tr u) u) eye) by (intros k l Hk Hl; apply HU; auto).
    assert (DU := det3_ext _ _ OU). rewrite det3_mul, det3_tr, det3_eye in DU. assert (DV := det3_ext _ _ HV). rewrite det3_mul, det3_tr, det3_eye in DV.
    assert (EF : det3 F = det3 u * (s 0%nat * s 1%nat * s 2%nat) * det3 v).
    { rewrite (det3_ext F (mmul 3 (fun i j => u i j * s j) v)); [|intros i j Hi Hj; rewrite (HF i j Hi Hj); unfold mmul; apply sum_ext; intros; ring].
      rewrite det3_mul. unfold det3 at 1 3. ring. }
    rewrite EF in D. assert (N0 := P 0%nat ltac:(lia)). assert (N1 := P 1%nat ltac:(lia)).
    assert (NU : det3 u <> 0) by (intros E; rewrite E in DU; lra). assert (NV : det3 v <> 0) by (intros E; rewrite E in DV; lra).
    apply Rmult_integral in D. destruct D as [D|D]; [|contradiction]. apply Rmult_integral in D. destruct D as [D|D]; [contradiction|]. apply Rmult_integral in D. destruct D as [D|D]; [|contradiction]. apply Rmult_integral in D. destruct D; contradiction. }
  intros i j Hi Hj. rewrite (HF i j Hi Hj). unfold rank_two, mmul. apply sum_ext. intros k Hk. destruct (k =? 2)%nat eqn:E; [apply Nat.eqb_eq in E; rewrite E, Z; ring|ring].
Qed.
Definition determines_f (pairs : list (vect * vect)) (F0 : mat) : Prop :=
  forall F, (forall f t, In (f, t) pairs -> epipolar F f t) -> exists mu, meq 3 3 F (mscale mu F0).
Lemma determined_points pairs F0 : determines_f pairs F0 ->
  ~ (exists p, forall f t, In (f, t) pairs -> f 0%nat = p 0%nat /\ f 1%nat = p 1%nat) /\ ~ (exists p, forall f t, In (f, t) pairs -> t 0%nat = p 0%nat /\ t 1%nat = p 1%nat).
Proof.
  intros DT. split; intros (p & HP).
  - destruct (DT (mlist [[1; 0; - p 0%nat]; [0; 0; 0]; [0; 0; 0]])) as [m E].
    { intros f t Hi. destruct (HP f t Hi) as [X Y]. unfold epipolar, mlist. un_vec. rewrite X. ring. }
    destruct (DT (mlist [[0; 0; 0]; [1; 0; - p 0%nat]; [0; 0; 0]])) as [m' E'].
    { intros f t Hi. destruct (HP f t Hi) as [X Y]. unfold epipolar, mlist. un_vec. rewrite X. ring. }
    assert (A := E 0%nat 0%nat ltac:(lia) ltac:(lia)). assert (B := E' 0%nat 0%nat ltac:(lia) ltac:(lia)). assert (A' := E 1%nat 0%nat ltac:(lia) ltac:(lia)). assert (B' := E' 1%nat 0%nat ltac:(lia) ltac:(lia)).
    unfold mscale, mlist in A, B, A', B'. cbn [nth] in A, B, A', B'. symmetry in B, A'. apply Rmult_integral in B. destruct B as [B|B]; [rewrite B in B'; lra|rewrite B in A; lra].
  - destruct (DT (mlist [[1; 0; 0]; [0; 0; 0]; [- p 0%nat; 0; 0]])) as [m E].
    { intros f t Hi. destruct (HP f t Hi) as [X Y]. unfold epipolar, mlist. un_vec. rewrite X. ring. }
    destruct (DT (mlist [[0; 1; 0]; [0; 0; 0]; [0; - p 0%nat; 0]])) as [m' E'].
    { intros f t Hi. destruct (HP f t Hi) as [X Y]. unfold epipolar, mlist. un_vec. rewrite X. ring. }
    assert (A := E 0%nat 0%nat ltac:(lia) ltac:(lia)). assert (B := E' 0%nat 0%nat ltac:(lia) ltac:(lia)). assert (A' := E 0%nat 1%nat ltac:(lia) ltac:(lia)). assert (B' := E' 0%nat 1%nat ltac:(lia) ltac:(lia)).
    unfold mscale, mlist in A, B, A', B'. cbn [nth] in A, B, A', B'. symmetry in B, A'. apply Rmult_integral in B. destruct B as [B|B]; [rewrite B in B'; lra|rewrite B in A; lra].
Qed.
(** exact data: if the used correspondences determine a singular matrix, it is found up to scale *)
Theorem fundamental_exact svd svd3 from to step F0 : (1 <= step)%nat -> length from = length to -> (8 <= length from)%nat ->
  f_svd_ok svd svd3 from to step -> nonzero 3 3 F0 -> det3 F0 = 0 ->
  (forall f t, In (f, t) (combine from to) -> epipolar F0 f t) -> determines_f (used step from to) F0 ->
  exists F mu, fundamental_matrix svd svd3 from to step = Some (Some F) /\ mu <> 0 /\ meq 3 3 F (mscale mu F0).
Proof.
  intros Hs L L8 SV N0 D0 M0 DT. destruct (determined_points _ _ DT) as [NF NT].
  assert (U : forall f t, In (f, t) (used step from to) -> epipolar F0 f t) by (intros f t Hi; apply M0, (used_in step from to f t ltac:(lia) L Hi)).
  assert (FN : from <> []) by (destruct from; [cbn in L8; lia|discriminate]). assert (TN : to <> []) by (intros E; rewrite E in L; cbn in L; lia).
  unfold fundamental_matrix. rewrite (proj2 (Nat.ltb_ge step 1)) by lia. rewrite L, Nat.eqb_refl. cbn [negb]. rewrite <- L, (proj2 (Nat.ltb_ge (length from) 8)) by lia.
  destruct (fm_normalize from) as [[fs fc]|] eqn:EF.
  2:{ exfalso. assert (A := proj1 (fm_normalize_fails from FN) EF). apply NF. exists (hd zero2 from). intros f t Hi. apply A; [|destruct from; [congruence|left; reflexivity]].
      exact (in_combine_l _ _ _ _ (used_in step from to f t ltac:(lia) L Hi)). }
  destruct (fm_normalize to) as [[ts tc]|] eqn:ET.
  2:{ exfalso. assert (A := proj1 (fm_normalize_fails to TN) ET). apply NT. exists (hd zero2 to). intros f t Hi. apply A; [|destruct to; [congruence|left; reflexivity]].
      exact (in_combine_r _ _ _ _ (used_in step from to f t ltac:(lia) L Hi)). }
  destruct (fm_normalize_spec from fs fc EF) as [PF _]. destruct (fm_normalize_spec to ts tc ET) as [PT _].
  destruct (SV fs fc ts tc EF ET) as (vt & EV & LD & S3). set (rows := fm_system fs fc ts tc from to step) in *. rewrite EV. cbv iota. set (v := fun j => vt 8%nat j) in *.
  change (fun i j : nat => vt 8%nat (3 * i + j)%nat) with (of_entries 3 v) in *.
  set (G0 := renorm_f fs fc ts tc F0).
  assert (RD : meq 3 3 (denorm_f fs fc ts tc G0) F0) by (apply denorm_renorm_f; lra).
  assert (NG : nonzero 3 3 G0).
  { destruct (nonzero_or 3 3 G0) as [N|Z]; [exact N|]. exfalso. destruct N0 as (i & j & Hi & Hj & N). apply N. rewrite <- (RD i j Hi Hj). apply (sandwich_zero 3 3 _ _ _ Z i j Hi Hj). }
  assert (SG : solves 9 rows (entries 3 G0)).
  { apply fm_system_iff. intros f t Hi. apply (epipolar_ext _ _ f t RD). apply U, Hi. }
  assert (SV0 : solves 9 rows v).
  { apply rows_solves. apply (least_direction_kernel _ 9 _ v (entries 3 G0) LD (entries_nonzero 3 3 G0 NG)). apply rows_solves, SG. }
  set (D := denorm_f fs fc ts tc (of_entries 3 v)).
  assert (MD : forall f t, In (f, t) (used step from to) -> epipolar D f t).
  { apply fm_system_iff. apply (solves_entries 3 3 rows v); [lia|exact SV0]. }
  destruct (DT D MD) as [mu EM].
  assert (NM : mu <> 0).
  { intros Z. destruct LD as [UV _]. assert (ZD : meq 3 3 D mzero) by (intros i j Hi Hj; rewrite (EM i j Hi Hj); unfold mscale, mzero; rewrite Z; ring).
    assert (ZV : meq 3 3 (of_entries 3 v) mzero) by (intros i j Hi Hj; rewrite <- (renorm_denorm_f fs fc ts tc (of_entries 3 v) ltac:(lra) ltac:(lra) i j Hi Hj); apply (sandwich_zero 3 3 _ _ _ ZD i j Hi Hj)).
    assert (V0 := zero_entries 3 3 v ltac:(lia) ZV : vdot 9 v v = 0). lra. }
  assert (DD : det3 D = 0) by (rewrite (det3_ext _ _ EM), det3_scale, D0; ring).
  assert (DV : det3 (of_entries 3 v) = 0).
  { unfold D, denorm_f in DD. rewrite !det3_mul, det3_tr in DD. assert (MM : forall sh s, det3 (mod_matrix sh s) = s * s) by (intros; unfold det3, mod_matrix, mlist; cbn [nth]; ring). rewrite !MM in DD.
    apply Rmult_integral in DD. destruct DD as [DD|DD]; [|exfalso; apply Rmult_integral in DD; lra]. apply Rmult_integral in DD. destruct DD as [DD|DD]; [exfalso; apply Rmult_integral in DD; lra|exact DD]. }
  destruct S3 as (u & s & w & E3 & C3). rewrite E3.
  assert (RK := rank_two_keeps _ u s w C3 DV).
  eexists _, mu. split; [reflexivity|]. split; [exact NM|].
  intros i j Hi Hj. rewrite <- (EM i j Hi Hj). unfold D, denorm_f. apply (mmul_ext_l 3). intros l Hl. apply (mmul_ext_r 3). intros k Hk. apply RK; assumption.
Qed.
(** documented exceptions *)
Theorem fundamental_throws svd svd3 from to step : (step = 0%nat \/ length from <> length to \/ (length from < 8)%nat) -> fundamental_matrix svd svd3 from to step = None.
Proof.
  intros H. unfold fundamental_matrix. destruct (step <? 1)%nat eqn:E1; [reflexivity|]. apply Nat.ltb_ge in E1. destruct (length from =? length to)%nat eqn:E2; cbn [negb]; [|reflexivity]. apply Nat.eqb_eq in E2.
  destruct (length from <? 8)%nat eqn:E3; [reflexivity|]. apply Nat.ltb_ge in E3. exfalso. lia.
Qed.

(** * the step size *)
(** Refuted: "given at least eight correspondences of a pair of views which determine their fundamental
    matrix, that matrix is returned". The number of points is checked before every step-th point is
    chosen: with eight points and step 2 the matrix is computed from four of them. *)
Definition st_from : list vect := [vlist [1; 1]; vlist [2; 1]; vlist [-1; 1]; vlist [-2; 1]; vlist [1; -1]; vlist [2; -2]; vlist [-1; -1]; vlist [-2; -2]].
Definition st_to : list vect := [vlist [1; 1]; vlist [-2; 1]; vlist [-1; 1]; vlist [2; 1]; vlist [1; -1]; vlist [-2; -2]; vlist [-1; -1]; vlist [2; -2]].
Definition st_f : mat := mlist [[0; 0; 0]; [0; 0; 1]; [0; -1; 0]].
Definition st_g : mat := mlist [[0; 0; 1]; [0; 0; 0]; [-1; 0; 0]].
Lemma st_exact f t : In (f, t) (combine st_from st_to) -> epipolar st_f f t.
Proof. cbn [combine st_from st_to In]. intros H. repeat (destruct H as [H|H]; [assert (E1 := f_equal fst H); assert (E2 := f_equal snd H); cbn [fst snd] in E1, E2; subst f t; unfold epipolar, st_f, mlist; un_vec; lra|]). destruct H. Qed.
Lemma st_determines : determines_f (combine st_from st_to) st_f.
Proof.
  intros F H. exists (F 1%nat 2%nat).
  assert (G : forall k, (k < 8)%nat -> epipolar F (nth k st_from zero2) (nth k st_to zero2)). { intros k Hk. apply H. rewrite <- (combine_nth st_from st_to k zero2 zero2 eq_refl). apply nth_In. exact Hk. }
  assert (G0 := G 0%nat ltac:(lia)). assert (G1 := G 1%nat ltac:(lia)). assert (G2 := G 2%nat ltac:(lia)). assert (G3 := G 3%nat ltac:(lia)). assert (G4 := G 4%nat ltac:(lia)). assert (G5 := G 5%nat ltac:(lia)). assert (G6 := G 6%nat ltac:(lia)). assert (G7 := G 7%nat ltac:(lia)). clear G H.
  unfold epipolar, st_from, st_to in *. unfold vdot, mvec, hom2, vlist in *. cbn [sum nth] in *.
  intros i j Hi Hj. unfold mscale, st_f, mlist. destruct i as [|[|[|]]]; [| | |lia]; (destruct j as [|[|[|]]]; [| | |lia]); cbn [nth]; lra.
Qed.
Lemma st_normalize : exists fs c ts, fm_normalize st_from = Some (fs, c) /\ fm_normalize st_to = Some (ts, c) /\ fs 0%nat = 0 /\ ts 0%nat = 0 /\ fs 1%nat = ts 1%nat /\ 0 < c.
Proof.
  assert (M0 : mean2 st_from 0%nat = 0) by (unfold mean2, st_from, vlist; cbn [fold_left nth length]; lra).
  assert (M1 : mean2 st_to 0%nat = 0) by (unfold mean2, st_to, vlist; cbn [fold_left nth length]; lra).
  assert (M2 : mean2 st_from 1%nat = mean2 st_to 1%nat) by (unfold mean2, st_from, st_to, vlist; cbn [fold_left nth length]; lra).
  assert (MD : mean_distance (mean2 st_from) st_from = mean_distance (mean2 st_to) st_to).
  { rewrite !mean_distance_eq. unfold mean. change (length st_to) with (length st_from). f_equal. unfold lsum_, dist2. rewrite M0, M1, M2. set (y := mean2 st_to 1%nat). unfold st_from, st_to, vlist. cbn [fold_right nth].
    replace ((-2 - 0) * (-2 - 0)) with ((2 - 0) * (2 - 0)) by ring. replace ((-1 - 0) * (-1 - 0)) with ((1 - 0) * (1 - 0)) by ring. ring. }
  destruct (fm_normalize st_from) as [[fs c]|] eqn:EF.
  - exists fs, c, (mean2 st_to). assert (S := proj1 (fm_normalize_spec _ _ _ EF)). unfold fm_normalize in *. cbn [length st_from st_to Nat.eqb] in *. fold st_from st_to in *. rewrite MD in EF. destruct (Req_EM_T _ 0); [discriminate|].
    assert (E1 : mean2 st_from = fs) by congruence. assert (E2 : sqrt 2 / mean_distance (mean2 st_to) st_to = c) by congruence. rewrite E2, <- E1. repeat split; try assumption.
  - exfalso. destruct (proj1 (fm_normalize_fails st_from ltac:(discriminate)) EF (vlist [1; 1]) (vlist [2; 1])) as [X _]; [left; reflexivity|right; left; reflexivity|]. unfold vlist in X. cbn in X. lra.
Qed.
Theorem fundamental_step_refuted : exists svd svd3 from to F0 F,
  f_svd_ok svd svd3 from to 2 /\ length from = 8%nat /\ length to = 8%nat /\
  (forall f t, In (f, t) (combine from to) -> epipolar F0 f t) /\ determines_f (combine from to) F0 /\ det3 F0 = 0 /\ nonzero 3 3 F0 /\
  fundamental_matrix svd svd3 from to 2 = Some (Some F) /\ exists f t, In (f, t) (combine from to) /\ ~ epipolar F f t.
Proof.
  destruct st_normalize as (fs & c & ts & NF & NT & F0 & T0 & FT & C).
  set (G := renorm_f fs c ts c st_g). set (x := entries 3 G). set (nrm := sqrt (vdot 9 x x)).
  assert (RD : meq 3 3 (denorm_f fs c ts c G) st_g) by (apply denorm_renorm_f; lra).
  assert (EG : meq 3 3 G (mlist [[0; 0; / c]; [0; 0; 0]; [- / c; 0; 0]])).
  { intros i j Hi Hj. unfold G, renorm_f, st_g, mmul, mlist. destruct i as [|[|[|]]]; [| | |lia]; (destruct j as [|[|[|]]]; [| | |lia]); cbn [sum nth]; rewrite ?F0, ?T0; try field; lra. }
  assert (PC : 0 < / c) by (apply Rinv_0_lt_compat, C).
  assert (NX : exists i, (i < 9)%nat /\ x i <> 0) by (exists 2%nat; split; [lia|]; unfold x, entries; rewrite EG by (cbn; lia); cbn; lra).
  assert (PN : 0 < nrm) by (destruct NX as (k & Hk & N); apply sqrt_lt_R0, (vdot_self_pos 9 x k Hk N)).
  set (a := / nrm * / c). assert (PA : 0 < a) by (apply Rmult_lt_0_compat; [apply Rinv_0_lt_compat, PN|exact PC]).
  set (svd := fun (_ : nat) (_ : mat) => Some (fun (_ : nat) j => / nrm * x j) : option mat).
  set (u := mlist [[1; 0; 0]; [0; 0; 1]; [0; 1; 0]]). set (s := vlist [a; a; 0]). set (w := mlist [[0; 0; 1]; [-1; 0; 0]; [0; 1; 0]]).
  set (svd3 := (fun _ => Some (u, s, w)) : gesvd3).
  assert (EV : meq 3 3 (fun i j => / nrm * x (3 * i + j)%nat) (mlist [[0; 0; a]; [0; 0; 0]; [- a; 0; 0]])).
  { intros i j Hi Hj. unfold x. rewrite (entries_of 3 3 x i j Hi Hj) || idtac. unfold entries. replace ((3 * i + j) / 3)%nat with i by (rewrite Nat.mul_comm, Nat.div_add_l, Nat.div_small; lia). replace ((3 * i + j) mod 3)%nat with j by (rewrite Nat.add_comm, Nat.mul_comm, Nat.mod_add, Nat.mod_small; lia).
    rewrite (EG i j Hi Hj). unfold a, mlist. destruct i as [|[|[|]]]; [| | |lia]; (destruct j as [|[|[|]]]; [| | |lia]); cbn [nth]; ring. }
  assert (OK : f_svd_ok svd svd3 st_from st_to 2).
  { intros fs' c' ts' c'' NF' NT'. rewrite NF in NF'. rewrite NT in NT'. assert (fs = fs') by congruence. assert (c = c') by congruence. assert (ts = ts') by congruence. assert (c = c'') by congruence. subst fs' c' ts' c''. cbv zeta.
    eexists. split; [reflexivity|]. split.
    - apply kernel_least; [exact NX|]. apply fm_system_iff. intros f t Hi. apply (epipolar_ext _ _ f t RD).
      unfold used, every in Hi. cbn in Hi. repeat (destruct Hi as [H|Hi]; [assert (E1 := f_equal fst H); assert (E2 := f_equal snd H); cbn [fst snd] in E1, E2; subst f t; unfold epipolar, st_g, mlist; un_vec; lra|]). destruct Hi.
    - exists u, s, w. split; [reflexivity|]. split; [|split; [|split; [|split; [|split]]]].
      + intros i j Hi Hj. rewrite (EV i j Hi Hj). unfold u, s, w, mlist, vlist. destruct i as [|[|[|]]]; [| | |lia]; (destruct j as [|[|[|]]]; [| | |lia]); cbn [sum nth]; ring.
      + intros k l Hk Hl _ _. unfold u, mlist, eye, mmul, tr. destruct k as [|[|[|]]]; [| | |lia]; (destruct l as [|[|[|]]]; [| | |lia]); cbn [sum nth Nat.eqb]; ring.
      + intros i j Hi Hj. unfold w, mlist, eye, mmul, tr. destruct i as [|[|[|]]]; [| | |lia]; (destruct j as [|[|[|]]]; [| | |lia]); cbn [sum nth Nat.eqb]; ring.
      + intros i j Hi Hj. unfold w, mlist, eye, mmul, tr. destruct i as [|[|[|]]]; [| | |lia]; (destruct j as [|[|[|]]]; [| | |lia]); cbn [sum nth Nat.eqb]; ring.
      + intros i Hi. unfold s, vlist. destruct i as [|[|[|]]]; [| | |lia]; cbn [nth]; lra.
      + intros i j [Hij Hj]. unfold s, vlist. destruct j as [|[|[|]]]; [| | |lia]; (destruct i as [|[|[|]]]; try lia; cbn [nth]; lra). }
  set (RT := denorm_f fs c ts c (rank_two u s w)).
  exists svd, svd3, st_from, st_to, st_f, RT. split; [exact OK|]. split; [reflexivity|]. split; [reflexivity|]. split; [exact st_exact|]. split; [exact st_determines|].
  split; [unfold det3, st_f, mlist; cbn [nth]; ring|]. split; [exists 1%nat, 2%nat; split; [lia|split; [lia|]]; unfold st_f, mlist; cbn; lra|]. split.
  - unfold fundamental_matrix. cbn [Nat.ltb Nat.leb]. change (length st_from =? length st_to)%nat with true. change (length st_from <? 8)%nat with false. cbn [negb]. rewrite NF, NT. reflexivity.
  - exists (vlist [2; 1]), (vlist [-2; 1]). split; [right; left; reflexivity|]. unfold RT. intros E. apply denorm_f_iff in E.
    unfold epipolar, rank_two, mmul, u, s, w, mlist, fm_point in E. unfold vdot, mvec, hom2, vlist in E. cbn [sum nth Nat.eqb] in E. rewrite F0, T0 in E. ring_simplify in E.
    assert (P := Rmult_lt_0_compat _ _ C PA). lra.
Qed.
(** with step 1 the same data give the right matrix *)
Example st_found : exists svd svd3 F mu, f_svd_ok svd svd3 st_from st_to 1 /\ fundamental_matrix svd svd3 st_from st_to 1 = Some (Some F) /\ mu <> 0 /\ meq 3 3 F (mscale mu st_f).
Proof.
  destruct st_normalize as (fs & c & ts & NF & NT & F0 & T0 & FT & C).
  set (G := renorm_f fs c ts c st_f). set (x := entries 3 G). set (nrm := sqrt (vdot 9 x x)).
  assert (RD : meq 3 3 (denorm_f fs c ts c G) st_f) by (apply denorm_renorm_f; lra).
  assert (EG : meq 3 3 G (mlist [[0; 0; 0]; [0; 0; / c]; [0; - / c; 0]])).
  { intros i j Hi Hj. unfold G, renorm_f, st_f, mmul, mlist. destruct i as [|[|[|]]]; [| | |lia]; (destruct j as [|[|[|]]]; [| | |lia]); cbn [sum nth]; rewrite ?F0, ?T0, ?FT; try field; lra. }
  assert (PC : 0 < / c) by (apply Rinv_0_lt_compat, C).
  assert (NX : exists i, (i < 9)%nat /\ x i <> 0) by (exists 5%nat; split; [lia|]; unfold x, entries; rewrite EG by (cbn; lia); cbn; lra).
  assert (PN : 0 < nrm) by (destruct NX as (k & Hk & N); apply sqrt_lt_R0, (vdot_self_pos 9 x k Hk N)).
  set (a := / nrm * / c). assert (PA : 0 < a) by (apply Rmult_lt_0_compat; [apply Rinv_0_lt_compat, PN|exact PC]).
  set (svd := fun (_ : nat) (_ : mat) => Some (fun (_ : nat) j => / nrm * x j) : option mat).
  set (u := mlist [[0; 0; 1]; [1; 0; 0]; [0; 1; 0]]). set (s := vlist [a; a; 0]). set (w := mlist [[0; 0; 1]; [0; -1; 0]; [1; 0; 0]]).
  set (svd3 := (fun _ => Some (u, s, w)) : gesvd3).
  assert (EV : meq 3 3 (fun i j => / nrm * x (3 * i + j)%nat) (mlist [[0; 0; 0]; [0; 0; a]; [0; - a; 0]])).
  { intros i j Hi Hj. unfold x, entries. replace ((3 * i + j) / 3)%nat with i by (rewrite Nat.mul_comm, Nat.div_add_l, Nat.div_small; lia). replace ((3 * i + j) mod 3)%nat with j by (rewrite Nat.add_comm, Nat.mul_comm, Nat.mod_add, Nat.mod_small; lia).
    rewrite (EG i j Hi Hj). unfold a, mlist. destruct i as [|[|[|]]]; [| | |lia]; (destruct j as [|[|[|]]]; [| | |lia]); cbn [nth]; ring. }
  assert (OK : f_svd_ok svd svd3 st_from st_to 1).
  { intros fs' c' ts' c'' NF' NT'. rewrite NF in NF'. rewrite NT in NT'. assert (fs = fs') by congruence. assert (c = c') by congruence. assert (ts = ts') by congruence. assert (c = c'') by congruence. subst fs' c' ts' c''. cbv zeta.
    eexists. split; [reflexivity|]. split.
    - apply kernel_least; [exact NX|]. apply fm_system_iff. intros f t Hi. apply (epipolar_ext _ _ f t RD). unfold used in Hi. rewrite !every_one in Hi. apply st_exact, Hi.
    - exists u, s, w. split; [reflexivity|]. split; [|split; [|split; [|split; [|split]]]].
      + intros i j Hi Hj. rewrite (EV i j Hi Hj). unfold u, s, w, mlist, vlist. destruct i as [|[|[|]]]; [| | |lia]; (destruct j as [|[|[|]]]; [| | |lia]); cbn [sum nth]; ring.
      + intros k l Hk Hl _ _. unfold u, mlist, eye, mmul, tr. destruct k as [|[|[|]]]; [| | |lia]; (destruct l as [|[|[|]]]; [| | |lia]); cbn [sum nth Nat.eqb]; ring.
      + intros i j Hi Hj. unfold w, mlist, eye, mmul, tr. destruct i as [|[|[|]]]; [| | |lia]; (destruct j as [|[|[|]]]; [| | |lia]); cbn [sum nth Nat.eqb]; ring.
      + intros i j Hi Hj. unfold w, mlist, eye, mmul, tr. destruct i as [|[|[|]]]; [| | |lia]; (destruct j as [|[|[|]]]; [| | |lia]); cbn [sum nth Nat.eqb]; ring.
      + intros i Hi. unfold s, vlist. destruct i as [|[|[|]]]; [| | |lia]; cbn [nth]; lra.
      + intros i j [Hij Hj]. unfold s, vlist. destruct j as [|[|[|]]]; [| | |lia]; (destruct i as [|[|[|]]]; try lia; cbn [nth]; lra). }
  assert (DT : determines_f (used 1 st_from st_to) st_f) by (unfold used; rewrite !every_one; exact st_determines).
  assert (NZ : nonzero 3 3 st_f) by (exists 1%nat, 2%nat; split; [lia|split; [lia|]]; unfold st_f, mlist; cbn; lra).
  assert (DZ : det3 st_f = 0) by (unfold det3, st_f, mlist; cbn [nth]; ring).
  destruct (fundamental_exact svd svd3 st_from st_to 1 st_f ltac:(lia) eq_refl ltac:(cbn; lia) OK NZ DZ st_exact DT) as (F & mu & E & N & M).
  exists svd, svd3, F, mu. repeat split; assumption.
Qed.

(** * the fundamental matrix of two poses *)
(** image of a world point under a camera K (R X + t), homogeneous *)
Definition seen (K : mat) (cam : pose) (X : vec3) : vect := let p := papp cam X in mvec 3 K (vlist [vx p; vy p; vz p]).
Lemma mvec_arg k A x y i : (forall j, (j < k)%nat -> x j = y j) -> mvec k A x i = mvec k A y i.
Proof. intros H. unfold mvec. apply sum_ext. intros j Hj. rewrite (H j Hj). reflexivity. Qed.
Lemma mvec_add k A x y i : mvec k A (fun j => x j + y j) i = mvec k A x i + mvec k A y i.
Proof. unfold mvec. rewrite <- sum_plus. apply sum_ext. intros; ring. Qed.
Lemma mvec_scal k A c x i : mvec k A (fun j => c * x j) i = c * mvec k A x i.
Proof. unfold mvec. rewrite <- sum_scal_l. apply sum_ext. intros; ring. Qed.
Definition cross_v (a b : vect) : vect := vlist [a 1%nat * b 2%nat - a 2%nat * b 1%nat; a 2%nat * b 0%nat - a 0%nat * b 2%nat; a 0%nat * b 1%nat - a 1%nat * b 0%nat].
Lemma skew3_line e x y lambda i : (i < 3)%nat -> (forall i, (i < 3)%nat -> y i = x i + lambda * e i) -> mvec 3 (skew3 e) y i = cross_v e x i.
Proof. intros Hi H. unfold mvec, skew3, mlist, cross_v, vlist. destruct i as [|[|[|]]]; [| | |lia]; cbn [sum nth]; rewrite !H by lia; ring. Qed.
Definition centre (cam : pose) : vec3 := papp (pinv cam) v3zero.
(** the computed matrix maps the first image of a world point to the line through its second image and
    the second image of the first camera's centre *)
Theorem fundamental_from_poses_line inv4 pin cam1 cam2 k1 k2 X i0 : (i0 < 3)%nat -> rigid cam1 -> rigid cam2 -> det3 k1 <> 0 ->
  meq 4 4 (mmul 4 (pose_mat cam1) (inv4 (pose_mat cam1))) eye ->
  penrose 3 4 (mmul 3 k1 (pose_mat cam1)) (pin (mmul 3 k1 (pose_mat cam1))) ->
  mvec 3 (fundamental_from_poses inv4 pin cam1 cam2 k1 k2) (seen k1 cam1 X) i0 = cross_v (seen k2 cam2 (centre cam1)) (seen k2 cam2 X) i0.
Proof.
  intros Hi0 R1 R2 DK HI (HP & _). unfold fundamental_from_poses. set (M := pose_mat cam1) in *. set (A := mmul 3 k1 M) in *. set (E2 := mmul 3 k2 (pose_mat cam2)). set (c := vlist [inv4 M 0%nat 3%nat; inv4 M 1%nat 3%nat; inv4 M 2%nat 3%nat; 1]). set (e := mvec 4 E2 c).
  set (W := Verif.Quat.hom X). assert (SE : forall k cam Y i, rigid cam -> seen k cam Y i = mvec 4 (mmul 3 k (pose_mat cam)) (hom Y) i).
  { intros k cam Y j Hr. rewrite mvec_mmul. unfold seen. apply mvec_arg. intros l Hl. rewrite (pose_mat_app cam Y Hr l ltac:(lia)). unfold vlist, hom. destruct l as [|[|[|]]]; [| | |lia]; reflexivity. }
  set (y := mvec 3 (pin A) (mvec 4 A W)).
  assert (Ay : forall i, (i < 3)%nat -> mvec 4 A y i = mvec 4 A W i).
  { intros i Hi. unfold y. rewrite <- mvec_mmul, <- mvec_mmul. unfold mvec at 1. apply sum_ext. intros j Hj. rewrite (HP i j Hi Hj). reflexivity. }
  set (d := fun j => y j + -1 * W j).
  assert (Kd : forall i, (i < 3)%nat -> mvec 4 M d i = 0).
  { apply (regular_kernel k1); [exact DK|]. intros i Hi. rewrite <- mvec_mmul. fold A. unfold d. rewrite mvec_add, (mvec_scal 4 A (-1) W). rewrite (Ay i Hi). ring. }
  assert (L3 : forall z, mvec 4 M z 3%nat = z 3%nat) by (intros z; unfold mvec, M, pose_mat; cbn; ring).
  assert (MC : forall i, (i < 4)%nat -> mvec 4 M c i = eye i 3%nat).
  { assert (I33 : inv4 M 3%nat 3%nat = 1). { assert (H := HI 3%nat 3%nat ltac:(lia) ltac:(lia)). change (mvec 4 M (fun j => inv4 M j 3%nat) 3%nat = 1) in H. rewrite L3 in H. exact H. }
    intros i Hi. rewrite <- (HI i 3%nat Hi ltac:(lia)). unfold mvec, mmul, c, vlist. cbn [sum nth]. rewrite I33. reflexivity. }
  set (z := fun j => d j + - d 3%nat * c j).
  assert (Mz : forall i, (i < 4)%nat -> mvec 4 M z i = 0).
  { intros i Hi. unfold z. rewrite mvec_add, (mvec_scal 4 M). rewrite (MC i Hi). unfold eye. destruct i as [|[|[|[|]]]]; [| | | |lia]; cbn [Nat.eqb]; [rewrite Kd by lia; ring|rewrite Kd by lia; ring|rewrite Kd by lia; ring|rewrite L3; ring]. }
  assert (Z : forall i, (i < 4)%nat -> z i = 0).
  { intros i Hi. transitivity (mvec 4 (mmul 4 (pose_mat (pinv cam1)) M) z i).
    - rewrite <- (mvec_eye 4 z i Hi) at 1. unfold mvec. apply sum_ext. intros j Hj. f_equal. symmetry. apply (proj2 (pose_mat_inv cam1 R1)); assumption.
    - rewrite mvec_mmul. unfold mvec at 1. apply sum_zero. intros j Hj. rewrite (Mz j Hj). ring. }
  assert (CE : forall i, (i < 4)%nat -> c i = hom (centre cam1) i).
  { intros j Hj. transitivity (mvec 4 (mmul 4 (pose_mat (pinv cam1)) M) c j).
    - rewrite <- (mvec_eye 4 c j Hj) at 1. unfold mvec. apply sum_ext. intros l Hl. f_equal. symmetry. apply (proj2 (pose_mat_inv cam1 R1)); assumption.
    - rewrite mvec_mmul. transitivity (mvec 4 (pose_mat (pinv cam1)) (hom v3zero) j).
      + apply mvec_arg. intros l Hl. rewrite (MC l Hl). unfold eye, hom, v3zero. destruct l as [|[|[|[|]]]]; [| | | |lia]; reflexivity.
      + apply pose_mat_app; [apply rigid_inv; exact R1|exact Hj]. }
  rewrite mvec_mmul. transitivity (cross_v e (seen k2 cam2 X) i0).
  - apply (skew3_line e _ _ (d 3%nat) i0 Hi0). intros j Hj. transitivity (mvec 4 E2 (mvec 3 (pin A) (mvec 4 A W)) j).
    { rewrite mvec_mmul. apply mvec_arg. intros l Hl. apply mvec_arg. intros q Hq. apply SE, R1. }
    fold y. rewrite (SE k2 cam2 X j R2). unfold e. fold E2 W. rewrite <- (mvec_scal 4 E2 (d 3%nat) c j), <- mvec_add.
    apply mvec_arg. intros l Hl. assert (ZJ := Z l Hl). change (y l + -1 * W l + - d 3%nat * c l = 0) in ZJ. lra.
  - assert (EE : forall j, e j = seen k2 cam2 (centre cam1) j). { intros j. rewrite (SE k2 cam2 _ j R2). unfold e. fold E2. apply mvec_arg. exact CE. }
    unfold cross_v. rewrite !EE. reflexivity.
Qed.
(** hence the images of every world point meet the epipolar constraint *)
Theorem fundamental_from_poses_epipolar inv4 pin cam1 cam2 k1 k2 X : rigid cam1 -> rigid cam2 -> det3 k1 <> 0 ->
  meq 4 4 (mmul 4 (pose_mat cam1) (inv4 (pose_mat cam1))) eye ->
  penrose 3 4 (mmul 3 k1 (pose_mat cam1)) (pin (mmul 3 k1 (pose_mat cam1))) ->
  vdot 3 (seen k2 cam2 X) (mvec 3 (fundamental_from_poses inv4 pin cam1 cam2 k1 k2) (seen k1 cam1 X)) = 0.
Proof.
  intros R1 R2 DK HI HP. unfold vdot. cbn [sum]. rewrite !(fundamental_from_poses_line inv4 pin cam1 cam2 k1 k2 X) by (assumption || lia). unfold cross_v, vlist. cbn [nth]. ring.
Qed.
(** and the matrix is not zero unless the cameras have the same centre *)
Theorem fundamental_from_poses_nonzero inv4 pin cam1 cam2 k1 k2 : rigid cam1 -> rigid cam2 -> det3 k1 <> 0 -> det3 k2 <> 0 ->
  meq 4 4 (mmul 4 (pose_mat cam1) (inv4 (pose_mat cam1))) eye ->
  penrose 3 4 (mmul 3 k1 (pose_mat cam1)) (pin (mmul 3 k1 (pose_mat cam1))) ->
  centre cam1 <> centre cam2 -> nonzero 3 3 (fundamental_from_poses inv4 pin cam1 cam2 k1 k2).
Proof.
  intros R1 R2 DK DK2 HI HP NC. destruct (nonzero_or 3 3 (fundamental_from_poses inv4 pin cam1 cam2 k1 k2)) as [N|Z]; [exact N|]. exfalso.
  set (a := papp cam2 (centre cam1)). assert (NA : a <> v3zero). { intros E. apply NC. unfold centre at 2. rewrite <- E. unfold a. symmetry. apply (pose_inverse cam2 R2). }
  assert (CR : forall b i, (i < 3)%nat -> cross_v (mvec 3 k2 (vlist [vx a; vy a; vz a])) (mvec 3 k2 (vlist [vx b; vy b; vz b])) i = 0).
  { intros b i Hi. set (X := papp (pinv cam2) b). assert (L := fundamental_from_poses_line inv4 pin cam1 cam2 k1 k2 X i Hi R1 R2 DK HI HP).
    assert (EX : papp cam2 X = b) by (apply (pose_inverse cam2 R2)). unfold seen in L at 2 3. fold a in L. rewrite EX in L. rewrite <- L. unfold mvec at 1. apply sum_zero. intros j Hj. rewrite (Z i j Hi Hj). unfold mzero. ring. }
  assert (P : forall b, cross3 a b = v3zero).
  { intros b. assert (DD : forall i, (i < 3)%nat -> mvec 3 (tr k2) (cross_v (mvec 3 k2 (vlist [vx a; vy a; vz a])) (mvec 3 k2 (vlist [vx b; vy b; vz b]))) i = det3 k2 * vlist [vx (cross3 a b); vy (cross3 a b); vz (cross3 a b)] i).
    { intros i Hi. destruct a as [ax ay az], b as [bx by_ bz]. unfold mvec, cross_v, tr, det3, cross3, vlist. cbn [vx vy vz]. destruct i as [|[|[|]]]; [| | |lia]; cbn [sum nth]; ring. }
    assert (D0 : forall i, (i < 3)%nat -> vlist [vx (cross3 a b); vy (cross3 a b); vz (cross3 a b)] i = 0).
    { intros i Hi. apply (Rmult_eq_reg_l (det3 k2)); [|exact DK2]. rewrite <- (DD i Hi). unfold mvec at 1. rewrite (sum_zero 3); [ring|]. intros j Hj. rewrite (CR b j Hj). ring. }
    assert (D1 := D0 0%nat ltac:(lia)). assert (D2 := D0 1%nat ltac:(lia)). assert (D3 := D0 2%nat ltac:(lia)). unfold vlist in D1, D2, D3. cbn [nth] in D1, D2, D3. destruct (cross3 a b). cbn in D1, D2, D3. rewrite D1, D2, D3. reflexivity. }
  assert (P1 := P (V3 1 0 0)). assert (P2 := P (V3 0 1 0)). apply NA. destruct a as [ax ay az]. unfold cross3, v3zero in *. cbn [vx vy vz] in *.
  assert (Q1 := f_equal vy P1). assert (Q2 := f_equal vz P1). assert (Q3 := f_equal vz P2). cbn [vx vy vz] in Q1, Q2, Q3. f_equal; lra.
Qed.
(** a camera at the origin and one moved along the x axis *)
Example from_poses_case : exists inv4 pin, let cam2 := P qone (V3 1 0 0) in
  rigid pone /\ rigid cam2 /\ det3 eye <> 0 /\ meq 4 4 (mmul 4 (pose_mat pone) (inv4 (pose_mat pone))) eye /\
  penrose 3 4 (mmul 3 eye (pose_mat pone)) (pin (mmul 3 eye (pose_mat pone))) /\ centre pone <> centre cam2 /\
  meq 3 3 (fundamental_from_poses inv4 pin pone cam2 eye eye) (mlist [[0; 0; 0]; [0; 0; -1]; [0; 1; 0]]).
Proof.
  exists (fun _ => eye), (fun _ => eye). cbv zeta.
  assert (E : forall i j, pose_mat pone i j = if (i <? 3)%nat then (if (j <? 3)%nat then eye i j else if (j =? 3)%nat then 0 else pose_mat pone i j) else pose_mat pone i j).
  { intros i j. destruct i as [|[|[|]]]; [| | |reflexivity]; (destruct j as [|[|[|[|]]]]; unfold pose_mat, pone, qone, eye; un; cbn; try ring; reflexivity). }
  split; [unfold rigid, pone; un; ring|]. split; [unfold rigid; un; ring|]. split; [rewrite det3_eye; lra|].
  split; [intros i j Hi Hj; rewrite mmul_eye_r by exact Hj; apply pose_mat_one; assumption|]. split; [|split].
  - assert (EM : meq 3 4 (mmul 3 eye (pose_mat pone)) eye) by (intros i j Hi Hj; rewrite mmul_eye_l by exact Hi; apply pose_mat_one; lia).
    set (A := mmul 3 eye (pose_mat pone)) in *. clearbody A.
    repeat split; intros i j Hi Hj; unfold mmul, tr; cbn [sum]; rewrite ?EM by lia; unfold eye; (destruct i as [|[|[|[|]]]]; try lia); (destruct j as [|[|[|[|]]]]; try lia); cbn [Nat.eqb]; ring.
  - unfold centre, pone, v3zero. un. intros H. assert (X := f_equal vx H). cbn in X. lra.
  - intros i j Hi Hj. unfold fundamental_from_poses, skew3, mmul, mvec, pose_mat, pone, qone, eye, mlist, vlist. un. destruct i as [|[|[|]]]; [| | |lia]; (destruct j as [|[|[|]]]; [| | |lia]); cbn; ring.
Qed.

Print Assumptions fm_normalize_spec.
Print Assumptions fm_normalize_fails.
Print Assumptions fm_system_iff.
Print Assumptions every_one.
Print Assumptions every_spec.
Print Assumptions fundamental_singular.
Print Assumptions fundamental_exact.
Print Assumptions fundamental_throws.
Print Assumptions fundamental_step_refuted.
Print Assumptions fundamental_from_poses_line.
Print Assumptions fundamental_from_poses_epipolar.
Print Assumptions fundamental_from_poses_nonzero.

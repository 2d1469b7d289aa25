(** Homography by direct linear transformation (C50, C99). *)
From Coq Require Import Reals Lra Lia List Arith Bool.
Import ListNotations.
From Verif Require Import Mat Quat QuatProofs LinAlg LinAlgProps Dlt DltProofs.
Open Scope R_scope.

(** * the system *)
(** for a regular matrix the algebraic relation says that the point is mapped to its partner *)
Lemma regular_kernel H e : det3 H <> 0 -> (forall i, (i < 3)%nat -> mvec 3 H e i = 0) -> forall i, (i < 3)%nat -> e i = 0.
Proof.
  intros D Z. assert (Z0 := Z 0%nat ltac:(lia)). assert (Z1 := Z 1%nat ltac:(lia)). assert (Z2 := Z 2%nat ltac:(lia)).
  unfold mvec in Z0, Z1, Z2. cbn [sum] in Z0, Z1, Z2. unfold det3 in D. cbv zeta in D.
  set (a := H 0%nat 0%nat) in *. set (b := H 0%nat 1%nat) in *. set (c := H 0%nat 2%nat) in *. set (d := H 1%nat 0%nat) in *. set (e' := H 1%nat 1%nat) in *. set (f := H 1%nat 2%nat) in *.
  set (g := H 2%nat 0%nat) in *. set (h := H 2%nat 1%nat) in *. set (k := H 2%nat 2%nat) in *. set (x := e 0%nat) in *. set (y := e 1%nat) in *. set (z := e 2%nat) in *.
  set (dd := a * e' * k - a * f * h + b * f * g - b * d * k + c * d * h - c * e' * g) in *.
  assert (X : dd * x = 0) by (transitivity ((0 + a * x + b * y + c * z) * (e' * k - f * h) + (0 + d * x + e' * y + f * z) * (c * h - b * k) + (0 + g * x + h * y + k * z) * (b * f - c * e')); [unfold dd; ring|rewrite Z0, Z1, Z2; ring]).
  assert (Y : dd * y = 0) by (transitivity ((0 + a * x + b * y + c * z) * (f * g - d * k) + (0 + d * x + e' * y + f * z) * (a * k - c * g) + (0 + g * x + h * y + k * z) * (c * d - a * f)); [unfold dd; ring|rewrite Z0, Z1, Z2; ring]).
  assert (W : dd * z = 0) by (transitivity ((0 + a * x + b * y + c * z) * (d * h - e' * g) + (0 + d * x + e' * y + f * z) * (b * g - a * h) + (0 + g * x + h * y + k * z) * (a * e' - b * d)); [unfold dd; ring|rewrite Z0, Z1, Z2; ring]).
  intros i Hi. destruct i as [|[|[|]]]; [fold x|fold y|fold z|lia]; eapply Rmult_eq_reg_l; try exact D; rewrite Rmult_0_r; assumption.
Qed.
Theorem hmaps_iff_projected H f t : det3 H <> 0 -> (hmaps H f t <-> projected (mvec 3 H (hom2 f)) t).
Proof.
  intros D. unfold hmaps, incident_at, projected. split.
  - intros [A B]. split; [|split; [rewrite A; ring|rewrite B; ring]]. intros Z. rewrite Z in A, B.
    assert (K := regular_kernel H (hom2 f) D ltac:(intros i Hi; destruct i as [|[|[|]]]; [rewrite A; ring|rewrite B; ring|exact Z|lia]) 2%nat ltac:(lia)).
    unfold hom2, vlist in K. cbn in K. lra.
  - intros (_ & A & B). split; [rewrite A; ring|rewrite B; ring].
Qed.
Theorem homography_system_iff fs fc ts tc from to H : (forall i, (i < 2)%nat -> fc i <> 0) -> (forall i, (i < 2)%nat -> tc i <> 0) ->
  (solves 9 (homography_system fs fc ts tc from to) (entries 3 H) <->
   forall f t, In (f, t) (combine from to) -> hmaps (denorm_h fs fc ts tc H) f t).
Proof.
  intros NF NT. unfold homography_system. rewrite solves_flat_map. split.
  - intros S f t Hi. specialize (S (f, t) Hi). cbn [fst snd] in S. apply (denorm_h_iff fs fc ts tc H f t NF NT), homography_rows_iff, S.
  - intros S [f t] Hi. cbn [fst snd]. apply homography_rows_iff, (denorm_h_iff fs fc ts tc H f t NF NT), S, Hi.
Qed.

(** * the result *)
Definition nonzero (m n : nat) (H : mat) : Prop := exists i j, (i < m)%nat /\ (j < n)%nat /\ H i j <> 0.
(** the singular value decomposition of the system of this input is right *)
Definition h_svd_ok (svd : gesvd_vt) (from to : list vect) : Prop := forall fs fc ts tc,
  norm_params from = Some (fs, fc) -> norm_params to = Some (ts, tc) ->
  let rows := homography_system fs fc ts tc from to in
  least_direction (length rows) 9 (rows_mat rows) (fun j => svd (length rows) (rows_mat rows) 8%nat j).
Lemma nonzero_or m n H : nonzero m n H \/ meq m n H mzero.
Proof.
  revert n. induction m as [|m IH]; intros n; [right; intros i j Hi; lia|].
  destruct (IH n) as [(i & j & Hi & Hj & N)|Z]; [left; exists i, j; repeat split; auto|].
  assert (D : (exists j, (j < n)%nat /\ H m j <> 0) \/ forall j, (j < n)%nat -> H m j = 0).
  { clear. induction n as [|n IHn]; [right; lia|]. destruct IHn as [(j & Hj & N)|Z]; [left; exists j; split; [lia|exact N]|].
    destruct (Req_dec (H m n) 0) as [E|N]; [|left; exists n; split; [lia|exact N]]. right. intros j Hj. destruct (Nat.eq_dec j n) as [->|]; [exact E|apply Z; lia]. }
  destruct D as [(j & Hj & N)|Z']; [left; exists m, j; repeat split; auto|]. right. intros i j Hi Hj.
  destruct (Nat.eq_dec i m) as [->|]; [apply Z', Hj|apply Z; lia].
Qed.
Lemma entries_nonzero m n H : nonzero m n H -> exists k, (k < n * m)%nat /\ entries n H k <> 0.
Proof.
  intros (i & j & Hi & Hj & N). exists (n * i + j)%nat. split; [nia|]. unfold entries.
  replace ((n * i + j) / n)%nat with i by (apply Nat.div_unique with j; lia). replace ((n * i + j) mod n)%nat with j by (apply Nat.mod_unique with i; lia). exact N.
Qed.
Lemma vdot_entries v n m r : (0 < n)%nat -> vdot (n * m) r (entries n (of_entries n v)) = vdot (n * m) r v.
Proof. intros Hn. apply vdot_ext; [intros i _; reflexivity|]. intros i Hi. unfold entries, of_entries. f_equal. symmetry. apply Nat.div_mod. lia. Qed.
Lemma solves_entries n m rows v : (0 < n)%nat -> (solves (n * m) rows (entries n (of_entries n v)) <-> solves (n * m) rows v).
Proof. intros Hn. unfold solves. split; intros H r Hr; specialize (H r Hr); rewrite vdot_entries in * by exact Hn; exact H. Qed.

Lemma zero_entries n m v : (0 < n)%nat -> meq m n (of_entries n v) mzero -> vdot (n * m) v v = 0.
Proof.
  intros Hn Z. apply sum_zero. intros k Hk. assert (EK : v k = of_entries n v (k / n)%nat (k mod n)%nat) by (unfold of_entries; f_equal; apply Nat.div_mod; lia).
  rewrite EK, Z; [unfold mzero; ring|apply Nat.div_lt_upper_bound; lia|apply Nat.mod_upper_bound; lia].
Qed.
(** if any matrix fits all correspondences, then so does the result, which does not vanish *)
Theorem homography_dlt_sound svd from to H H0 : h_svd_ok svd from to ->
  nonzero 3 3 H0 -> (forall f t, In (f, t) (combine from to) -> hmaps H0 f t) ->
  homography_dlt svd from to = Some H ->
  nonzero 3 3 H /\ forall f t, In (f, t) (combine from to) -> hmaps H f t.
Proof.
  intros SV N0 M0. unfold homography_dlt. destruct (norm_params from) as [[fs fc]|] eqn:NF; [|discriminate]. destruct (norm_params to) as [[ts tc]|] eqn:NT; [|discriminate].
  destruct (scale_ok 2 fc && scale_ok 2 tc) eqn:OK; [|discriminate]. apply andb_prop in OK. destruct OK as [OF OT]. rewrite scale_ok_iff in OF, OT.
  specialize (SV fs fc ts tc NF NT). cbv zeta in SV. set (rows := homography_system fs fc ts tc from to) in *. set (v := fun j => svd (length rows) (rows_mat rows) 8%nat j) in *.
  intros E. injection E as E. change (denorm_h fs fc ts tc (of_entries 3 v) = H) in E.
  set (G0 := renorm_h fs fc ts tc H0).
  assert (RD : meq 3 3 (denorm_h fs fc ts tc G0) H0) by (apply denorm_renorm_h; assumption).
  assert (NG : nonzero 3 3 G0).
  { destruct (nonzero_or 3 3 G0) as [N|Z]; [exact N|]. exfalso. destruct N0 as (i & j & Hi & Hj & N). apply N. rewrite <- (RD i j Hi Hj). apply (sandwich_zero 3 3 _ _ _ Z i j Hi Hj). }
  assert (SG : solves 9 rows (entries 3 G0)).
  { apply (homography_system_iff fs fc ts tc from to G0 OF OT). intros f t Hi. apply (hmaps_ext _ _ f t RD). apply M0, Hi. }
  assert (SV0 : solves 9 rows v).
  { apply rows_solves. apply (least_direction_kernel _ 9 _ v (entries 3 G0) SV (entries_nonzero 3 3 G0 NG)). apply rows_solves, SG. }
  split.
  - destruct (nonzero_or 3 3 H) as [N|Z]; [exact N|]. exfalso. destruct SV as [U _].
    assert (ZV : meq 3 3 (of_entries 3 v) mzero).
    { intros i j Hi Hj. rewrite <- (renorm_denorm_h fs fc ts tc (of_entries 3 v) OF OT i j Hi Hj). rewrite E. apply (sandwich_zero 3 3 _ _ _ Z i j Hi Hj). }
    assert (V0 := zero_entries 3 3 v ltac:(lia) ZV : vdot 9 v v = 0).
    lra.
  - rewrite <- E. apply (homography_system_iff fs fc ts tc from to _ OF OT). apply (solves_entries 3 3 rows v); [lia|exact SV0].
Qed.
(** in general: least sum of squared algebraic errors among all matrices of unit length, in normalised coordinates *)
Theorem homography_dlt_optimal svd from to H : h_svd_ok svd from to -> homography_dlt svd from to = Some H ->
  exists fs fc ts tc v, norm_params from = Some (fs, fc) /\ norm_params to = Some (ts, tc) /\ H = denorm_h fs fc ts tc (of_entries 3 v) /\ vdot 9 v v = 1 /\
  forall x, vdot 9 x x = 1 ->
    let err h := fold_right (fun r a => vdot 9 r h * vdot 9 r h + a) 0 (homography_system fs fc ts tc from to) in err v <= err x.
Proof.
  intros SV. unfold homography_dlt. destruct (norm_params from) as [[fs fc]|] eqn:NF; [|discriminate]. destruct (norm_params to) as [[ts tc]|] eqn:NT; [|discriminate].
  destruct (scale_ok 2 fc && scale_ok 2 tc) eqn:OK; [|discriminate]. intros E. injection E as E.
  destruct (SV fs fc ts tc NF NT) as [U L]. exists fs, fc, ts, tc, (fun j => svd (length (homography_system fs fc ts tc from to)) (rows_mat (homography_system fs fc ts tc from to)) 8%nat j).
  split; [reflexivity|]. split; [reflexivity|]. split; [symmetry; exact E|]. split; [exact U|]. intros x Ux. cbv zeta. rewrite <- !rows_energy. apply L, Ux.
Qed.

(** * four points in general position determine the homography *)
Definition area (a b c : vect) : R :=
  a 0%nat * b 1%nat - a 1%nat * b 0%nat + b 0%nat * c 1%nat - b 1%nat * c 0%nat + c 0%nat * a 1%nat - c 1%nat * a 0%nat.
Definition general_position (a b c d : vect) : Prop := area a b c <> 0 /\ area a b d <> 0 /\ area a c d <> 0 /\ area b c d <> 0.
Lemma hmaps_multiple H H0 f t : det3 H0 <> 0 -> hmaps H0 f t -> hmaps H f t ->
  exists mu, veq 3 (mvec 3 H (hom2 f)) (fun i => mu * mvec 3 H0 (hom2 f) i).
Proof.
  intros D M0 M. destruct (proj1 (hmaps_iff_projected H0 f t D) M0) as (N & A & B). destruct M as [A' B'].
  exists (mvec 3 H (hom2 f) 2%nat / mvec 3 H0 (hom2 f) 2%nat). intros i Hi. destruct i as [|[|[|]]]; [rewrite A', A|rewrite B', B| |lia]; field; exact N.
Qed.
Lemma det_product H a b c : let e x := mvec 3 H (hom2 x) in
  det3 (fun i j => (match j with 0 => e a | 1 => e b | _ => e c end)%nat i) = det3 H * area a b c.
Proof. cbv zeta. unfold det3, area, mvec, hom2, vlist. cbn [sum nth]. ring. Qed.
Lemma row_vanishes a b c (r : vect) : area a b c <> 0 -> vdot 3 r (hom2 a) = 0 -> vdot 3 r (hom2 b) = 0 -> vdot 3 r (hom2 c) = 0 -> veq 3 r (fun _ => 0).
Proof.
  intros N A B C. unfold vdot, hom2, vlist in A, B, C. cbn [sum nth] in A, B, C.
  assert (X : area a b c * r 0%nat = 0).
  { transitivity ((0 + r 0%nat * a 0%nat + r 1%nat * a 1%nat + r 2%nat * 1) * (b 1%nat - c 1%nat) + (0 + r 0%nat * b 0%nat + r 1%nat * b 1%nat + r 2%nat * 1) * (c 1%nat - a 1%nat) + (0 + r 0%nat * c 0%nat + r 1%nat * c 1%nat + r 2%nat * 1) * (a 1%nat - b 1%nat)); [unfold area; ring|rewrite A, B, C; ring]. }
  assert (Y : area a b c * r 1%nat = 0).
  { transitivity ((0 + r 0%nat * a 0%nat + r 1%nat * a 1%nat + r 2%nat * 1) * (c 0%nat - b 0%nat) + (0 + r 0%nat * b 0%nat + r 1%nat * b 1%nat + r 2%nat * 1) * (a 0%nat - c 0%nat) + (0 + r 0%nat * c 0%nat + r 1%nat * c 1%nat + r 2%nat * 1) * (b 0%nat - a 0%nat)); [unfold area; ring|rewrite A, B, C; ring]. }
  assert (X' : r 0%nat = 0) by (apply Rmult_integral in X; tauto). assert (Y' : r 1%nat = 0) by (apply Rmult_integral in Y; tauto).
  intros i Hi. destruct i as [|[|[|]]]; [exact X'|exact Y'|rewrite X', Y' in A; lra|lia].
Qed.
Theorem homography_unique H H0 a b c d ta tb tc td : general_position a b c d -> det3 H0 <> 0 ->
  hmaps H0 a ta -> hmaps H0 b tb -> hmaps H0 c tc -> hmaps H0 d td ->
  hmaps H a ta -> hmaps H b tb -> hmaps H c tc -> hmaps H d td ->
  exists mu, meq 3 3 H (mscale mu H0).
Proof.
  intros (Nabc & Nabd & Nacd & Nbcd) D A0 B0 C0 D0 A B C D1.
  destruct (hmaps_multiple H H0 a ta D A0 A) as [ma Ea]. destruct (hmaps_multiple H H0 b tb D B0 B) as [mb Eb]. destruct (hmaps_multiple H H0 c tc D C0 C) as [mc Ec]. destruct (hmaps_multiple H H0 d td D D0 D1) as [md Ed].
  (* area abc * d = area bcd * a - area acd * b + area abd * c, as homogeneous vectors *)
  set (ka := area b c d). set (kb := - area a c d). set (kc := area a b d).
  assert (CR : forall M i, area a b c * mvec 3 M (hom2 d) i = ka * mvec 3 M (hom2 a) i + kb * mvec 3 M (hom2 b) i + kc * mvec 3 M (hom2 c) i).
  { intros M i. unfold ka, kb, kc, area, mvec, hom2, vlist. cbn [sum nth]. ring. }
  assert (R : forall i, (i < 3)%nat -> ka * (ma - md) * mvec 3 H0 (hom2 a) i + kb * (mb - md) * mvec 3 H0 (hom2 b) i + kc * (mc - md) * mvec 3 H0 (hom2 c) i = 0).
  { intros i Hi. assert (E1 := CR H i). assert (E2 := CR H0 i). rewrite (Ea i Hi), (Eb i Hi), (Ec i Hi), (Ed i Hi) in E1.
    assert (E3 : area a b c * (md * mvec 3 H0 (hom2 d) i) = md * (area a b c * mvec 3 H0 (hom2 d) i)) by ring. rewrite E2, E1 in E3.
    match type of E3 with ?l = ?r => transitivity (l - r); [ring|rewrite E3; ring] end. }
  (* the images of a, b, c are independent *)
  set (M := fun i j : nat => (match j with 0 => mvec 3 H0 (hom2 a) | 1 => mvec 3 H0 (hom2 b) | _ => mvec 3 H0 (hom2 c) end)%nat i).
  assert (DM : det3 M <> 0). { unfold M. rewrite (det_product H0 a b c). intros Z. apply Rmult_integral in Z. tauto. }
  assert (KM := regular_kernel M (vlist [ka * (ma - md); kb * (mb - md); kc * (mc - md)]) DM).
  assert (KZ : forall i, (i < 3)%nat -> vlist [ka * (ma - md); kb * (mb - md); kc * (mc - md)] i = 0).
  { apply KM. intros i Hi. transitivity (ka * (ma - md) * mvec 3 H0 (hom2 a) i + kb * (mb - md) * mvec 3 H0 (hom2 b) i + kc * (mc - md) * mvec 3 H0 (hom2 c) i); [|apply R, Hi].
    unfold mvec at 1, vlist, M. cbn [sum nth]. ring. }
  assert (Za := KZ 0%nat ltac:(lia)). assert (Zb := KZ 1%nat ltac:(lia)). assert (Zc := KZ 2%nat ltac:(lia)). unfold vlist in Za, Zb, Zc. cbn [nth] in Za, Zb, Zc.
  assert (ma = md) by (apply Rmult_integral in Za; destruct Za as [Z|]; [contradiction|lra]).
  assert (mb = md) by (apply Rmult_integral in Zb; destruct Zb as [Z|]; [unfold kb in Z; exfalso; apply Nacd; lra|lra]).
  assert (mc = md) by (apply Rmult_integral in Zc; destruct Zc as [Z|]; [contradiction|lra]).
  exists md. intros i j Hi Hj.
  assert (V := row_vanishes a b c (fun j => H i j - md * H0 i j) Nabc).
  assert (L : forall x m, m = md -> veq 3 (mvec 3 H (hom2 x)) (fun i => m * mvec 3 H0 (hom2 x) i) -> vdot 3 (fun j => H i j - md * H0 i j) (hom2 x) = 0).
  { intros x m Em E. specialize (E i Hi). rewrite Em in E. transitivity (mvec 3 H (hom2 x) i - md * mvec 3 H0 (hom2 x) i); [|rewrite E; ring]. unfold vdot, mvec. cbn [sum]. ring. }
  specialize (V (L a ma ltac:(assumption) Ea) (L b mb ltac:(assumption) Eb) (L c mc ltac:(assumption) Ec) j Hj). cbv beta in V. unfold mscale. lra.
Qed.
Lemma norm_params_some pts : pts <> [] -> exists sh sc, norm_params pts = Some (sh, sc).
Proof. intros N. destruct pts; [congruence|]. cbn [norm_params]. eauto. Qed.
Lemma scale_nonzero_area pts sh sc a b c : norm_params pts = Some (sh, sc) -> In a pts -> In b pts -> In c pts -> area a b c <> 0 -> forall i, (i < 2)%nat -> sc i <> 0.
Proof.
  intros N Ha Hb Hc A i Hi Z. apply A. assert (E := proj1 (normalization_scale_zero pts sh sc i N) Z).
  assert (E1 := E a b Ha Hb). assert (E2 := E a c Ha Hc). unfold area. destruct i as [|[|]]; [| |lia]; rewrite <- E1, <- E2; ring.
Qed.
(** exact data: four of the correspondences in general position suffice; the result is the homography up to scale *)
Theorem homography_dlt_exact svd from to H0 a b c d ta tb tc td : h_svd_ok svd from to ->
  In (a, ta) (combine from to) -> In (b, tb) (combine from to) -> In (c, tc) (combine from to) -> In (d, td) (combine from to) ->
  general_position a b c d -> det3 H0 <> 0 ->
  (forall f t, In (f, t) (combine from to) -> projected (mvec 3 H0 (hom2 f)) t) ->
  exists H mu, homography_dlt svd from to = Some H /\ mu <> 0 /\ meq 3 3 H (mscale mu H0) /\
    forall f t, In (f, t) (combine from to) -> projected (mvec 3 H (hom2 f)) t.
Proof.
  intros SV Ia Ib Ic Id GP D M.
  assert (M0 : forall f t, In (f, t) (combine from to) -> hmaps H0 f t) by (intros f t Hi; apply hmaps_iff_projected; [exact D|apply M, Hi]).
  assert (N0 : nonzero 3 3 H0).
  { destruct (nonzero_or 3 3 H0) as [N|Z]; [exact N|]. exfalso. apply D. unfold det3. rewrite !Z by lia. unfold mzero. ring. }
  assert (FN : from <> []) by (intros E; rewrite E in Ia; destruct Ia). assert (TN : to <> []) by (intros E; rewrite E in Ia; destruct from; destruct Ia).
  destruct (norm_params_some from FN) as (fs & fc & NF). destruct (norm_params_some to TN) as (ts & tsc & NT).
  assert (OF : forall i, (i < 2)%nat -> fc i <> 0).
  { apply (scale_nonzero_area from fs fc a b c NF); [exact (in_combine_l _ _ _ _ Ia)|exact (in_combine_l _ _ _ _ Ib)|exact (in_combine_l _ _ _ _ Ic)|exact (proj1 GP)]. }
  assert (OT : forall i, (i < 2)%nat -> tsc i <> 0).
  { apply (scale_nonzero_area to ts tsc ta tb tc NT); [exact (in_combine_r _ _ _ _ Ia)|exact (in_combine_r _ _ _ _ Ib)|exact (in_combine_r _ _ _ _ Ic)|].
    intros Z. destruct (M a ta Ia) as (_ & Xa & Ya). destruct (M b tb Ib) as (_ & Xb & Yb). destruct (M c tc Ic) as (_ & Xc & Yc).
    assert (P := det_product H0 a b c). cbv zeta in P.
    assert (Q : det3 (fun i j => (match j with 0 => mvec 3 H0 (hom2 a) | 1 => mvec 3 H0 (hom2 b) | _ => mvec 3 H0 (hom2 c) end)%nat i) = mvec 3 H0 (hom2 a) 2%nat * mvec 3 H0 (hom2 b) 2%nat * mvec 3 H0 (hom2 c) 2%nat * area ta tb tc).
    { unfold det3. rewrite Xa, Ya, Xb, Yb, Xc, Yc. unfold area. ring. }
    assert (P' : det3 H0 * area a b c = 0) by (transitivity (mvec 3 H0 (hom2 a) 2%nat * mvec 3 H0 (hom2 b) 2%nat * mvec 3 H0 (hom2 c) 2%nat * area ta tb tc); [rewrite <- P; exact Q|rewrite Z; ring]). apply Rmult_integral in P'. destruct GP. tauto. }
  assert (E : exists H, homography_dlt svd from to = Some H).
  { unfold homography_dlt. rewrite NF, NT. rewrite (proj2 (scale_ok_iff 2 fc) OF), (proj2 (scale_ok_iff 2 tsc) OT). cbn [andb]. eauto. }
  destruct E as [H E]. destruct (homography_dlt_sound svd from to H H0 SV N0 M0 E) as [NH MH].
  destruct (homography_unique H H0 a b c d ta tb tc td GP D) as [mu EM]; try (apply M0; assumption); try (apply MH; assumption).
  exists H, mu. assert (NM : mu <> 0).
  { intros Z. destruct NH as (i & j & Hi & Hj & N). apply N. rewrite (EM i j Hi Hj). unfold mscale. rewrite Z. ring. }
  split; [exact E|]. split; [exact NM|]. split; [exact EM|]. intros f t Hi.
  apply hmaps_iff_projected; [|apply MH, Hi]. intros Z. apply D.
  assert (DE : det3 H = mu * mu * mu * det3 H0) by (unfold det3; rewrite !EM by lia; unfold mscale; ring).
  rewrite DE in Z. apply Rmult_integral in Z. destruct Z as [Z|Z]; [|exact Z]. exfalso. apply NM. apply Rmult_integral in Z. destruct Z as [Z|]; [|assumption]. apply Rmult_integral in Z. tauto.
Qed.
(** gesvd with the documented contract has the property used *)
Theorem full_svd_sufficient svd from to : (forall m A, exists U s, full_svd m 9 A U s (svd m A)) -> h_svd_ok svd from to.
Proof.
  intros F fs fc ts tc _ _. cbv zeta. set (rows := homography_system fs fc ts tc from to). destruct (F (length rows) (rows_mat rows)) as (U & s & C).
  exact (full_svd_last _ 8 _ U s _ C).
Qed.

(** the corners of a square, identity *)
Definition sq_pts : list vect := [vlist [1; 1]; vlist [1; -1]; vlist [-1; 1]; vlist [-1; -1]].
Lemma sq_norm : exists fs fc, norm_params sq_pts = Some (fs, fc) /\ fs 0%nat = 0 /\ fs 1%nat = 0 /\ fc 0%nat = 1 /\ fc 1%nat = 1.
Proof.
  unfold norm_params, sq_pts. eexists _, _. split; [reflexivity|]. unfold vscale, vadd, vlist. cbn [fold_left nth length]. cbn [INR].
  assert (S1 : forall x, x = 1 -> sqrt x = 1) by (intros x ->; apply sqrt_1).
  repeat split; try (apply S1); field.
Qed.
Example sq_found : exists svd H mu, h_svd_ok svd sq_pts sq_pts /\ homography_dlt svd sq_pts sq_pts = Some H /\ mu <> 0 /\ meq 3 3 H (mscale mu eye).
Proof.
  set (c := / sqrt 3). exists (fun _ _ _ j => c * entries 3 eye j).
  assert (CC : c * c * 3 = 1). { unfold c. rewrite <- Rinv_mult, sqrt_sqrt by lra. field. }
  assert (OK : h_svd_ok (fun _ _ _ j => c * entries 3 eye j) sq_pts sq_pts).
  { intros fs fc ts tc NF NT. cbv zeta. destruct sq_norm as (fs' & fc' & N & F0 & F1 & C0 & C1). rewrite N in NF, NT.
    assert (fs' = fs) by congruence. assert (fc' = fc) by congruence. assert (fs' = ts) by congruence. assert (fc' = tc) by congruence. subst.
    split.
    - unfold vdot, entries, eye. cbn. lra.
    - intros x _. rewrite rows_energy.
      match goal with |- ?l <= _ => replace l with 0 end; [apply sum_nonneg; intros; apply Rle_0_sqr|].
      symmetry. assert (S : solves 9 (homography_system ts tc ts tc sq_pts sq_pts) (fun j => c * entries 3 eye j)).
      { unfold homography_system. apply solves_flat_map. intros [f t] Hi. cbn [fst snd].
        assert (EQ : f = t) by (cbn in Hi; repeat (destruct Hi as [Hi|Hi]; [congruence|]); destruct Hi). rewrite EQ.
        assert (L := proj2 (homography_rows_iff eye (normalize_point ts tc t) (normalize_point ts tc t))).
        assert (HM : hmaps eye (normalize_point ts tc t) (normalize_point ts tc t)) by (unfold hmaps, incident_at; rewrite !mvec_eye by lia; unfold hom2, vlist; cbn; split; ring).
        intros r Hr. transitivity (c * vdot 9 r (entries 3 eye)); [unfold vdot; rewrite <- sum_scal_l; apply sum_ext; intros; ring|]. rewrite (L HM r Hr). ring. }
      clear -S. induction (homography_system ts tc ts tc sq_pts sq_pts) as [|r l IH]; [reflexivity|]. cbn [fold_right]. rewrite IH by (intros q Hq; apply S; right; exact Hq). rewrite (S r (or_introl eq_refl)). ring. }
  destruct (homography_dlt_exact _ sq_pts sq_pts eye (vlist [1; 1]) (vlist [1; -1]) (vlist [-1; 1]) (vlist [-1; -1]) (vlist [1; 1]) (vlist [1; -1]) (vlist [-1; 1]) (vlist [-1; -1]) OK) as (H & mu & E & N & EM & _).
  1-4: cbn; tauto.
  - unfold general_position, area, vlist. cbn [nth]. repeat split; lra.
  - unfold det3, eye. cbn. lra.
  - intros f t Hi. assert (EQ : f = t) by (cbn in Hi; repeat (destruct Hi as [Hi|Hi]; [congruence|]); destruct Hi). rewrite EQ.
    unfold projected. rewrite !mvec_eye by lia. unfold hom2, vlist. cbn. split; [lra|split; ring].
  - exists H, mu. tauto.
Qed.

Print Assumptions hmaps_iff_projected.
Print Assumptions homography_system_iff.
Print Assumptions homography_dlt_sound.
Print Assumptions homography_dlt_optimal.
Print Assumptions homography_unique.
Print Assumptions homography_dlt_exact.
Print Assumptions full_svd_sufficient.

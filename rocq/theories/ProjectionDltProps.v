(** Projection matrix by direct linear transformation (C50, C100). *)
From Coq Require Import Reals Lra Lia List Arith Bool.
Import ListNotations.
From Verif Require Import Mat Quat QuatProofs LinAlg LinAlgProps Dlt DltProofs HomographyProps.
Open Scope R_scope.

Theorem projection_system_iff fs fc ts tc from to P : (forall i, (i < 3)%nat -> fc i <> 0) -> (forall i, (i < 2)%nat -> tc i <> 0) ->
  (solves 12 (projection_system fs fc ts tc from to) (entries 4 P) <->
   forall f t, In (f, t) (combine from to) -> pmaps (denorm_p fs fc ts tc P) f t).
Proof.
  intros NF NT. unfold projection_system. rewrite solves_flat_map. split.
  - intros S f t Hi. specialize (S (f, t) Hi). cbn [fst snd] in S. apply (denorm_p_iff fs fc ts tc P f t NF NT), projection_rows_iff, S.
  - intros S [f t] Hi. cbn [fst snd]. apply projection_rows_iff, (denorm_p_iff fs fc ts tc P f t NF NT), S, Hi.
Qed.
(** a point that is not the centre of projection satisfies the relation iff it is projected to its partner *)
Theorem pmaps_iff_projected P f t : (exists i, (i < 3)%nat /\ mvec 4 P (hom3 f) i <> 0) -> (pmaps P f t <-> projected (mvec 4 P (hom3 f)) t).
Proof.
  intros (i & Hi & N). unfold pmaps, incident_at, projected. split.
  - intros [A B]. split; [|split; [rewrite A; ring|rewrite B; ring]]. intros Z. rewrite Z in A, B. apply N. destruct i as [|[|[|]]]; [rewrite A; ring|rewrite B; ring|exact Z|lia].
  - intros (_ & A & B). split; [rewrite A; ring|rewrite B; ring].
Qed.

Definition p_svd_ok (svd : gesvd_vt) (from to : list vect) : Prop := forall fs fc ts tc,
  norm_params from = Some (fs, fc) -> norm_params to = Some (ts, tc) ->
  let rows := projection_system fs fc ts tc from to in
  least_direction (length rows) 12 (rows_mat rows) (fun j => svd (length rows) (rows_mat rows) 11%nat j).
Theorem p_full_svd_sufficient svd from to : (forall m A, exists U s, full_svd m 12 A U s (svd m A)) -> p_svd_ok svd from to.
Proof.
  intros F fs fc ts tc _ _. cbv zeta. set (rows := projection_system fs fc ts tc from to). destruct (F (length rows) (rows_mat rows)) as (U & s & C).
  exact (full_svd_last _ 11 _ U s _ C).
Qed.

(** the viewing row of the result has length one and the first point lies in front of the camera *)
Definition view_length (P : mat) : R := P 2%nat 0%nat * P 2%nat 0%nat + P 2%nat 1%nat * P 2%nat 1%nat + P 2%nat 2%nat * P 2%nat 2%nat.
Lemma unit_view_spec P first P' : unit_view P first = Some P' ->
  exists k, k <> 0 /\ meq 3 4 P' (mscale k P) /\ view_length P' = 1 /\ 0 <= mvec 4 P' (hom3 first) 2%nat.
Proof.
  unfold unit_view. set (len := sqrt _). set (dep := P 2%nat 0%nat * first 0%nat + P 2%nat 1%nat * first 1%nat + P 2%nat 2%nat * first 2%nat + P 2%nat 3%nat).
  set (l := if Rlt_dec dep 0 then - len else len). destruct (Req_EM_T l 0) as [|N]; [discriminate|]. intros E. assert (EP : P' = mscale (1 / l) P) by congruence. clear E.
  assert (L0 : 0 <= len) by apply sqrt_pos.
  assert (NL : len <> 0) by (intros Z; apply N; unfold l; destruct (Rlt_dec dep 0); lra).
  assert (LL : len * len = view_length P).
  { unfold len, view_length. apply sqrt_sqrt. pose proof (Rle_0_sqr (P 2%nat 0%nat)). pose proof (Rle_0_sqr (P 2%nat 1%nat)). pose proof (Rle_0_sqr (P 2%nat 2%nat)). unfold Rsqr in *. lra. }
  assert (L2 : l * l = view_length P) by (unfold l; destruct (Rlt_dec dep 0); lra).
  exists (1 / l). split; [|split; [|split]].
  - intros Z. assert (1 / l * l = 1) by (field; exact N). rewrite Z in H. lra.
  - rewrite EP. apply meq_refl.
  - rewrite EP. transitivity (1 / l * (1 / l) * view_length P); [unfold view_length, mscale; ring|]. rewrite <- L2. field. exact N.
  - rewrite EP. replace (mvec 4 (mscale (1 / l) P) (hom3 first) 2%nat) with (dep / l) by (unfold mvec, mscale, hom3, vlist, dep; cbn [sum nth]; field; exact N).
    unfold l. destruct (Rlt_dec dep 0).
    + replace (dep / - len) with ((- dep) / len) by (field; exact NL). apply Rmult_le_pos; [lra|]. left. apply Rinv_0_lt_compat. lra.
    + apply Rmult_le_pos; [lra|]. left. apply Rinv_0_lt_compat. lra.
Qed.
Theorem projection_dlt_normal_form svd from to P : projection_dlt svd from to = Some P ->
  view_length P = 1 /\ 0 <= mvec 4 P (hom3 (hd (fun _ => 0) from)) 2%nat.
Proof.
  unfold projection_dlt. destruct (norm_params from) as [[fs fc]|]; [|discriminate]. destruct (norm_params to) as [[ts tc]|]; [|discriminate].
  destruct (scale_ok 3 fc && scale_ok 2 tc); [|discriminate]. intros E. apply unit_view_spec in E. destruct E as (_ & _ & _ & A). exact A.
Qed.
(** if any matrix fits all correspondences then so does the result, which does not vanish *)
Theorem projection_dlt_sound svd from to P P0 : p_svd_ok svd from to ->
  nonzero 3 4 P0 -> (forall f t, In (f, t) (combine from to) -> pmaps P0 f t) ->
  projection_dlt svd from to = Some P ->
  nonzero 3 4 P /\ forall f t, In (f, t) (combine from to) -> pmaps P f t.
Proof.
  intros SV N0 M0. unfold projection_dlt. destruct (norm_params from) as [[fs fc]|] eqn:NF; [|discriminate]. destruct (norm_params to) as [[ts tc]|] eqn:NT; [|discriminate].
  destruct (scale_ok 3 fc && scale_ok 2 tc) eqn:OK; [|discriminate]. apply andb_prop in OK. destruct OK as [OF OT]. rewrite scale_ok_iff in OF, OT.
  specialize (SV fs fc ts tc NF NT). cbv zeta in SV. set (rows := projection_system fs fc ts tc from to) in *. set (v := fun j => svd (length rows) (rows_mat rows) 11%nat j) in *.
  intros E. change (unit_view (denorm_p fs fc ts tc (of_entries 4 v)) (hd (fun _ => 0) from) = Some P) in E.
  destruct (unit_view_spec _ _ _ E) as (k & NK & EK & VL & _).
  set (G0 := renorm_p fs fc ts tc P0).
  assert (RD : meq 3 4 (denorm_p fs fc ts tc G0) P0) by (apply denorm_renorm_p; assumption).
  assert (NG : nonzero 3 4 G0).
  { destruct (nonzero_or 3 4 G0) as [N|Z]; [exact N|]. exfalso. destruct N0 as (i & j & Hi & Hj & N). apply N. rewrite <- (RD i j Hi Hj). apply (sandwich_zero 3 4 _ _ _ Z i j Hi Hj). }
  assert (SG : solves 12 rows (entries 4 G0)).
  { apply (projection_system_iff fs fc ts tc from to G0 OF OT). intros f t Hi. apply (pmaps_ext _ _ f t RD). apply M0, Hi. }
  assert (SV0 : solves 12 rows v).
  { apply rows_solves. apply (least_direction_kernel _ 12 _ v (entries 4 G0) SV (entries_nonzero 3 4 G0 NG)). apply rows_solves, SG. }
  split.
  - destruct (nonzero_or 3 4 P) as [N|Z]; [exact N|]. exfalso. unfold view_length in VL. rewrite !Z in VL by lia. unfold mzero in VL. lra.
  - intros f t Hi. apply (pmaps_ext _ _ f t EK).
    assert (Q : pmaps (denorm_p fs fc ts tc (of_entries 4 v)) f t).
    { revert f t Hi. apply (projection_system_iff fs fc ts tc from to _ OF OT). apply (solves_entries 4 3 rows v); [lia|exact SV0]. }
    unfold pmaps, incident_at in *. assert (M : forall i, mvec 4 (mscale k (denorm_p fs fc ts tc (of_entries 4 v))) (hom3 f) i = k * mvec 4 (denorm_p fs fc ts tc (of_entries 4 v)) (hom3 f) i).
    { intros i. unfold mvec. rewrite <- sum_scal_l. apply sum_ext. intros; unfold mscale; ring. }
    rewrite !M. destruct Q as [A B]. rewrite A, B. split; ring.
Qed.
(** the correspondences determine the matrix up to scale *)
Definition determines_p (from to : list vect) (P0 : mat) : Prop :=
  forall P, (forall f t, In (f, t) (combine from to) -> pmaps P f t) -> exists mu, meq 3 4 P (mscale mu P0).
Definition regular_camera (P : mat) : Prop := det3 P <> 0.
Lemma determined_spread from to P0 : from <> [] -> length from = length to -> regular_camera P0 -> (forall f t, In (f, t) (combine from to) -> pmaps P0 f t) -> determines_p from to P0 ->
  forall i c, (i < 3)%nat -> ~ (forall f, In f from -> f i = c).
Proof.
  intros FN L RC M0 DT i c Hi AE.
  set (pl := fun j : nat => if (j =? i)%nat then 1 else if (j =? 3)%nat then - c else 0).
  assert (PL : forall f, In f from -> vdot 4 pl (hom3 f) = 0).
  { intros f Hf. assert (E := AE f Hf). unfold vdot, pl, hom3, vlist. destruct i as [|[|[|]]]; [| | |lia]; cbn [sum Nat.eqb nth]; lra. }
  assert (X : forall r, (r < 3)%nat -> exists mu, meq 3 4 (fun k j => P0 k j + (if (k =? r)%nat then pl j else 0)) (mscale mu P0)).
  { intros r Hr. apply DT. intros f t Hft. assert (Hf := in_combine_l _ _ _ _ Hft). specialize (M0 f t Hft). unfold pmaps, incident_at in *.
    assert (Q : forall k, mvec 4 (fun k j => P0 k j + (if (k =? r)%nat then pl j else 0)) (hom3 f) k = mvec 4 P0 (hom3 f) k).
    { intros k. unfold mvec. rewrite (sum_ext 4 _ (fun j => P0 k j * hom3 f j + (if (k =? r)%nat then pl j * hom3 f j else 0))); [|intros j _; destruct (k =? r)%nat; ring].
      rewrite sum_plus. destruct (k =? r)%nat; [|rewrite (sum_zero 4 (fun _ => 0)) by reflexivity; ring]. fold (vdot 4 pl (hom3 f)). rewrite PL by exact Hf. ring. }
    rewrite !Q. exact M0. }
  destruct (X 0%nat ltac:(lia)) as [m0 E0]. destruct (X 1%nat ltac:(lia)) as [m1 E1].
  unfold mscale in *. apply RC. assert (PI : pl i = 1) by (unfold pl; rewrite Nat.eqb_refl; reflexivity).
  assert (A0 := E0 0%nat i ltac:(lia) ltac:(lia)). cbn [Nat.eqb] in A0. rewrite PI in A0.
  assert (NM : m0 - 1 <> 0) by (intros Z; assert (ZZ : m0 = 1) by lra; rewrite ZZ in A0; lra).
  assert (R1 : forall j, (j < 3)%nat -> P0 1%nat j = 0).
  { intros j Hj. assert (B := E0 1%nat j ltac:(lia) ltac:(lia)). cbn [Nat.eqb] in B. assert (BB : (m0 - 1) * P0 1%nat j = 0) by lra. apply Rmult_integral in BB. tauto. }
  unfold det3. rewrite !R1 by lia. ring.
Qed.
Lemma determined_image from to P0 : regular_camera P0 -> (forall f t, In (f, t) (combine from to) -> pmaps P0 f t) -> determines_p from to P0 -> length from = length to ->
  forall i c, (i < 2)%nat -> ~ (forall t, In t to -> t i = c).
Proof.
  intros RC M0 DT L i c Hi AE.
  destruct (DT (fun k j => if (k =? i)%nat then c * P0 2%nat j else P0 k j)) as [mu E].
  { intros f t Hft. assert (Ht := in_combine_r _ _ _ _ Hft). specialize (M0 f t Hft). specialize (AE t Ht). unfold pmaps, incident_at in *.
    assert (Q : forall k, mvec 4 (fun k j => if (k =? i)%nat then c * P0 2%nat j else P0 k j) (hom3 f) k = if (k =? i)%nat then c * mvec 4 P0 (hom3 f) 2%nat else mvec 4 P0 (hom3 f) k).
    { intros k. unfold mvec. destruct (k =? i)%nat; [rewrite <- sum_scal_l; apply sum_ext; intros; ring|reflexivity]. }
    rewrite !Q. destruct i as [|[|]]; [| |lia]; cbn [Nat.eqb]; rewrite AE in *; tauto. }
  unfold mscale in E. apply RC.
  assert (E2 : forall j, (j < 3)%nat -> P0 2%nat j = mu * P0 2%nat j).
  { intros j Hj. assert (B := E 2%nat j ltac:(lia) ltac:(lia)). destruct i as [|[|]]; [| |lia]; cbn [Nat.eqb] in B; exact B. }
  destruct (Req_dec mu 1) as [->|N].
  - assert (EI : forall j, (j < 3)%nat -> P0 i j = c * P0 2%nat j). { intros j Hj. assert (B := E i j ltac:(lia) ltac:(lia)). cbv beta in B; rewrite Nat.eqb_refl in B. lra. }
    destruct i as [|[|]]; [| |lia]; unfold det3; rewrite !EI by lia; ring.
  - assert (Z : forall j, (j < 3)%nat -> P0 2%nat j = 0). { intros j Hj. specialize (E2 j Hj). assert (ZZ : (1 - mu) * P0 2%nat j = 0) by lra. apply Rmult_integral in ZZ. destruct ZZ; [lra|assumption]. }
    unfold det3. rewrite !Z by lia. ring.
Qed.
(** exact data that determine the camera: it is found, scaled so that the viewing row has length one *)
Theorem projection_dlt_exact svd from to P0 : p_svd_ok svd from to -> from <> [] -> length from = length to ->
  regular_camera P0 -> (forall f t, In (f, t) (combine from to) -> pmaps P0 f t) -> determines_p from to P0 ->
  exists P mu, projection_dlt svd from to = Some P /\ mu <> 0 /\ meq 3 4 P (mscale mu P0) /\
    (view_length P0 = 1 -> 0 < mvec 4 P0 (hom3 (hd (fun _ => 0) from)) 2%nat -> mu = 1).
Proof.
  intros SV FN L RC M0 DT. assert (TN : to <> []) by (intros E; rewrite E in L; destruct from; [congruence|discriminate]).
  assert (N0 : nonzero 3 4 P0).
  { destruct (nonzero_or 3 4 P0) as [N|Z]; [exact N|]. exfalso. apply RC. unfold det3. rewrite !Z by lia. unfold mzero. ring. }
  destruct (norm_params_some from FN) as (fs & fc & NF). destruct (norm_params_some to TN) as (ts & tc & NT).
  assert (OF : forall i, (i < 3)%nat -> fc i <> 0).
  { intros i Hi Z. assert (E := proj1 (normalization_scale_zero from fs fc i NF) Z). apply (determined_spread from to P0 FN L RC M0 DT i (hd (fun _ => 0) from i) Hi).
    intros f Hf. apply E; [exact Hf|]. destruct from; [congruence|left; reflexivity]. }
  assert (OT : forall i, (i < 2)%nat -> tc i <> 0).
  { intros i Hi Z. assert (E := proj1 (normalization_scale_zero to ts tc i NT) Z). apply (determined_image from to P0 RC M0 DT L i (hd (fun _ => 0) to i) Hi).
    intros f Hf. apply E; [exact Hf|]. destruct to; [congruence|left; reflexivity]. }
  assert (E : exists P, projection_dlt svd from to = Some P).
  { unfold projection_dlt. rewrite NF, NT, (proj2 (scale_ok_iff 3 fc) OF), (proj2 (scale_ok_iff 2 tc) OT). cbn [andb].
    specialize (SV fs fc ts tc NF NT). cbv zeta in SV. set (rows := projection_system fs fc ts tc from to) in *. set (v := fun j => svd (length rows) (rows_mat rows) 11%nat j) in *.
    change (exists P, unit_view (denorm_p fs fc ts tc (of_entries 4 v)) (hd (fun _ => 0) from) = Some P).
    set (D := denorm_p fs fc ts tc (of_entries 4 v)).
    set (G0 := renorm_p fs fc ts tc P0).
    assert (RD : meq 3 4 (denorm_p fs fc ts tc G0) P0) by (apply denorm_renorm_p; assumption).
    assert (NG : nonzero 3 4 G0).
    { destruct (nonzero_or 3 4 G0) as [N|Z]; [exact N|]. exfalso. destruct N0 as (i & j & Hi & Hj & N). apply N. rewrite <- (RD i j Hi Hj). apply (sandwich_zero 3 4 _ _ _ Z i j Hi Hj). }
    assert (SG : solves 12 rows (entries 4 G0)).
    { apply (projection_system_iff fs fc ts tc from to G0 OF OT). intros f t Hi. apply (pmaps_ext _ _ f t RD). apply M0, Hi. }
    assert (SV0 : solves 12 rows v).
    { apply rows_solves. apply (least_direction_kernel _ 12 _ v (entries 4 G0) SV (entries_nonzero 3 4 G0 NG)). apply rows_solves, SG. }
    assert (MD : forall f t, In (f, t) (combine from to) -> pmaps D f t).
    { apply (projection_system_iff fs fc ts tc from to _ OF OT). apply (solves_entries 4 3 rows v); [lia|exact SV0]. }
    destruct (DT D MD) as [mu EM].
    assert (NM : mu <> 0).
    { intros Z. destruct SV as [U _]. assert (ZD : meq 3 4 D mzero) by (intros i j Hi Hj; rewrite (EM i j Hi Hj); unfold mscale, mzero; rewrite Z; ring).
      assert (ZV : meq 3 4 (of_entries 4 v) mzero) by (intros i j Hi Hj; rewrite <- (renorm_denorm_p fs fc ts tc (of_entries 4 v) OF OT i j Hi Hj); apply (sandwich_zero 3 4 _ _ _ ZD i j Hi Hj)).
      assert (V0 := zero_entries 4 3 v ltac:(lia) ZV : vdot 12 v v = 0). lra. }
    unfold unit_view. match goal with |- context [Req_EM_T ?l 0] => destruct (Req_EM_T l 0) as [Z|]; [|eauto] end. exfalso.
    assert (Z' : sqrt (view_length D) = 0) by (unfold view_length; match type of Z with (if ?c then _ else _) = 0 => destruct c; lra end).
    assert (VP : 0 <= view_length D) by (unfold view_length; pose proof (Rle_0_sqr (D 2%nat 0%nat)); pose proof (Rle_0_sqr (D 2%nat 1%nat)); pose proof (Rle_0_sqr (D 2%nat 2%nat)); unfold Rsqr in *; lra).
    apply sqrt_eq_0 in Z'; [|exact VP]. unfold view_length in Z'.
    assert (ZR : forall x y z, x * x + y * y + z * z = 0 -> x = 0 /\ y = 0 /\ z = 0).
    { intros x y z HH. pose proof (Rle_0_sqr x) as X. pose proof (Rle_0_sqr y) as Y. pose proof (Rle_0_sqr z) as W. unfold Rsqr in *. repeat split; apply Rsqr_0_uniq; unfold Rsqr; lra. }
    destruct (ZR _ _ _ Z') as (Z0 & Z1 & Z2). rewrite !EM in Z0, Z1, Z2 by lia. unfold mscale in Z0, Z1, Z2.
    apply Rmult_integral in Z0. apply Rmult_integral in Z1. apply Rmult_integral in Z2. destruct Z0 as [|Z0]; [contradiction|]. destruct Z1 as [|Z1]; [contradiction|]. destruct Z2 as [|Z2]; [contradiction|].
    apply RC. unfold det3. rewrite Z0, Z1, Z2. ring. }
  destruct E as [P E]. destruct (projection_dlt_sound svd from to P P0 SV N0 M0 E) as [NP MP]. destruct (DT P MP) as [mu EM].
  exists P, mu. split; [exact E|]. split; [|split; [exact EM|]].
  - intros Z. destruct NP as (i & j & Hi & Hj & N). apply N. rewrite (EM i j Hi Hj). unfold mscale. rewrite Z. ring.
  - intros V1 DP. destruct (projection_dlt_normal_form svd from to P E) as [VL DP'].
    assert (VM : mu * mu = 1). { transitivity (mu * mu * view_length P0); [rewrite V1; ring|]. rewrite <- VL. unfold view_length. rewrite !EM by lia. unfold mscale. ring. }
    set (first := hd (fun _ => 0) from) in *.
    assert (ME : mvec 4 P (hom3 first) 2%nat = mu * mvec 4 P0 (hom3 first) 2%nat).
    { rewrite (mvec_ext 4 3 P (mscale mu P0) (hom3 first) (hom3 first) EM (fun _ _ => eq_refl) 2%nat ltac:(lia)). unfold mvec. rewrite <- sum_scal_l. apply sum_ext. intros; unfold mscale; ring. }
    rewrite ME in DP'. assert (0 <= mu) by (apply (Rmult_le_reg_r (mvec 4 P0 (hom3 first) 2%nat)); lra). nra.
Qed.

(** the eight corners of a cube seen by a camera two units in front of it *)
Definition cube : list vect := map vlist [[1;1;1]; [1;-1;1]; [-1;1;1]; [-1;-1;1]; [1;1;-1]; [1;-1;-1]; [-1;1;-1]; [-1;-1;-1]].
Definition cube_image : list vect := map vlist [[1/3;1/3]; [1/3;-1/3]; [-1/3;1/3]; [-1/3;-1/3]; [1;1]; [1;-1]; [-1;1]; [-1;-1]].
Definition cube_camera : mat := mlist [[1;0;0;0]; [0;1;0;0]; [0;0;1;2]].
Lemma cube_exact f t : In (f, t) (combine cube cube_image) -> pmaps cube_camera f t.
Proof.
  unfold cube, cube_image. cbn [map combine]. intros Hi. cbn [In] in Hi.
  repeat (destruct Hi as [Hi|Hi]; [assert (f = fst (f, t)) by reflexivity; assert (t = snd (f, t)) by reflexivity; rewrite <- Hi in *; cbn [fst snd] in *; subst; unfold pmaps, incident_at, mvec, hom3, cube_camera, mlist, vlist; cbn [sum nth]; split; field|]). destruct Hi.
Qed.
Lemma cube_determines : determines_p cube cube_image cube_camera.
Proof.
  intros P M. exists (P 0%nat 0%nat).
  assert (K : forall f t, In (f, t) (combine [[1;1;1]; [1;-1;1]; [-1;1;1]; [-1;-1;1]; [1;1;-1]; [1;-1;-1]; [-1;1;-1]; [-1;-1;-1]] [[1/3;1/3]; [1/3;-1/3]; [-1/3;1/3]; [-1/3;-1/3]; [1;1]; [1;-1]; [-1;1]; [-1;-1]]) -> pmaps P (vlist f) (vlist t)).
  { intros f t Hi. apply M. cbn in *. repeat (destruct Hi as [Hi|Hi]; [injection Hi as <- <-; tauto|]). destruct Hi. }
  clear M. unfold pmaps, incident_at, mvec, hom3, vlist in K. cbn [sum nth] in K.
  assert (K1 := K [1;1;1] [1/3;1/3] ltac:(cbn; tauto)). assert (K2 := K [1;-1;1] [1/3;-1/3] ltac:(cbn; tauto)). assert (K3 := K [-1;1;1] [-1/3;1/3] ltac:(cbn; tauto)). assert (K4 := K [-1;-1;1] [-1/3;-1/3] ltac:(cbn; tauto)).
  assert (K5 := K [1;1;-1] [1;1] ltac:(cbn; tauto)). assert (K6 := K [1;-1;-1] [1;-1] ltac:(cbn; tauto)). assert (K7 := K [-1;1;-1] [-1;1] ltac:(cbn; tauto)). assert (K8 := K [-1;-1;-1] [-1;-1] ltac:(cbn; tauto)).
  clear K. cbn [nth] in *. destruct K1, K2, K3, K4, K5, K6, K7, K8.
  intros i j Hi Hj. unfold mscale, cube_camera, mlist. destruct i as [|[|[|]]]; [| | |lia]; (destruct j as [|[|[|[|]]]]; [| | | |lia]); cbn [nth]; lra.
Qed.
Lemma kernel_least n rows x : (exists i, (i < n)%nat /\ x i <> 0) -> solves n rows x ->
  least_direction (length rows) n (rows_mat rows) (fun j => / sqrt (vdot n x x) * x j).
Proof.
  intros (k & Hk & N) S. assert (P := vdot_self_pos n x k Hk N). assert (Q := sqrt_lt_R0 _ P). assert (QQ := sqrt_sqrt (vdot n x x) ltac:(lra)). set (c := / sqrt (vdot n x x)). split.
  - transitivity (c * c * vdot n x x). { unfold vdot. rewrite <- sum_scal_l. apply sum_ext. intros; ring. } unfold c. rewrite <- QQ. rewrite QQ at 1 2. field. lra.
  - intros y _. match goal with |- ?l <= _ => replace l with 0 end; [apply sum_nonneg; intros; apply Rle_0_sqr|]. symmetry. apply sum_zero. intros i Hi.
    assert (Z := proj1 (rows_solves n rows x) S i Hi). replace (mvec n (rows_mat rows) (fun j => c * x j) i) with (c * mvec n (rows_mat rows) x i); [rewrite Z; ring|]. unfold mvec. rewrite <- sum_scal_l. apply sum_ext. intros; ring.
Qed.
Example cube_found : exists svd P, p_svd_ok svd cube cube_image /\ projection_dlt svd cube cube_image = Some P /\ meq 3 4 P cube_camera.
Proof.
  assert (RC : regular_camera cube_camera) by (unfold regular_camera, det3, cube_camera, mlist; cbn [nth]; lra).
  destruct (norm_params_some cube ltac:(discriminate)) as (fs & fc & NF). destruct (norm_params_some cube_image ltac:(discriminate)) as (ts & tc & NT).
  assert (OF : forall i, (i < 3)%nat -> fc i <> 0).
  { intros i Hi Z. assert (E := proj1 (normalization_scale_zero cube fs fc i NF) Z). apply (determined_spread cube cube_image cube_camera ltac:(discriminate) eq_refl RC cube_exact cube_determines i (hd (fun _ => 0) cube i) Hi).
    intros f Hf. apply E; [exact Hf|left; reflexivity]. }
  assert (OT : forall i, (i < 2)%nat -> tc i <> 0).
  { intros i Hi Z. assert (E := proj1 (normalization_scale_zero cube_image ts tc i NT) Z). apply (determined_image cube cube_image cube_camera RC cube_exact cube_determines eq_refl i (hd (fun _ => 0) cube_image i) Hi).
    intros f Hf. apply E; [exact Hf|left; reflexivity]. }
  set (x := entries 4 (renorm_p fs fc ts tc cube_camera)).
  assert (RD := denorm_renorm_p fs fc ts tc cube_camera OF OT).
  assert (OK : p_svd_ok (fun _ _ _ j => / sqrt (vdot 12 x x) * x j) cube cube_image).
  { intros fs' fc' ts' tc' NF' NT'. rewrite NF in NF'. rewrite NT in NT'. assert (fs = fs') by congruence. assert (fc = fc') by congruence. assert (ts = ts') by congruence. assert (tc = tc') by congruence. subst fs' fc' ts' tc'. cbv zeta.
    apply kernel_least.
    - apply (entries_nonzero 3 4). destruct (nonzero_or 3 4 (renorm_p fs fc ts tc cube_camera)) as [N|Z]; [exact N|]. exfalso.
      assert (C := RD 0%nat 0%nat ltac:(lia) ltac:(lia)). unfold denorm_p in C. rewrite (sandwich_zero 3 4 _ _ _ Z 0%nat 0%nat ltac:(lia) ltac:(lia)) in C. unfold mzero, cube_camera, mlist in C. cbn in C. lra.
    - apply (projection_system_iff fs fc ts tc cube cube_image _ OF OT). intros f t Hi. apply (pmaps_ext _ _ f t RD), cube_exact, Hi. }
  destruct (projection_dlt_exact _ cube cube_image cube_camera OK ltac:(discriminate) eq_refl RC cube_exact cube_determines) as (P & mu & E & _ & EM & M1).
  eexists _, P. split; [exact OK|]. split; [exact E|]. rewrite M1 in EM.
  - intros i j Hi Hj. rewrite (EM i j Hi Hj). unfold mscale. ring.
  - unfold view_length, cube_camera, mlist. cbn [nth]. ring.
  - unfold cube, mvec, hom3, cube_camera, mlist, vlist. cbn [map hd sum nth]. lra.
Qed.

Print Assumptions projection_system_iff.
Print Assumptions pmaps_iff_projected.
Print Assumptions projection_dlt_normal_form.
Print Assumptions projection_dlt_sound.
Print Assumptions projection_dlt_exact.

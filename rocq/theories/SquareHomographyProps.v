(** C150: the homography of a square (SquareHomography.v). *)
From Coq Require Import Reals Lra Lia List Arith.
Import ListNotations.
From Verif Require Import Mat LinAlg LinAlgProps Dlt DltProofs HomographyProps FundamentalProps SquareHomography.
Open Scope R_scope.

(** the corners of the unit square as documented, Homography.h:71 *)
Definition unit_square : list vect := [vlist [-1/2; 1/2]; vlist [-1/2; -1/2]; vlist [1/2; -1/2]; vlist [1/2; 1/2]].
(** contract of lapack::gesvd for this call: the last row of Vt *)
Definition square_svd_ok (svd : gesvd_vt) (cs : list vect) : Prop :=
  let A := square_system (centred cs) in least_direction 4 3 A (fun j => svd 4%nat A 2%nat j).
(** the four corners, no three in a line *)
Definition proper_corners (cs : list vect) : Prop := general_position (corner cs 0) (corner cs 1) (corner cs 2) (corner cs 3).

(** the 4 x 3 system always has a solution *)
Lemma square_kernel c : (forall k, c 0%nat k + c 1%nat k + c 2%nat k + c 3%nat k = 0) ->
  exists v, (exists i, (i < 3)%nat /\ v i <> 0) /\ forall i, (i < 4)%nat -> mvec 3 (square_system c) v i = 0.
Proof.
  intros S. assert (X := S 0%nat). assert (Y := S 1%nat). clear S.
  set (c0 := c 0%nat 0%nat) in *. set (c1 := c 1%nat 0%nat) in *. set (c2 := c 2%nat 0%nat) in *. set (c3 := c 3%nat 0%nat) in *.
  set (d0 := c 0%nat 1%nat) in *. set (d1 := c 1%nat 1%nat) in *. set (d2 := c 2%nat 1%nat) in *. set (d3 := c 3%nat 1%nat) in *.
  set (a := c0 - c1 - c2 + c3). set (b := - c0 - c1 + c2 + c3). set (e := -2 * (c0 + c2)).
  set (a' := d0 - d1 - d2 + d3). set (b' := - d0 - d1 + d2 + d3). set (e' := -2 * (d0 + d2)).
  assert (RED : forall v, a * v 0%nat + b * v 1%nat + e * v 2%nat = 0 -> a' * v 0%nat + b' * v 1%nat + e' * v 2%nat = 0 -> forall i, (i < 4)%nat -> mvec 3 (square_system c) v i = 0).
  { intros v E1 E2 i Hi. unfold mvec, square_system, mlist. fold c0 c1 c2 c3 d0 d1 d2 d3. fold a b a' b'. assert (Ee : -2 * (c1 + c3) = - e) by (unfold e; lra). assert (Ee' : -2 * (d1 + d3) = - e') by (unfold e'; lra).
    cbn [app nth]. rewrite Ee, Ee'. fold e e'. destruct i as [|[|[|[|]]]]; [| | | |lia]; cbn [sum nth]; lra. }
  clearbody a b e a' b' e'.
  (* the cross product of the two rows, or a vector orthogonal to one of them *)
  set (w0 := b * e' - e * b'). set (w1 := e * a' - a * e'). set (w2 := a * b' - b * a').
  destruct (Req_dec w0 0) as [Z0|N0]; [destruct (Req_dec w1 0) as [Z1|N1]; [destruct (Req_dec w2 0) as [Z2|N2]|]|].
  - assert (ORT : forall p q r p' q' r', q * r' - r * q' = 0 -> r * p' - p * r' = 0 -> p * q' - q * p' = 0 -> (p <> 0 \/ q <> 0 \/ r <> 0) ->
      exists v : vect, (exists i, (i < 3)%nat /\ v i <> 0) /\ p * v 0%nat + q * v 1%nat + r * v 2%nat = 0 /\ p' * v 0%nat + q' * v 1%nat + r' * v 2%nat = 0).
    { intros p q r p' q' r' P1 P2 P3 N. destruct (Req_dec p 0) as [Zp|Np].
      - destruct (Req_dec q 0) as [Zq|Nq].
        + exists (vlist [1; 0; 0]). split; [exists 0%nat; split; [lia|cbn; lra]|]. unfold vlist; cbn [nth]. subst p q. split; [ring|]. destruct N as [N|[N|N]]; try lra. assert (r * p' = 0) by lra. apply Rmult_integral in H. destruct H; [contradiction|lra].
        + exists (vlist [0; r; - q]). split; [exists 2%nat; split; [lia|cbn; lra]|]. unfold vlist; cbn [nth]. split; lra.
      - exists (vlist [q; - p; 0]). split; [exists 1%nat; split; [lia|cbn; lra]|]. unfold vlist; cbn [nth]. split; lra. }
    assert (CASES : (a <> 0 \/ b <> 0 \/ e <> 0) \/ (a = 0 /\ b = 0 /\ e = 0)) by (destruct (Req_dec a 0); destruct (Req_dec b 0); destruct (Req_dec e 0); tauto).
    destruct CASES as [N|(Za & Zb & Ze)].
    + destruct (ORT a b e a' b' e') as (v & N' & E1 & E2); try assumption. exists v. split; [exact N'|]. apply RED; assumption.
    + assert (CASES : (a' <> 0 \/ b' <> 0 \/ e' <> 0) \/ (a' = 0 /\ b' = 0 /\ e' = 0)) by (destruct (Req_dec a' 0); destruct (Req_dec b' 0); destruct (Req_dec e' 0); tauto).
      destruct CASES as [N|(Za' & Zb' & Ze')].
      * destruct (ORT a' b' e' a b e) as (v & N' & E1 & E2); try assumption; try (subst; ring). exists v. split; [exact N'|]. apply RED; assumption.
      * exists (vlist [1; 0; 0]). split; [exists 0%nat; split; [lia|cbn; lra]|]. apply RED; subst; ring.
  - exists (vlist [w0; w1; w2]). split; [exists 2%nat; split; [lia|exact N2]|]. apply RED; unfold vlist, w0, w1, w2; cbn [nth]; ring.
  - exists (vlist [w0; w1; w2]). split; [exists 1%nat; split; [lia|exact N1]|]. apply RED; unfold vlist, w0, w1, w2; cbn [nth]; ring.
  - exists (vlist [w0; w1; w2]). split; [exists 0%nat; split; [lia|exact N0]|]. apply RED; unfold vlist, w0, w1, w2; cbn [nth]; ring.
Qed.
Lemma centred_sum cs k : centred cs 0 k + centred cs 1 k + centred cs 2 k + centred cs 3 k = 0.
Proof. unfold centred, corner_mean. field. Qed.

(** ** every corner of the square is mapped to a multiple of its image, for every list of corners *)
Definition homogeneous_image (H : mat) (f t : vect) : Prop := forall i, (i < 3)%nat -> mvec 3 H (hom2 f) i = mvec 3 H (hom2 f) 2%nat * hom2 t i.
Theorem square_homography_maps svd cs H : square_svd_ok svd cs -> square_homography svd cs = Some H ->
  (forall i, (i < 4)%nat -> homogeneous_image H (corner unit_square i) (corner cs i)) /\ exists j, (j < 3)%nat /\ H 2%nat j <> 0.
Proof.
  intros SV. unfold square_homography. destruct (length cs <? 4)%nat eqn:L; [discriminate|]. intros E. injection E as <-.
  set (c := centred cs). set (v := fun j => svd 4%nat (square_system c) 2%nat j). unfold square_svd_ok in SV. cbv zeta in SV. fold c in SV. fold v in SV.
  destruct (square_kernel c (centred_sum cs)) as (w & Nw & Kw). assert (K := least_direction_kernel 4 3 _ v w SV Nw Kw).
  assert (K0 := K 0%nat ltac:(lia)). assert (K2 := K 2%nat ltac:(lia)). clear K Kw Nw w.
  assert (S0 := centred_sum cs 0). assert (S1 := centred_sum cs 1). fold c in S0, S1.
  assert (CC : forall i k, corner cs i k = c i k + corner_mean cs k) by (intros; unfold c, centred; ring).
  split.
  - set (m := corner_mean cs) in *. clearbody m v c. unfold mvec, square_system, mlist in K0, K2. cbn [app sum nth] in K0, K2. intros i Hi r Hr.
    unfold hom2, homogeneous_image. set (e0 := corner unit_square i 0%nat). set (e1 := corner unit_square i 1%nat). set (y0 := corner cs i 0%nat). set (y1 := corner cs i 1%nat).
    assert (Y0 : y0 = c i 0%nat + m 0%nat) by apply CC. assert (Y1 : y1 = c i 1%nat + m 1%nat) by apply CC. clearbody y0 y1. subst y0 y1.
    set (c00 := c 0%nat 0%nat) in *. set (c10 := c 1%nat 0%nat) in *. set (c20 := c 2%nat 0%nat) in *. set (c01 := c 0%nat 1%nat) in *. set (c11 := c 1%nat 1%nat) in *. set (c21 := c 2%nat 1%nat) in *.
    set (c30 := c 3%nat 0%nat) in *. set (c31 := c 3%nat 1%nat) in *. assert (A30 : c30 = - c00 - c10 - c20) by lra. assert (A31 : c31 = - c01 - c11 - c21) by lra.
    assert (G0 : (c00 - c10 - c20 + c30) * v 0%nat + (- c00 - c10 + c20 + c30) * v 1%nat - 2 * (c00 + c20) * v 2%nat = 0) by lra.
    assert (G1 : (c01 - c11 - c21 + c31) * v 0%nat + (- c01 - c11 + c21 + c31) * v 1%nat - 2 * (c01 + c21) * v 2%nat = 0) by lra. clear K0 K2 S0 S1 CC SV L.
    unfold mvec, shift_rows, square_rows, mlist, vlist. cbn [sum nth Nat.ltb Nat.leb]. fold c00 c10 c20 c30 c01 c11 c21 c31.
    assert (EV : (e0 = -1/2 /\ e1 = 1/2 /\ c i 0%nat = c00 /\ c i 1%nat = c01) \/ (e0 = -1/2 /\ e1 = -1/2 /\ c i 0%nat = c10 /\ c i 1%nat = c11) \/ (e0 = 1/2 /\ e1 = -1/2 /\ c i 0%nat = c20 /\ c i 1%nat = c21) \/ (e0 = 1/2 /\ e1 = 1/2 /\ c i 0%nat = c30 /\ c i 1%nat = c31) \/ (4 <= i)%nat).
    { unfold e0, e1. destruct i as [|[|[|[|]]]]; [left|right; left|right; right; left|right; right; right; left|right; right; right; right; lia]; repeat split; reflexivity. }
    set (x0 := c i 0%nat) in *. set (x1 := c i 1%nat) in *. clearbody c00 c10 c20 c30 c01 c11 c21 c31 e0 e1 x0 x1. subst c30 c31. set (v0 := v 0%nat) in *. set (v1 := v 1%nat) in *. set (v2 := v 2%nat) in *. clearbody v0 v1 v2.
    destruct EV as [(-> & -> & -> & ->)|[(-> & -> & -> & ->)|[(-> & -> & -> & ->)|[(-> & -> & -> & ->)|L4]]]]; [| | | |lia];
    (destruct r as [|[|[|]]]; [| | |lia]); cbn [nth Nat.ltb Nat.leb]; lra.
  - clear - SV. assert (U := proj1 SV). unfold shift_rows, square_rows, mlist. cbn [Nat.ltb Nat.leb nth].
    destruct (Req_dec (v 0%nat) 0) as [Z0|N0]; [destruct (Req_dec (v 1%nat) 0) as [Z1|N1]; [destruct (Req_dec (v 2%nat) 0) as [Z2|N2]|]|].
    + exfalso. unfold vdot in U. cbn [sum] in U. rewrite Z0, Z1, Z2 in U. lra.
    + exists 2%nat. split; [lia|exact N2].
    + exists 1%nat. split; [lia|]. cbn [nth]. lra.
    + exists 0%nat. split; [lia|]. cbn [nth]. lra.
Qed.

(** ** corners of which no three are in a line *)
Lemma square_alternating H i : mvec 3 H (hom2 (corner unit_square 1)) i + mvec 3 H (hom2 (corner unit_square 3)) i = mvec 3 H (hom2 (corner unit_square 0)) i + mvec 3 H (hom2 (corner unit_square 2)) i.
Proof. unfold mvec, hom2, corner, unit_square, vlist. cbn [sum nth]. lra. Qed.
Lemma square_areas : area (corner unit_square 0) (corner unit_square 1) (corner unit_square 2) = 1 /\ area (corner unit_square 0) (corner unit_square 1) (corner unit_square 3) = 1 /\
  area (corner unit_square 0) (corner unit_square 2) (corner unit_square 3) = 1 /\ area (corner unit_square 1) (corner unit_square 2) (corner unit_square 3) = 1.
Proof. unfold area, corner, unit_square, vlist. cbn [nth]. repeat split; field. Qed.
Lemma image_det H f0 f1 f2 t0 t1 t2 : homogeneous_image H f0 t0 -> homogeneous_image H f1 t1 -> homogeneous_image H f2 t2 ->
  det3 H * area f0 f1 f2 = mvec 3 H (hom2 f0) 2%nat * mvec 3 H (hom2 f1) 2%nat * mvec 3 H (hom2 f2) 2%nat * area t0 t1 t2.
Proof.
  intros A B C. rewrite <- (det_product H f0 f1 f2). cbv zeta. unfold det3.
  rewrite (A 0%nat), (A 1%nat), (B 0%nat), (B 1%nat), (C 0%nat), (C 1%nat) by lia. unfold area, hom2, vlist. cbn [nth]. ring.
Qed.
Theorem square_homography_exact svd cs H : square_svd_ok svd cs -> square_homography svd cs = Some H -> proper_corners cs ->
  det3 H <> 0 /\ forall i, (i < 4)%nat -> projected (mvec 3 H (hom2 (corner unit_square i))) (corner cs i).
Proof.
  intros SV E (A012 & A013 & A023 & A123). destruct (square_homography_maps svd cs H SV E) as [M (j & Hj & NJ)].
  set (w := fun i => mvec 3 H (hom2 (corner unit_square i)) 2%nat).
  assert (AL : forall r, (r < 3)%nat -> w 1%nat * hom2 (corner cs 1) r + w 3%nat * hom2 (corner cs 3) r = w 0%nat * hom2 (corner cs 0) r + w 2%nat * hom2 (corner cs 2) r).
  { intros r Hr. unfold w. rewrite <- (M 0%nat ltac:(lia) r Hr), <- (M 1%nat ltac:(lia) r Hr), <- (M 2%nat ltac:(lia) r Hr), <- (M 3%nat ltac:(lia) r Hr). apply square_alternating. }
  assert (X := AL 0%nat ltac:(lia)). assert (Y := AL 1%nat ltac:(lia)). assert (Z := AL 2%nat ltac:(lia)). clear AL. unfold hom2, vlist in X, Y, Z. cbn [nth] in X, Y, Z.
  assert (R3 : w 3%nat * area (corner cs 1) (corner cs 2) (corner cs 3) = w 0%nat * area (corner cs 0) (corner cs 1) (corner cs 2)).
  { unfold area in *. set (a0 := corner cs 0 0%nat) in *. set (a1 := corner cs 0 1%nat) in *. set (b0 := corner cs 1 0%nat) in *. set (b1 := corner cs 1 1%nat) in *. set (c0 := corner cs 2 0%nat) in *. set (c1 := corner cs 2 1%nat) in *. set (d0 := corner cs 3 0%nat) in *. set (d1 := corner cs 3 1%nat) in *.
    set (w0 := w 0%nat) in *. set (w1 := w 1%nat) in *. set (w2 := w 2%nat) in *. set (w3 := w 3%nat) in *. clearbody w0 w1 w2 w3 a0 a1 b0 b1 c0 c1 d0 d1.
    transitivity ((w3 * d0) * (b1 - c1) + (w3 * d1) * (c0 - b0) + (w3 * 1) * (b0 * c1 - b1 * c0)); [ring|]. replace (w3 * d0) with (w0 * a0 + w2 * c0 - w1 * b0) by lra. replace (w3 * d1) with (w0 * a1 + w2 * c1 - w1 * b1) by lra. replace (w3 * 1) with (w0 + w2 - w1) by lra. ring. }
  assert (R2 : w 2%nat * area (corner cs 1) (corner cs 2) (corner cs 3) = w 0%nat * area (corner cs 0) (corner cs 1) (corner cs 3)).
  { unfold area in *. set (a0 := corner cs 0 0%nat) in *. set (a1 := corner cs 0 1%nat) in *. set (b0 := corner cs 1 0%nat) in *. set (b1 := corner cs 1 1%nat) in *. set (c0 := corner cs 2 0%nat) in *. set (c1 := corner cs 2 1%nat) in *. set (d0 := corner cs 3 0%nat) in *. set (d1 := corner cs 3 1%nat) in *.
    set (w0 := w 0%nat) in *. set (w1 := w 1%nat) in *. set (w2 := w 2%nat) in *. set (w3 := w 3%nat) in *. clearbody w0 w1 w2 w3 a0 a1 b0 b1 c0 c1 d0 d1.
    transitivity ((w2 * c0) * (d1 - b1) + (w2 * c1) * (b0 - d0) + (w2 * 1) * (d0 * b1 - b0 * d1)); [ring|]. replace (w2 * c0) with (w1 * b0 + w3 * d0 - w0 * a0) by lra. replace (w2 * c1) with (w1 * b1 + w3 * d1 - w0 * a1) by lra. replace (w2 * 1) with (w1 + w3 - w0) by lra. ring. }
  assert (R1 : w 1%nat * area (corner cs 1) (corner cs 2) (corner cs 3) = w 0%nat * area (corner cs 0) (corner cs 2) (corner cs 3)).
  { unfold area in *. set (a0 := corner cs 0 0%nat) in *. set (a1 := corner cs 0 1%nat) in *. set (b0 := corner cs 1 0%nat) in *. set (b1 := corner cs 1 1%nat) in *. set (c0 := corner cs 2 0%nat) in *. set (c1 := corner cs 2 1%nat) in *. set (d0 := corner cs 3 0%nat) in *. set (d1 := corner cs 3 1%nat) in *.
    set (w0 := w 0%nat) in *. set (w1 := w 1%nat) in *. set (w2 := w 2%nat) in *. set (w3 := w 3%nat) in *. clearbody w0 w1 w2 w3 a0 a1 b0 b1 c0 c1 d0 d1.
    transitivity ((w1 * b0) * (c1 - d1) + (w1 * b1) * (d0 - c0) + (w1 * 1) * (c0 * d1 - c1 * d0)); [ring|]. replace (w1 * b0) with (w0 * a0 + w2 * c0 - w3 * d0) by lra. replace (w1 * b1) with (w0 * a1 + w2 * c1 - w3 * d1) by lra. replace (w1 * 1) with (w0 + w2 - w3) by lra. ring. }
  assert (N0 : w 0%nat <> 0).
  { intros Z0. rewrite Z0, Rmult_0_l in R1, R2. apply Rmult_integral in R1. apply Rmult_integral in R2. destruct R1 as [Z1|]; [|contradiction]. destruct R2 as [Z2|]; [|contradiction].
    apply NJ. apply (row_vanishes (corner unit_square 0) (corner unit_square 1) (corner unit_square 2) (H 2%nat)); [rewrite (proj1 square_areas); lra|exact Z0|exact Z1|exact Z2|exact Hj]. }
  assert (NW : forall k A, w k * area (corner cs 1) (corner cs 2) (corner cs 3) = w 0%nat * A -> A <> 0 -> w k <> 0).
  { intros k A E0 NA Zk. rewrite Zk, Rmult_0_l in E0. symmetry in E0. apply Rmult_integral in E0. tauto. }
  assert (N1 := NW _ _ R1 A023). assert (N2 := NW _ _ R2 A013). assert (N3 := NW _ _ R3 A012). split.
  - assert (D := image_det H _ _ _ _ _ _ (M 0%nat ltac:(lia)) (M 1%nat ltac:(lia)) (M 2%nat ltac:(lia))). rewrite (proj1 square_areas), Rmult_1_r in D. fold (w 0%nat) (w 1%nat) (w 2%nat) in D. rewrite D.
    repeat apply Rmult_integral_contrapositive_currified; assumption.
  - intros i Hi. assert (Mi := M i Hi). unfold projected. rewrite (Mi 0%nat), (Mi 1%nat) by lia. split; [destruct i as [|[|[|[|]]]]; [exact N0|exact N1|exact N2|exact N3|lia]|]. unfold hom2, vlist. cbn [nth]. split; ring.
Qed.
(** the matrix is regular exactly if no three of the corners are in a line *)
Theorem square_homography_regular_iff svd cs H : square_svd_ok svd cs -> square_homography svd cs = Some H -> (det3 H <> 0 <-> proper_corners cs).
Proof.
  intros SV E. split; [|intros P; exact (proj1 (square_homography_exact svd cs H SV E P))]. intros D.
  destruct (square_homography_maps svd cs H SV E) as [M _]. destruct square_areas as (Q012 & Q013 & Q023 & Q123).
  assert (K : forall i j k, (i < 4)%nat -> (j < 4)%nat -> (k < 4)%nat -> area (corner unit_square i) (corner unit_square j) (corner unit_square k) = 1 -> area (corner cs i) (corner cs j) (corner cs k) <> 0).
  { intros i j k Hi Hj Hk Q Z. apply D. assert (X := image_det H _ _ _ _ _ _ (M i Hi) (M j Hj) (M k Hk)). rewrite Q, Z, Rmult_1_r, Rmult_0_r in X. exact X. }
  unfold proper_corners, general_position. repeat split; apply K; (lia || assumption).
Qed.
(** up to a factor it is the only matrix that maps the square to the corners *)
Theorem square_homography_unique svd cs H H0 : square_svd_ok svd cs -> square_homography svd cs = Some H -> det3 H0 <> 0 ->
  (forall i, (i < 4)%nat -> projected (mvec 3 H0 (hom2 (corner unit_square i))) (corner cs i)) -> exists mu, mu <> 0 /\ meq 3 3 H (mscale mu H0).
Proof.
  intros SV E D M0. destruct (square_homography_maps svd cs H SV E) as [M (j & Hj & NJ)]. destruct square_areas as (Q012 & Q013 & Q023 & Q123).
  assert (HM0 : forall i, (i < 4)%nat -> hmaps H0 (corner unit_square i) (corner cs i)) by (intros i Hi; apply (hmaps_iff_projected _ _ _ D), M0, Hi).
  assert (HM : forall i, (i < 4)%nat -> hmaps H (corner unit_square i) (corner cs i)).
  { intros i Hi. unfold hmaps, incident_at. assert (X := M i Hi). rewrite (X 0%nat), (X 1%nat) by lia. unfold hom2, vlist. cbn [nth]. split; ring. }
  destruct (homography_unique H H0 (corner unit_square 0) (corner unit_square 1) (corner unit_square 2) (corner unit_square 3) (corner cs 0) (corner cs 1) (corner cs 2) (corner cs 3)) as (mu & EM); try (apply HM0; lia); try (apply HM; lia); try exact D.
  - unfold general_position. rewrite Q012, Q013, Q023, Q123. repeat split; lra.
  - exists mu. split; [|exact EM]. intros Z. apply NJ. rewrite (EM 2%nat j ltac:(lia) Hj), Z. unfold mscale. ring.
Qed.
(** a square seen in perspective *)
Definition trapezium : list vect := [vlist [-1; 1]; vlist [-2; -1]; vlist [2; -1]; vlist [1; 1]].
Example trapezium_case : proper_corners trapezium /\ exists v, vdot 3 v v = 1 /\ least_direction 4 3 (square_system (centred trapezium)) v.
Proof.
  split; [unfold proper_corners, general_position, area, trapezium, corner, vlist; cbn [nth]; repeat split; lra|].
  assert (N : 0 < sqrt 10) by (apply sqrt_lt_R0; lra). assert (SS : sqrt 10 * sqrt 10 = 10) by (apply sqrt_sqrt; lra).
  assert (U : vdot 3 (vlist [0; 1 / sqrt 10; 3 / sqrt 10]) (vlist [0; 1 / sqrt 10; 3 / sqrt 10]) = 1).
  { unfold vdot, vlist. cbn [sum nth]. transitivity (10 / (sqrt 10 * sqrt 10)); [field; lra|rewrite SS; field]. }
  exists (vlist [0; 1 / sqrt 10; 3 / sqrt 10]). split; [exact U|]. split; [exact U|]. intros x _. unfold energy.
  assert (Z : forall i, (i < 4)%nat -> mvec 3 (square_system (centred trapezium)) (vlist [0; 1 / sqrt 10; 3 / sqrt 10]) i = 0).
  { intros i Hi. unfold mvec, square_system, centred, corner_mean, trapezium, corner, mlist, vlist. destruct i as [|[|[|[|]]]]; [| | | |lia]; cbn [app sum nth]; field; lra. }
  apply Rle_trans with 0.
  - apply Req_le. apply sum_zero. intros i Hi. rewrite (Z i Hi). ring.
  - apply sum_nonneg. intros i _. apply Rle_0_sqr.
Qed.

Print Assumptions square_homography_maps.
Print Assumptions square_homography_exact.
Print Assumptions square_homography_regular_iff.
Print Assumptions square_homography_unique.

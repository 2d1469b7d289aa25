(** Selection of motions for the hand-eye calibration, DataSelection.cpp and DataSelection.h (C94, C95). *)
From Coq Require Import Reals Lra Lia List Arith Bool.
Import ListNotations.
From Verif Require Import Mat Quat LinAlg HandEye.
Open Scope R_scope.

Definition v60 : v6 := V6 v3zero v3zero.
(** [k] is the first member of cluster [i] among those at the least distance from [centre] *)
Definition first_nearest (i : nat) (centre : v6) (idx : list nat) (a : list v6) (k : nat) : Prop :=
  (k < length idx)%nat /\ nth k idx 0%nat = i /\
  (forall m, (m < length idx)%nat -> nth m idx 0%nat = i -> rotation_distance centre (nth k a v60) <= rotation_distance centre (nth m a v60)) /\
  (forall m, (m < k)%nat -> nth m idx 0%nat = i -> rotation_distance centre (nth k a v60) < rotation_distance centre (nth m a v60)).

(** * C94: the selected eye and hand motion belong together *)
Lemma nearest_spec i centre : forall idx a b best, length a = length idx -> length b = length idx ->
  (exists k, (k < length idx)%nat /\ nth k idx 0%nat = i /\ rotation_distance centre (nth k a v60) < fst best /\
     first_nearest i centre idx a k /\ nearest i centre idx a b best = Some (nth k a v60, nth k b v60)) \/
  ((forall k, (k < length idx)%nat -> nth k idx 0%nat = i -> fst best <= rotation_distance centre (nth k a v60)) /\
     nearest i centre idx a b best = snd best).
Proof.
  induction idx as [|c idx IH]; intros [|x a] [|y b] best La Lb; try discriminate.
  - right. split; [intros k Hk; cbn in Hk; lia|reflexivity].
  - cbn [length] in *. apply Nat.succ_inj in La, Lb. cbn [nearest].
    set (best' := if (i =? c)%nat && (if Rlt_dec (rotation_distance centre x) (fst best) then true else false)
       then (rotation_distance centre x, Some (x, y)) else best).
    assert (B : (c = i /\ rotation_distance centre x < fst best /\ best' = (rotation_distance centre x, Some (x, y))) \/
                ((c = i -> fst best <= rotation_distance centre x) /\ best' = best)).
    { unfold best'. destruct (Nat.eqb_spec i c) as [E|E]; cbn [andb].
      - destruct (Rlt_dec _ _) as [H|H]; [left; auto|right; split; [intros; lra|reflexivity]].
      - right. split; [intros; congruence|reflexivity]. }
    destruct (IH a b best' La Lb) as [(k & Hk & Ek & Dk & (_ & _ & F1 & F2) & R)|(H & R)].
    + left. exists (S k). cbn [nth]. assert (D : rotation_distance centre (nth k a v60) < fst best).
      { destruct B as [(_ & L & E)|(_ & E)]; rewrite E in Dk; cbn [fst] in Dk; lra. }
      assert (X : c = i -> rotation_distance centre (nth k a v60) < rotation_distance centre x).
      { intros Ec. destruct B as [(_ & _ & E)|(G & E)]; rewrite E in Dk; cbn [fst] in Dk; [exact Dk|specialize (G Ec); lra]. }
      split; [lia|]. split; [exact Ek|]. split; [exact D|]. split; [|exact R].
      unfold first_nearest. cbn [length nth]. split; [lia|]. split; [exact Ek|]. split.
      * intros [|m] Hm Em; [left; apply X, Em|apply F1; [lia|exact Em]].
      * intros [|m] Hm Em; [apply X, Em|apply F2; [lia|exact Em]].
    + destruct B as [(Ec & L & E)|(G & E)].
      * left. exists 0%nat. cbn [nth]. rewrite E in H, R. cbn [fst snd] in H, R. split; [lia|]. split; [exact Ec|]. split; [exact L|].
        split; [|rewrite E; exact R]. unfold first_nearest. cbn [length nth]. split; [lia|]. split; [exact Ec|]. split.
        -- intros [|m] Hm Em; [lra|apply H; [lia|exact Em]].
        -- intros m Hm. lia.
      * right. rewrite E in H, R. split; [|rewrite E; exact R]. intros [|k] Hk Ek; cbn [nth] in *; [apply G, Ek|apply H; [lia|exact Ek]].
Qed.
Theorem selection_matched n_cluster means idx a b i : length a = length idx -> length b = length idx -> (i < n_cluster)%nat ->
  (forall k, (k < length idx)%nat -> rotation_distance (nth i means v60) (nth k a v60) < 10000) ->
  (exists k, (k < length idx)%nat /\ nth k idx 0%nat = i) ->
  exists k, first_nearest i (nth i means v60) idx a k /\
    nth i (select_nearest n_cluster means idx a b) None = Some (nth k a v60, nth k b v60).
Proof.
  intros La Lb Hi D (k & Hk & Ek). unfold select_nearest.
  rewrite (nth_indep _ None (nearest 0 v60 [] [] [] (0, None))) by (rewrite map_length, seq_length; exact Hi).
  change (nearest 0 v60 [] [] [] (0, None)) with ((fun _ : nat => @None (v6 * v6)) 0%nat).
  assert (N : nth i (map (fun i => nearest i (nth i means (V6 v3zero v3zero)) idx a b (10000, None)) (seq 0 n_cluster)) None =
    nearest i (nth i means v60) idx a b (10000, None)).
  { rewrite (nth_indep _ None (nearest n_cluster (nth n_cluster means (V6 v3zero v3zero)) idx a b (10000, None))) by (rewrite map_length, seq_length; exact Hi).
    rewrite (map_nth (fun i => nearest i (nth i means (V6 v3zero v3zero)) idx a b (10000, None))), seq_nth by exact Hi. reflexivity. }
  cbv beta. rewrite N.
  destruct (nearest_spec i (nth i means v60) idx a b (10000, None) La Lb) as [(m & _ & _ & _ & F & R)|(H & _)].
  - exists m. split; [exact F|exact R].
  - exfalso. specialize (H k Hk Ek). specialize (D k Hk). cbn [fst] in H. lra.
Qed.
(** a cluster without members yields an uninitialised pair of poses *)
Theorem selection_empty_refuted n_cluster means idx a b i : length a = length idx -> length b = length idx -> (i < n_cluster)%nat ->
  ~ In i idx -> nth_error (select_nearest n_cluster means idx a b) i = Some None.
Proof.
  intros La Lb Hi NI. unfold select_nearest. rewrite nth_error_map, nth_error_nth' with (d := 0%nat) by (rewrite seq_length; exact Hi).
  rewrite seq_nth by exact Hi. cbn [option_map Nat.add]. f_equal.
  destruct (nearest_spec i (nth i means v60) idx a b (10000, None) La Lb) as [(m & Hm & Em & _)|(_ & R)]; [|exact R].
  exfalso. apply NI. rewrite <- Em. apply nth_In, Hm.
Qed.

(** * C95: DataSelection::resetIndices *)
Lemma reset_loop_spec means p0 idx : forall i dist out c,
  let d := rotation_distance (nth c means v60) p0 in
  let out' := reset_indices_loop means p0 idx i dist out in
  (d < dist c -> (exists k, (k < length idx)%nat /\ nth k idx 0%nat = c /\ (forall m, (m < k)%nat -> nth m idx 0%nat <> c) /\ out' c = (i + k)%nat)
               \/ (~ In c idx /\ out' c = out c)) /\
  (dist c <= d -> out' c = out c).
Proof.
  induction idx as [|k0 idx IH]; intros i dist out c; cbv zeta.
  - cbn. split; [intros _; right; auto|reflexivity].
  - cbn [reset_indices_loop]. set (d := rotation_distance (nth c means v60) p0).
    change (V6 v3zero v3zero) with v60 in *. set (d0 := rotation_distance (nth k0 means v60) p0).
    destruct (Nat.eq_dec k0 c) as [->|N].
    + change d0 with d. destruct (Rlt_dec d (dist c)) as [L|L].
      * destruct (IH (S i) (fun j => if (j =? c)%nat then d else dist j) (fun j => if (j =? c)%nat then i else out j) c) as [_ G].
        cbv zeta in G. fold d in G. rewrite Nat.eqb_refl in G. rewrite G by lra. split; [|intros; lra].
        intros _. left. exists 0%nat. cbn [length nth]. split; [lia|]. split; [reflexivity|]. split; [intros; lia|lia].
      * destruct (IH (S i) dist out c) as [_ G]. cbv zeta in G. fold d in G. split; [intros; lra|intros H; apply G, H].
    + assert (ST : forall dist' out', dist' c = dist c -> out' c = out c ->
        (d < dist c -> (exists k, (k < S (length idx))%nat /\ nth k (k0 :: idx) 0%nat = c /\ (forall m, (m < k)%nat -> nth m (k0 :: idx) 0%nat <> c) /\
            reset_indices_loop means p0 idx (S i) dist' out' c = (i + k)%nat) \/
          (~ In c (k0 :: idx) /\ reset_indices_loop means p0 idx (S i) dist' out' c = out c)) /\
        (dist c <= d -> reset_indices_loop means p0 idx (S i) dist' out' c = out c)).
      { intros dist' out' Ed Eo. destruct (IH (S i) dist' out' c) as [G1 G2]. cbv zeta in G1, G2. fold d in G1, G2. rewrite Ed, Eo in *. split; [|exact G2].
        intros H. destruct (G1 H) as [(k & Hk & Ek & Fk & Rk)|(NI & Rk)].
        - left. exists (S k). split; [lia|]. split; [exact Ek|]. split; [|lia].
          intros [|m] Hm; [exact N|apply (Fk m); lia].
        - right. split; [|exact Rk]. intros [E|E]; [exact (N E)|exact (NI E)]. }
      cbn [length]. destruct (Rlt_dec d0 (dist k0)); apply ST; try reflexivity; destruct (Nat.eqb_spec c k0); try congruence; reflexivity.
Qed.
(** what it computes: the first member of each cluster, whatever the distances; and the first motion
    for a cluster without members *)
Theorem reset_indices_first means poses idx c : (c < length means)%nat ->
  rotation_distance (nth c means v60) (nth 0 poses v60) < 10000 ->
  (exists k, (k < length idx)%nat /\ nth k idx 0%nat = c /\ (forall m, (m < k)%nat -> nth m idx 0%nat <> c) /\
     nth c (reset_indices means poses idx) 0%nat = k) \/
  (~ In c idx /\ nth c (reset_indices means poses idx) 0%nat = 0%nat).
Proof.
  intros Hc D. unfold reset_indices.
  set (f := reset_indices_loop means (nth 0 poses (V6 v3zero v3zero)) idx 0 (fun _ => 10000) (fun _ => 0%nat)).
  assert (E : nth c (map f (seq 0 (length means))) 0%nat = f c).
  { rewrite (nth_indep _ 0%nat (f 0%nat)) by (rewrite map_length, seq_length; exact Hc). rewrite map_nth, seq_nth by exact Hc. reflexivity. }
  rewrite E. destruct (reset_loop_spec means (nth 0 poses v60) idx 0 (fun _ => 10000) (fun _ => 0%nat) c) as [G _]. cbv zeta beta in G.
  exact (G D).
Qed.
(** so the documented selection, the motion nearest to the centre, is not what is chosen *)
Theorem reset_indices_refuted : exists means poses idx, length idx = length poses /\
  (exists k, first_nearest 0 (nth 0 means v60) idx poses k) /\
  ~ first_nearest 0 (nth 0 means v60) idx poses (nth 0 (reset_indices means poses idx) 0%nat).
Proof.
  exists [v60], [V6 (V3 1 0 0) v3zero; v60], [0%nat; 0%nat]. split; [reflexivity|].
  assert (D1 : rotation_distance v60 (V6 (V3 1 0 0) v3zero) = 1).
  { unfold rotation_distance, v60, norm3, v3add, v3opp, v3zero. cbn.
    match goal with |- sqrt ?x = 1 => replace x with 1 by ring end. apply sqrt_1. }
  assert (D0 : rotation_distance v60 v60 = 0).
  { unfold rotation_distance, v60, norm3, v3add, v3opp, v3zero. cbn.
    match goal with |- sqrt ?x = 0 => replace x with 0 by ring end. apply sqrt_0. }
  split.
  - exists 1%nat. unfold first_nearest. cbn [length nth]. split; [lia|]. split; [reflexivity|]. split.
    + intros [|[|m]] Hm _; [rewrite D0, D1; lra|lra|lia].
    + intros [|m] Hm _; [rewrite D0, D1; lra|lia].
  - destruct (reset_indices_first [v60] [V6 (V3 1 0 0) v3zero; v60] [0%nat; 0%nat] 0 ltac:(cbn; lia)) as [(k & _ & _ & F & R)|(N & _)].
    + cbn [nth]. rewrite D1. lra.
    + assert (K0 : k = 0%nat) by (destruct k; [reflexivity|exfalso; apply (F 0%nat); [lia|reflexivity]]). rewrite R, K0.
      intros (_ & _ & G & _). specialize (G 1%nat ltac:(cbn; lia) eq_refl). cbn [nth] in G. rewrite D0, D1 in G. lra.
    + exfalso. apply N. left. reflexivity.
Qed.

Example ex_selection : let a := [V6 (V3 1 0 0) v3zero; v60; V6 (V3 0 2 0) v3zero] in
  first_nearest 0 v60 [0;0;1]%nat a 1.
Proof.
  cbv zeta. assert (N : forall v, 0 <= rotation_distance v60 v) by (intros; apply sqrt_pos).
  assert (D0 : rotation_distance v60 v60 = 0).
  { unfold rotation_distance, v60, norm3, v3add, v3opp, v3zero. cbn. match goal with |- sqrt ?x = 0 => replace x with 0 by ring end. apply sqrt_0. }
  assert (D1 : rotation_distance v60 (V6 (V3 1 0 0) v3zero) = 1).
  { unfold rotation_distance, v60, norm3, v3add, v3opp, v3zero. cbn. match goal with |- sqrt ?x = 1 => replace x with 1 by ring end. apply sqrt_1. }
  unfold first_nearest. cbn [length nth]. split; [lia|]. split; [reflexivity|]. split.
  - intros m _ _. rewrite D0. apply N.
  - intros [|m] Hm _; [cbn [nth]; rewrite D0, D1; lra|lia].
Qed.

Print Assumptions selection_matched.
Print Assumptions selection_empty_refuted.
Print Assumptions reset_indices_first.
Print Assumptions reset_indices_refuted.

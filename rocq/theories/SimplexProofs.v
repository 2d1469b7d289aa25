From Coq Require Import Reals List Bool Arith Lia Lra.
Import ListNotations.
From Verif Require Import Mat Simplex.
Open Scope R_scope.

Lemma Rleb_true a b : Rleb a b = true <-> a <= b.
Proof. unfold Rleb. destruct (Rle_dec a b); split; auto; discriminate. Qed.
Lemma Rleb_false a b : Rleb a b = false <-> b < a.
Proof. unfold Rleb. destruct (Rle_dec a b); split; auto; try discriminate; lra. Qed.
Lemma Rltb_true a b : Rltb a b = true <-> a < b.
Proof. unfold Rltb. destruct (Rlt_dec a b); split; auto; discriminate. Qed.
Lemma Rltb_false a b : Rltb a b = false <-> b <= a.
Proof. unfold Rltb. destruct (Rlt_dec a b); split; auto; try discriminate; lra. Qed.

Lemma fold_left_seq_inv {A} (g : A -> nat -> A) (P : nat -> A -> Prop) a b : forall acc,
  P a acc -> (forall i acc, (a <= i < a + b)%nat -> P i acc -> P (S i) (g acc i)) ->
  P (a + b)%nat (fold_left g (seq a b) acc).
Proof.
  revert a. induction b as [|b IH]; intros a acc H0 HS; cbn.
  - rewrite Nat.add_0_r. exact H0.
  - replace (a + S b)%nat with (S a + b)%nat by lia. apply IH.
    + apply HS; [lia|exact H0].
    + intros i acc' Hi. apply HS. lia.
Qed.

Section S.
Variable n : nat.
Hypothesis Hn : (1 <= n)%nat.

(** what the selection loop computes *)
Definition picked (k : nat) (y : nat -> R) (a : nat * nat * nat) : Prop :=
  let '(lo, hi, nhi) := a in
  (lo <= n)%nat /\ (hi <= n)%nat /\ (nhi <= n)%nat /\ hi <> nhi /\ y nhi <= y hi /\
  (forall i, (i < k)%nat -> y lo <= y i) /\
  (forall i, (i < k)%nat -> y i <= y hi) /\
  (forall i, (i < k)%nat -> i <> hi -> y i <= y nhi).

Lemma pick_spec y : picked (S n) y (pick n y).
Proof.
  unfold pick.
  set (start := if Rltb (y 1%nat) (y 0%nat) then _ else _).
  pose (P := fun k a => picked k y a /\ let '(lo,hi,nhi) := a in
     ((k <= 0)%nat -> lo = 0%nat /\ (hi = 0 /\ nhi = 1 \/ hi = 1 /\ nhi = 0)%nat)).
  assert (H0 : P 0%nat start).
  { unfold P, start. destruct (Rltb (y 1%nat) (y 0%nat)) eqn:E; [apply Rltb_true in E|apply Rltb_false in E];
    unfold picked; repeat split; intros; try lia; try lra. }
  change (S n) with (0 + S n)%nat at 1.
  match goal with |- picked _ _ (fold_left ?g _ _) => 
    enough (HP : P (0 + S n)%nat (fold_left g (seq 0 (S n)) start)) by exact (proj1 HP) end.
  apply fold_left_seq_inv; [exact H0|].
  intros i [[lo hi] nhi] Hi ((L1 & L2 & L3 & L4 & L5 & L6 & L7 & L8) & Hz).
  set (lo' := if Rleb (y i) (y lo) then i else lo).
  assert (Hlo : (lo' <= n)%nat /\ forall k, (k < S i)%nat -> y lo' <= y k).
  { unfold lo'. destruct (Rleb (y i) (y lo)) eqn:E; [apply Rleb_true in E|apply Rleb_false in E].
    - split; [lia|]. intros k Hk. destruct (Nat.eq_dec k i) as [->|Hki]; [lra|].
      specialize (L6 k ltac:(lia)). lra.
    - split; [lia|]. intros k Hk. destruct (Nat.eq_dec k i) as [->|Hki]; [lra|]. apply L6. lia. }
  destruct Hlo as [Hlo1 Hlo2].
  destruct (Rltb (y hi) (y i)) eqn:E1; [apply Rltb_true in E1|apply Rltb_false in E1].
  - assert (i <> hi) by (intros ->; lra).
    split; [|intros; lia]. unfold picked. repeat split; try lia; try assumption; try lra.
    + intros k Hk. destruct (Nat.eq_dec k i) as [->|Hki]; [lra|]. specialize (L7 k ltac:(lia)). lra.
    + intros k Hk Hki. apply L7. lia.
  - destruct (Rltb (y nhi) (y i) && negb (i =? hi)%nat) eqn:E2.
    + apply andb_true_iff in E2. destruct E2 as [E2 E3]. apply Rltb_true in E2.
      apply negb_true_iff, Nat.eqb_neq in E3.
      split; [|intros; lia]. unfold picked. repeat split; try lia; try assumption; try lra.
      * intros k Hk. destruct (Nat.eq_dec k i) as [->|Hki]; [lra|]. apply L7. lia.
      * intros k Hk Hkh. destruct (Nat.eq_dec k i) as [->|Hki]; [lra|]. specialize (L8 k ltac:(lia) Hkh). lra.
    + split; [|intros; lia]. unfold picked. repeat split; try lia; try assumption; try lra.
      * intros k Hk. destruct (Nat.eq_dec k i) as [->|Hki]; [lra|]. apply L7. lia.
      * intros k Hk Hkh. destruct (Nat.eq_dec k i) as [->|Hki].
        -- apply andb_false_iff in E2. destruct E2 as [E2|E2]; [apply Rltb_false in E2; exact E2|].
           apply negb_false_iff, Nat.eqb_eq in E2. congruence.
        -- apply L8; [lia|exact Hkh].
Qed.

Variable f : vect -> R.
Variable normalize : vect -> vect.
Variable term : nat -> R -> R -> bool.

Notation coherent := (coherent n f).

Lemma sum_set m (p : nat -> vect) k v j : (k < m)%nat ->
  sum m (fun i => set p k v i j) = sum m (fun i => p i j) + (v j - p k j).
Proof.
  induction m as [|m IH]; intros Hk; [lia|]. cbn [sum].
  destruct (Nat.eq_dec k m) as [->|Hkm].
  - unfold set at 2. rewrite Nat.eqb_refl.
    rewrite (sum_ext m _ (fun i => p i j)); [ring|].
    intros i Hi. unfold set. rewrite (proj2 (Nat.eqb_neq i m)) by lia. reflexivity.
  - rewrite IH by lia. unfold set. rewrite (proj2 (Nat.eqb_neq m k)) by lia. ring.
Qed.

Lemma initial_coherent x : coherent (initial n f normalize x).
Proof.
  constructor; cbn [initial val vertex psum seen].
  - reflexivity.
  - reflexivity.
  - intros q Hq. apply in_map_iff in Hq. destruct Hq as (i & <- & Hi). apply in_seq in Hi.
    exists i. split; [lia|lra].
Qed.

Lemma count_coherent s k : coherent s -> coherent (count s k).
Proof. intros [A B C]. constructor; assumption. Qed.

(** a coherent state whose vertices are never worse than those of [s] *)
Definition no_worse (s s' : state) : Prop :=
  forall i, (i <= n)%nat -> exists k, (k <= n)%nat /\ val s' k <= val s i.

Lemma no_worse_refl s : no_worse s s.
Proof. intros i Hi. exists i. split; [exact Hi|lra]. Qed.
Lemma no_worse_trans a b c : no_worse a b -> no_worse b c -> no_worse a c.
Proof.
  intros H1 H2 i Hi. destruct (H1 i Hi) as (k & Hk & L1). destruct (H2 k Hk) as (l & Hl & L2).
  exists l. split; [exact Hl|lra].
Qed.

Lemma attempt_ok s ihi fac s' y : coherent s -> (ihi <= n)%nat ->
  attempt n f normalize s ihi fac = (s', y) ->
  coherent s' /\ no_worse s s' /\ nfunk s' = nfunk s /\
  (forall i, i <> ihi -> val s' i = val s i /\ vertex s' i = vertex s i) /\ val s' ihi <= val s ihi /\ val s' ihi <= y.
Proof.
  intros [A B C] Hi. unfold attempt. set (p := trial n normalize s ihi fac).
  destruct (Rltb (f p) (val s ihi)) eqn:E; [apply Rltb_true in E|apply Rltb_false in E];
    intros H; injection H as <- <-.
  - assert (NW : forall i, (i <= n)%nat -> set (val s) ihi (f p) i <= val s i).
    { intros i _. unfold set. destruct (Nat.eqb_spec i ihi) as [->|]; lra. }
    assert (SV : forall i, (i <= n)%nat -> set (val s) ihi (f p) i = f (set (vertex s) ihi p i)).
    { intros i Hi'. unfold set. destruct (Nat.eqb_spec i ihi); [reflexivity|apply A, Hi']. }
    split; [|split; [|split; [reflexivity|split]]].
    + constructor; cbn [val vertex psum seen].
      * exact SV.
      * intros j. rewrite sum_set by lia. rewrite B. reflexivity.
      * intros q [<-|Hq].
        -- exists ihi. split; [exact Hi|]. unfold set. rewrite Nat.eqb_refl. lra.
        -- destruct (C q Hq) as (i & Hi' & L). exists i. split; [exact Hi'|].
           rewrite <- SV by exact Hi'. specialize (NW i Hi'). rewrite A in NW by exact Hi'. lra.
    + intros i Hi'. exists i. split; [exact Hi'|]. cbn. apply NW, Hi'.
    + cbn. intros i Hne. unfold set. rewrite (proj2 (Nat.eqb_neq i ihi) Hne). auto.
    + cbn. unfold set. rewrite Nat.eqb_refl. lra.
  - split; [|split; [|split; [reflexivity|split]]].
    + constructor; cbn [val vertex psum seen]; [exact A|exact B|].
      intros q [<-|Hq]; [|apply C, Hq]. exists ihi. split; [exact Hi|]. rewrite <- A by exact Hi. exact E.
    + exact (no_worse_refl s).
    + cbn. auto.
    + cbn. lra.
Qed.

Lemma contract_ok s ilo : coherent s -> (ilo <= n)%nat -> (forall i, (i <= n)%nat -> val s ilo <= val s i) ->
  coherent (contract n f normalize s ilo) /\ no_worse s (contract n f normalize s ilo).
Proof.
  intros [A B C] Hlo Hmin. split.
  - constructor; cbn [contract val vertex psum seen].
    + intros i Hi. unfold contract_vertex. destruct (Nat.eqb_spec i ilo); [apply A, Hi|reflexivity].
    + intros j. reflexivity.
    + intros q Hq. apply in_app_or in Hq. destruct Hq as [Hq|Hq].
      * apply in_map_iff in Hq. destruct Hq as (i & <- & Hi). apply filter_In in Hi. destruct Hi as [Hi _].
        apply in_seq in Hi. exists i. split; [lia|lra].
      * destruct (C q Hq) as (i & Hi & L). exists ilo. split; [exact Hlo|].
        unfold contract_vertex. rewrite Nat.eqb_refl.
        specialize (Hmin i Hi). rewrite !A in Hmin by assumption. lra.
  - intros i Hi. exists ilo. split; [exact Hlo|]. cbn. rewrite Nat.eqb_refl. apply Hmin, Hi.
Qed.

(** the lowest vertex stays lowest under an accepted or rejected attempt that is not better *)
Lemma step_ok s : coherent s ->
  coherent (step n f normalize s) /\ no_worse s (step n f normalize s) /\
  (nfunk s < nfunk (step n f normalize s))%nat.
Proof.
  intros HC. unfold step. pose proof (pick_spec (val s)) as HP.
  destruct (pick n (val s)) as [[ilo ihi] inhi].
  destruct HP as (Hlo & Hhi & Hnhi & Hne & _ & Hmin & _ & _).
  pose proof (count_coherent s (nfunk s + 2) HC) as HC0. set (s0 := count s (nfunk s + 2)) in *.
  destruct (attempt n f normalize s0 ihi (-1)) as [s1 y1] eqn:E1.
  destruct (attempt_ok _ _ _ _ _ HC0 Hhi E1) as (HC1 & NW1 & NF1 & OT1 & LE1 & LY1).
  assert (NWs : no_worse s s1) by exact NW1.
  assert (NF : (nfunk s + 2 = nfunk s1)%nat) by (rewrite NF1; reflexivity).
  destruct (Rleb y1 (val s1 ilo)) eqn:T1; [apply Rleb_true in T1|apply Rleb_false in T1].
  - destruct (attempt n f normalize s1 ihi 2) as [s2 y2] eqn:E2. cbn [fst].
    destruct (attempt_ok _ _ _ _ _ HC1 Hhi E2) as (HC2 & NW2 & NF2 & _ & _).
    split; [exact HC2|]. split; [exact (no_worse_trans _ _ _ NWs NW2)|]. lia.
  - destruct (Rleb (val s1 inhi) y1) eqn:T2.
    + destruct (attempt n f normalize s1 ihi (1/2)) as [s2 y2] eqn:E2.
      destruct (attempt_ok _ _ _ _ _ HC1 Hhi E2) as (HC2 & NW2 & NF2 & OT2 & LE2 & LY2).
      pose proof (no_worse_trans _ _ _ NWs NW2) as NW12.
      destruct (Rleb (val s1 ihi) y2) eqn:T3; [apply Rleb_true in T3|].
      * assert (Hmin2 : forall i, (i <= n)%nat -> val s2 ilo <= val s2 i).
        { (* ilo differs from ihi or the state is unchanged *)
          assert (Hhi2 : val s2 ihi = val s1 ihi).
          { unfold attempt in E2. destruct (Rltb _ _) eqn:L in E2; injection E2 as <- <-; [|reflexivity].
            apply Rltb_true in L. lra. }
          assert (Same : forall i, val s2 i = val s1 i).
          { intros i. destruct (Nat.eq_dec i ihi) as [->|Hi]; [exact Hhi2|]. apply OT2, Hi. }
          assert (Low : forall i, (i <= n)%nat -> val s1 ilo <= val s1 i).
          { intros i Hi. destruct (Nat.eq_dec ihi ilo) as [<-|Hd].
            - unfold attempt in E1. destruct (Rltb _ _) eqn:L in E1; injection E1 as <- <-.
              + cbn in T1. unfold set in T1. rewrite Nat.eqb_refl in T1. lra.
              + cbn. apply Hmin. lia.
            - destruct (OT1 ilo (not_eq_sym Hd)) as [-> _].
              destruct (Nat.eq_dec i ihi) as [->|Hi'].
              + unfold attempt in E1. destruct (Rltb _ _) eqn:L in E1; injection E1 as <- <-.
                * cbn. unfold set. rewrite Nat.eqb_refl. apply Rltb_true in L.
                  cbn in T1. unfold set in T1. rewrite (proj2 (Nat.eqb_neq ilo ihi)) in T1 by congruence.
                  cbn in T1. lra.
                * cbn. apply Hmin. lia.
              + destruct (OT1 i Hi') as [-> _]. cbn. apply Hmin. lia. }
          intros i Hi. rewrite !Same. apply Low, Hi. }
        destruct (contract_ok s2 ilo HC2 Hlo Hmin2) as [HC3 NW3].
        split; [exact HC3|]. split; [exact (no_worse_trans _ _ _ NW12 NW3)|]. cbn. lia.
      * split; [exact HC2|]. split; [exact NW12|]. lia.
    + split; [apply count_coherent, HC1|]. split; [exact NWs|]. cbn. lia.
Qed.

Lemma loop_ok fuel : forall s, coherent s ->
  match loop n f normalize term fuel s with
  | Done p y s' => coherent s' /\ no_worse s s' /\ y = f p /\ (forall q, In q (seen s') -> y <= f q) /\
                   (forall i, (i <= n)%nat -> y <= val s' i)
  | Running s' => coherent s' /\ no_worse s s' /\ (nfunk s + fuel <= nfunk s')%nat
  end.
Proof.
  induction fuel as [|fuel IH]; intros s HC; cbn [loop].
  - split; [exact HC|]. split; [apply no_worse_refl|lia].
  - pose proof (pick_spec (val s)) as HP. destruct (pick n (val s)) as [[ilo ihi] inhi].
    destruct HP as (Hlo & _ & _ & _ & _ & Hmin & _ & _).
    destruct (term (nfunk s) (val s ilo) (val s ihi)).
    + split; [exact HC|]. split; [apply no_worse_refl|]. destruct HC as [A B C].
      split; [apply A, Hlo|]. split; [|intros i Hi; apply Hmin; lia].
      intros q Hq. destruct (C q Hq) as (i & Hi & L). rewrite <- A in L by exact Hi.
      specialize (Hmin i ltac:(lia)). lra.
    + destruct (step_ok s HC) as (HC' & NW & NF). specialize (IH _ HC').
      destruct (loop n f normalize term fuel (step n f normalize s)) as [p y s'|s'].
      * destruct IH as (H1 & H2 & H3). split; [exact H1|]. split; [exact (no_worse_trans _ _ _ NW H2)|exact H3].
      * destruct IH as (H1 & H2 & H3). split; [exact H1|]. split; [exact (no_worse_trans _ _ _ NW H2)|lia].
Qed.

Lemma seen_grows_attempt s ihi fac q : In q (seen s) -> In q (seen (fst (attempt n f normalize s ihi fac))).
Proof. intros H. unfold attempt. destruct (Rltb _ _); cbn; right; exact H. Qed.
Lemma seen_grows_step s q : In q (seen s) -> In q (seen (step n f normalize s)).
Proof.
  intros H. unfold step. destruct (pick n (val s)) as [[ilo ihi] inhi].
  pose proof (seen_grows_attempt (count s (nfunk s + 2)) ihi (-1) q H) as H1.
  destruct (attempt n f normalize (count s (nfunk s + 2)) ihi (-1)) as [s1 y1]. cbn [fst] in H1.
  destruct (Rleb y1 (val s1 ilo)); [apply seen_grows_attempt, H1|].
  destruct (Rleb (val s1 inhi) y1); [|exact H1].
  pose proof (seen_grows_attempt s1 ihi (1/2) q H1) as H2.
  destruct (attempt n f normalize s1 ihi (1/2)) as [s2 y2]. cbn [fst] in H2.
  destruct (Rleb _ y2); [|exact H2]. cbn. apply in_or_app. right. exact H2.
Qed.
Lemma seen_grows_loop fuel : forall s q p y s', In q (seen s) -> loop n f normalize term fuel s = Done p y s' ->
  In q (seen s').
Proof.
  induction fuel as [|fuel IH]; intros s q p y s' H; cbn [loop]; [discriminate|].
  destruct (pick n (val s)) as [[ilo ihi] inhi]. destruct (term _ _ _).
  - intros E. injection E as _ _ <-. exact H.
  - apply IH, seen_grows_step, H.
Qed.

(** the trial point without normalisation: the vertex moved along the line through the
    centroid of the opposite face *)
Lemma face_sum (p : nat -> vect) k j : (k <= n)%nat ->
  sum (S n) (fun i => if (i =? k)%nat then 0 else p i j) = sum (S n) (fun i => p i j) - p k j.
Proof.
  intros Hk. rewrite (sum_ext (S n) _ (fun i => p i j - (if (i =? k)%nat then p k j else 0))).
  - rewrite sum_minus. f_equal. rewrite (sum_single (S n) _ k).
    + rewrite Nat.eqb_refl. reflexivity.
    + lia.
    + intros i _ Hi. rewrite (proj2 (Nat.eqb_neq i k) Hi). reflexivity.
  - intros i _. destruct (Nat.eqb_spec i k) as [->|]; ring.
Qed.
Lemma trial_geometry s k fac j : (k <= n)%nat -> coherent s ->
  trial n (fun v => v) s k fac j =
  face_centroid n (vertex s) k j + fac * (vertex s k j - face_centroid n (vertex s) k j).
Proof.
  intros Hk [_ B _]. unfold trial, face_centroid. rewrite face_sum by exact Hk. rewrite B.
  field. apply not_0_INR. lia.
Qed.
End S.

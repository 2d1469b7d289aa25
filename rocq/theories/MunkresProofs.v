From Coq Require Import ZArith List Bool Arith Lia FinFun Permutation.
Import ListNotations.
From Verif Require Import Munkres.
Open Scope Z_scope.

(** ** Lists *)
Lemma in_cells n r c : In (r, c) (cells n) <-> (r < n /\ c < n)%nat.
Proof. unfold cells. rewrite in_prod_iff, !in_seq. lia. Qed.

Lemma NoDup_append {A} (m1 m2 : list A) : NoDup m1 -> NoDup m2 -> (forall x, In x m1 -> ~ In x m2) -> NoDup (m1 ++ m2).
Proof.
  induction m1 as [|x m1 IHm]; intros H1 H2' HD; [exact H2'|]. inversion H1; subst. cbn. constructor.
  - rewrite in_app_iff. intros [X|X]; [contradiction|]. apply (HD x); [left; reflexivity|exact X].
  - apply IHm; [assumption|assumption|]. intros y Hy. apply HD. right. exact Hy.
Qed.

Lemma NoDup_list_prod {A B} (l : list A) (l' : list B) : NoDup l -> NoDup l' -> NoDup (list_prod l l').
Proof.
  induction l as [|a l IH]; intros H H'; [constructor|]. inversion H; subst. cbn.
  apply NoDup_append.
  - apply Injective_map_NoDup; [|exact H']. intros x y E. congruence.
  - apply IH; assumption.
  - intros [x y] Hx Hy. apply in_map_iff in Hx. destruct Hx as (z & E & _). injection E as -> ->.
    apply in_prod_iff in Hy. tauto.
Qed.

Lemma NoDup_cells n : NoDup (cells n).
Proof. apply NoDup_list_prod; apply seq_NoDup. Qed.

(** ** Row reduction *)
Lemma fold_min_le (f : nat -> Z) l a :
  let r := fold_left (fun m j => if f j <? m then f j else m) l a in
  r <= a /\ forall j, In j l -> r <= f j.
Proof.
  revert a. induction l as [|x l IH]; intros a; cbn; [split; [lia|tauto]|].
  destruct (IH (if f x <? a then f x else a)) as [H1 H2]. cbn in *.
  destruct (f x <? a) eqn:E; (apply Z.ltb_lt in E || apply Z.ltb_ge in E);
    (split; [lia|]); intros j [<-|Hj]; auto; lia.
Qed.

Lemma fold_min_in (f : nat -> Z) l a :
  let r := fold_left (fun m j => if f j <? m then f j else m) l a in
  r = a \/ exists j, In j l /\ r = f j.
Proof.
  revert a. induction l as [|x l IH]; intros a; cbn; [auto|].
  destruct (IH (if f x <? a then f x else a)) as [H|(j & Hj & H)]; cbn in *.
  - rewrite H. destruct (f x <? a); [right; exists x|]; auto.
  - right. exists j. auto.
Qed.

Lemma fold_max_ge (f : nat * nat -> Z) l a :
  let r := fold_left (fun v rc => if v <? f rc then f rc else v) l a in
  a <= r /\ forall x, In x l -> f x <= r.
Proof.
  revert a. induction l as [|x l IH]; intros a; cbn; [split; [lia|tauto]|].
  destruct (IH (if a <? f x then f x else a)) as [H1 H2]. cbn in *.
  destruct (a <? f x) eqn:E; (apply Z.ltb_lt in E || apply Z.ltb_ge in E);
    (split; [lia|]); intros j [<-|Hj]; auto; lia.
Qed.

Lemma vmax_ge n c r k : (r < n)%nat -> (k < n)%nat -> c r k <= vmax n c.
Proof.
  intros Hr Hk. unfold vmax.
  destruct (fold_max_ge (fun rc => c (fst rc) (snd rc)) (cells n) 0) as [_ H].
  apply (H (r, k)). apply in_cells. auto.
Qed.

Lemma row_min_le n c i j : (j < n)%nat -> row_min n c i <= c i j.
Proof.
  intros Hj. unfold row_min. destruct (fold_min_le (c i) (seq 0 n) (vmax n c)) as [_ H].
  apply H, in_seq. lia.
Qed.

Lemma row_min_attained n c i : (i < n)%nat -> exists j, (j < n)%nat /\ row_min n c i = c i j.
Proof.
  intros Hi. unfold row_min.
  destruct (fold_min_in (c i) (seq 0 n) (vmax n c)) as [H|(j & Hj & H)].
  - exists i. split; [exact Hi|].
    pose proof (row_min_le n c i i Hi) as H1. pose proof (vmax_ge n c i i Hi Hi) as H2.
    unfold row_min in H1. lia.
  - exists j. apply in_seq in Hj. split; [lia|exact H].
Qed.

Lemma set_matrix_nonneg n c i j : (j < n)%nat -> 0 <= set_matrix n c i j.
Proof. intros H. unfold set_matrix. pose proof (row_min_le n c i j H). lia. Qed.

Lemma set_matrix_zero n c i : (i < n)%nat -> exists j, (j < n)%nat /\ set_matrix n c i j = 0.
Proof.
  intros H. destruct (row_min_attained n c i H) as (j & Hj & E). exists j. split; [exact Hj|].
  unfold set_matrix. lia.
Qed.

(** ** Stars of step 1 *)
Definition good (n : nat) (m : cost) (k : marks) : Prop :=
  (forall r c, k r c = Star -> (r < n /\ c < n)%nat /\ m r c = 0) /\
  (forall r c, k r c <> Prime) /\
  (forall r c c', k r c = Star -> k r c' = Star -> c = c') /\
  (forall r r' c, k r c = Star -> k r' c = Star -> r = r').

Lemma is_star_iff m : is_star m = true <-> m = Star.
Proof. destruct m; cbn; split; congruence. Qed.

Lemma upd2_cases {A} (k : nat -> nat -> A) r c v i j :
  (i = r /\ j = c /\ upd2 k r c v i j = v) \/ ((i <> r \/ j <> c) /\ upd2 k r c v i j = k i j).
Proof.
  unfold upd2. destruct (i =? r)%nat eqn:E1; destruct (j =? c)%nat eqn:E2; cbn;
    repeat match goal with
    | H : (_ =? _)%nat = true |- _ => apply Nat.eqb_eq in H
    | H : (_ =? _)%nat = false |- _ => apply Nat.eqb_neq in H end; auto.
Qed.

Lemma existsb_star_false (f : nat -> mark) n :
  existsb (fun i => is_star (f i)) (seq 0 n) = false -> forall i, (i < n)%nat -> f i <> Star.
Proof.
  intros H i Hi E. assert (X : existsb (fun i => is_star (f i)) (seq 0 n) = true).
  { apply existsb_exists. exists i. split; [apply in_seq; lia|]. rewrite E. reflexivity. }
  congruence.
Qed.

Lemma step1_cell_good n m k rc : In rc (cells n) -> good n m k -> good n m (step1_cell n m k rc).
Proof.
  destruct rc as [row col]. intros Hin (G1 & G2 & G3 & G4). apply in_cells in Hin. unfold step1_cell.
  destruct (m row col =? 0) eqn:E; [apply Z.eqb_eq in E|split; auto].
  destruct (existsb _ _ || existsb _ _) eqn:EB; [split; auto|].
  apply orb_false_iff in EB. destruct EB as [B1 B2].
  pose proof (existsb_star_false (fun r => k r col) n B1) as C1.
  pose proof (existsb_star_false (fun c => k row c) n B2) as C2. cbn in C1, C2.
  assert (D1 : forall r, k r col <> Star). { intros r Hr. apply (C1 r); [apply (G1 r col Hr)|exact Hr]. }
  assert (D2 : forall c, k row c <> Star). { intros c Hc. apply (C2 c); [apply (G1 row c Hc)|exact Hc]. }
  assert (U : forall r c, upd2 k row col Star r c = Star -> (r = row /\ c = col) \/ k r c = Star).
  { intros r c. destruct (upd2_cases k row col Star r c) as [(-> & -> & _)|[_ ->]]; auto. }
  split; [|split; [|split]].
  - intros r c H. destruct (U r c H) as [[-> ->]|H']; [auto|apply G1; exact H'].
  - intros r c. destruct (upd2_cases k row col Star r c) as [(-> & -> & ->)|[_ ->]]; [congruence|apply G2].
  - intros r c c' H H'. destruct (U r c H) as [[-> ->]|K]; destruct (U _ c' H') as [[E1 ->]|K']; subst; try reflexivity.
    + exfalso. apply (D2 _ K').
    + exfalso. apply (D2 _ K).
    + apply (G3 r); assumption.
  - intros r r' c H H'. destruct (U r c H) as [[-> ->]|K]; destruct (U r' _ H') as [[-> E1]|K']; subst; try reflexivity.
    + exfalso. apply (D1 _ K').
    + exfalso. apply (D1 _ K).
    + apply (G4 _ _ c); assumption.
Qed.

Lemma step1_fold_good n m l k : (forall x, In x l -> In x (cells n)) -> good n m k ->
  good n m (fold_left (step1_cell n m) l k).
Proof.
  revert k. induction l as [|x l IH]; intros k Hl Hk; [exact Hk|]. cbn. apply IH.
  - intros y Hy. apply Hl. right. exact Hy.
  - apply step1_cell_good; [apply Hl; left; reflexivity|exact Hk].
Qed.

Lemma good_normal n m : good n m (fun _ _ => Normal).
Proof. repeat split; intros; congruence. Qed.

Definition greedy (n : nat) (c : cost) : marks := step1_mask n (set_matrix n c) (fun _ _ => Normal).

Lemma greedy_good n c : good n (set_matrix n c) (greedy n c).
Proof. apply step1_fold_good; [auto|apply good_normal]. Qed.

Lemma step1_cell_mono n m k rc r c : k r c = Star -> step1_cell n m k rc r c = Star.
Proof.
  destruct rc as [row col]. intros H. unfold step1_cell. destruct (m row col =? 0); [|exact H].
  destruct (_ || _); [exact H|]. destruct (upd2_cases k row col Star r c) as [(-> & -> & E)|[_ E]]; congruence.
Qed.

Lemma step1_fold_mono n m l k r c : k r c = Star -> fold_left (step1_cell n m) l k r c = Star.
Proof. revert k. induction l as [|x l IH]; intros k H; [exact H|]. cbn. apply IH, step1_cell_mono, H. Qed.

(** the first row always gets a star *)
Lemma first_row_scan n m l k : (forall j, In j l -> (j < n)%nat) ->
  (forall r c, k r c = Star -> r = 0%nat) ->
  (exists j, In j l /\ m 0%nat j = 0) ->
  exists j, fold_left (step1_cell n m) (map (fun y => (0%nat, y)) l) k 0%nat j = Star.
Proof.
  revert k. induction l as [|x l IH]; intros k Hl Hk (j & Hj & Hz); [destruct Hj|].
  cbn [map fold_left].
  destruct (m 0%nat x =? 0) eqn:E.
  - assert (HS : exists y, step1_cell n m k (0%nat, x) 0%nat y = Star).
    { unfold step1_cell. rewrite E.
      destruct (existsb (fun nrow => is_star (k nrow x)) (seq 0 n)) eqn:B1.
      { cbn. apply existsb_exists in B1. destruct B1 as (r & _ & H). apply is_star_iff in H.
        assert (r = 0%nat) by (apply (Hk r x H)). subst. exists x. exact H. }
      destruct (existsb (fun ncol => is_star (k 0%nat ncol)) (seq 0 n)) eqn:B2.
      { cbn. apply existsb_exists in B2. destruct B2 as (y & _ & H). apply is_star_iff in H. exists y. exact H. }
      cbn. exists x. unfold upd2. rewrite !Nat.eqb_refl. reflexivity. }
    destruct HS as (y & HS). exists y. apply step1_fold_mono. exact HS.
  - apply IH.
    + intros y Hy. apply Hl. right. exact Hy.
    + unfold step1_cell. rewrite E. exact Hk.
    + exists j. split; [|exact Hz]. destruct Hj as [->|Hj]; [|exact Hj]. rewrite Hz in E. discriminate.
Qed.

Lemma greedy_first_row n c : (0 < n)%nat -> exists j, greedy n c 0%nat j = Star.
Proof.
  intros Hn. destruct n as [|n]; [lia|]. unfold greedy, step1_mask, cells. cbn [seq list_prod].
  rewrite fold_left_app. change (0%nat :: seq 1 n) with (seq 0 (S n)).
  destruct (first_row_scan (S n) (set_matrix (S n) c) (seq 0 (S n)) (fun _ _ => Normal)) as (j & H).
  - intros j Hj. apply in_seq in Hj. lia.
  - intros; congruence.
  - destruct (set_matrix_zero (S n) c 0 Hn) as (j & Hj & E). exists j. split; [apply in_seq; lia|exact E].
  - exists j. apply step1_fold_mono. exact H.
Qed.

(** ** Counting *)
Lemma in_star_cells n k r c : In (r, c) (star_cells n k) <-> (r < n /\ c < n)%nat /\ k r c = Star.
Proof. unfold star_cells. rewrite filter_In, in_cells. cbn. rewrite is_star_iff. tauto. Qed.

Lemma map_NoDup_on {A B} (f : A -> B) l : NoDup l ->
  (forall x y, In x l -> In y l -> f x = f y -> x = y) -> NoDup (map f l).
Proof.
  induction l as [|a l IH]; intros H HI; [constructor|]. inversion H; subst. cbn. constructor.
  - rewrite in_map_iff. intros (x & E & Hx). assert (x = a) by (apply HI; [right; exact Hx|left; reflexivity|exact E]).
    subst. contradiction.
  - apply IH; [assumption|]. intros x y Hx Hy. apply HI; right; assumption.
Qed.

Lemma star_rows n m k : good n m k ->
  NoDup (map fst (star_cells n k)) /\ incl (map fst (star_cells n k)) (seq 0 n).
Proof.
  intros (G1 & G2 & G3 & G4). split.
  - apply map_NoDup_on; [apply NoDup_filter, NoDup_cells|].
    intros [r c] [r' c'] H H' E. cbn in E. subst r'. apply in_star_cells in H, H'.
    f_equal. apply (G3 r); tauto.
  - intros r H. apply in_map_iff in H. destruct H as ([r' c] & <- & H). apply in_star_cells in H.
    apply in_seq. cbn. lia.
Qed.

Lemma star_count_le n m k : good n m k -> (length (star_cells n k) <= n)%nat.
Proof.
  intros G. destruct (star_rows n m k G) as [H1 H2].
  pose proof (NoDup_incl_length H1 H2) as L. rewrite map_length, seq_length in L. exact L.
Qed.

Lemma star_complete n m k : good n m k -> length (star_cells n k) = n ->
  forall r, (r < n)%nat -> exists c, (c < n)%nat /\ k r c = Star.
Proof.
  intros G E r Hr. destruct (star_rows n m k G) as [H1 H2].
  assert (HI : incl (seq 0 n) (map fst (star_cells n k))).
  { apply NoDup_length_incl; [exact H1| |exact H2]. rewrite map_length, seq_length. lia. }
  specialize (HI r). rewrite in_map_iff in HI. destruct HI as ([r' c] & <- & H); [apply in_seq; lia|].
  apply in_star_cells in H. exists c. cbn. tauto.
Qed.

(** ** The result lists *)
Lemma row_match_map n k : (forall r, (r < n)%nat -> exists c, (c < n)%nat /\ k r c = Star) ->
  exists f, row_match_list n k = map f (seq 0 n) /\ forall r, (r < n)%nat -> (f r < n)%nat /\ k r (f r) = Star.
Proof.
  intros H. set (g := fun row => find (fun col => is_star (k row col)) (seq 0 n)).
  exists (fun r => match g r with Some c => c | None => 0%nat end).
  assert (HG : forall r, (r < n)%nat -> exists c, g r = Some c /\ (c < n)%nat /\ k r c = Star).
  { intros r Hr. unfold g. destruct (find _ _) as [c|] eqn:E.
    - apply find_some in E. destruct E as [E1 E2]. apply in_seq in E1. apply is_star_iff in E2. exists c. split; [reflexivity|split; [lia|exact E2]].
    - destruct (H r Hr) as (c & Hc & HS). pose proof (find_none _ _ E c) as N. cbn in N.
      rewrite HS in N. cbn in N. discriminate N. apply in_seq. lia. }
  split.
  - unfold row_match_list. fold g.
    assert (X : forall l, (forall r, In r l -> (r < n)%nat) ->
      flat_map (fun row => match g row with Some c => [c] | None => [] end) l =
      map (fun r => match g r with Some c => c | None => 0%nat end) l).
    { induction l as [|a l IH]; intros Hl; [reflexivity|]. cbn.
      destruct (HG a) as (c & -> & _); [apply Hl; left; reflexivity|]. cbn. f_equal. apply IH.
      intros r Hr. apply Hl. right. exact Hr. }
    apply X. intros r Hr. apply in_seq in Hr. lia.
  - intros r Hr. destruct (HG r Hr) as (c & -> & Hc). exact Hc.
Qed.

Fixpoint sum_from (u : nat -> Z) (i : nat) (k : nat) : Z :=
  match k with O => 0 | S k => u i + sum_from u (S i) k end.

Lemma total_ge c u n p i : (forall r j, (r < n)%nat -> (j < n)%nat -> u r <= c r j) ->
  (forall j, In j p -> (j < n)%nat) -> (i + length p <= n)%nat ->
  sum_from u i (length p) <= total c i p.
Proof.
  revert i. induction p as [|j p IH]; intros i HU Hp Hl; cbn in *; [lia|].
  assert (sum_from u (S i) (length p) <= total c (S i) p).
  { apply IH; [exact HU| |lia]. intros x Hx. apply Hp. right. exact Hx. }
  assert (u i <= c i j) by (apply HU; [lia|apply Hp; left; reflexivity]). lia.
Qed.

Lemma total_map c f i k : total c i (map f (seq i k)) = sum_from (fun r => c r (f r)) i k.
Proof. revert i. induction k as [|k IH]; intros i; cbn; [reflexivity|]. rewrite IH. reflexivity. Qed.

Lemma sum_from_ext u v i k : (forall r, (i <= r < i + k)%nat -> u r = v r) -> sum_from u i k = sum_from v i k.
Proof.
  revert i. induction k as [|k IH]; intros i H; cbn; [reflexivity|].
  rewrite (H i) by lia. rewrite IH; [reflexivity|]. intros r Hr. apply H. lia.
Qed.

Lemma good_optimal n c k : good n (set_matrix n c) k -> length (star_cells n k) = n ->
  minimal n c (row_match_list n k).
Proof.
  intros G E. destruct (row_match_map n k (star_complete n _ k G E)) as (f & HM & Hf).
  destruct G as (G1 & G2 & G3 & G4). rewrite HM. split; [split; [|split]|].
  - rewrite map_length. apply seq_length.
  - apply map_NoDup_on; [apply seq_NoDup|]. intros x y Hx Hy EF. apply in_seq in Hx, Hy.
    destruct (Hf x ltac:(lia)) as [_ Sx]. destruct (Hf y ltac:(lia)) as [_ Sy]. rewrite <- EF in Sy.
    apply (G4 _ _ _ Sx Sy).
  - intros j Hj. apply in_map_iff in Hj. destruct Hj as (r & <- & Hr). apply in_seq in Hr. apply Hf. lia.
  - intros q (Q1 & Q2 & Q3).
    rewrite total_map.
    rewrite (sum_from_ext _ (row_min n c)).
    + rewrite <- Q1 at 2. apply (total_ge c _ n); [|exact Q3|lia].
      intros r j Hr Hj. apply row_min_le. exact Hj.
    + intros r Hr. destruct (Hf r ltac:(lia)) as [_ HS]. destruct (G1 _ _ HS) as [_ Z0].
      unfold set_matrix in Z0. lia.
Qed.

(** ** The loop *)
Definition done (s : state) : bool := (phase s =? 0)%nat.

(** [saverow] and [savecol] keep their initial value *)
Definition meq2 (k k' : marks) : Prop := forall r c, k r c = k' r c.

Lemma star_cells_ext n k k' : meq2 k k' -> star_cells n k = star_cells n k'.
Proof. intros H. unfold star_cells. apply filter_ext. intros [r c]. cbn. rewrite H. reflexivity. Qed.

Definition primed (k : marks) : marks := upd2 k 0 0 Prime.

(** states that are never left when the greedy stars are incomplete: the star of the first
    row is in the first column ... *)
Definition loop_a (g : marks) (s : state) : Prop :=
  saverow s = 0%nat /\ savecol s = 0%nat /\
  match phase s with
  | 2 | 3 | 5 => meq2 (mask s) g
  | 4 => meq2 (mask s) (primed g)
  | _ => False
  end%nat.
(** ... or in another one *)
Definition loop_b (g : marks) (s : state) : Prop :=
  saverow s = 0%nat /\ savecol s = 0%nat /\
  match phase s with
  | 2 => meq2 (mask s) g
  | 3 | 5 => meq2 (mask s) g \/ meq2 (mask s) (primed g)
  | _ => False
  end%nat.

Lemma meq2_upd k k' r c v : meq2 k k' -> meq2 (upd2 k r c v) (upd2 k' r c v).
Proof. intros H i j. unfold upd2. rewrite H. reflexivity. Qed.

Lemma find_ext' {A} (f g : A -> bool) l : (forall x, f x = g x) -> find f l = find g l.
Proof. intros H. induction l as [|a l IH]; cbn; [reflexivity|]. rewrite H, IH. reflexivity. Qed.

Lemma find_all_false {A} (f : A -> bool) l : (forall x, f x = false) -> find f l = None.
Proof. intros H. induction l as [|a l IH]; cbn; [reflexivity|]. rewrite H, IH. reflexivity. Qed.

Lemma loop_a_step n m g s : good n m g -> g 0%nat 0%nat = Star -> length (star_cells n g) <> n ->
  loop_a g s -> exists s', step n s = Some s' /\ loop_a g s'.
Proof.
  intros G H0 HL (S1 & S2 & HP). pose proof (star_count_le n m g G) as HC.
  destruct G as (G1 & G2 & G3 & G4).
  assert (R0 : forall c, is_star (primed g 0%nat c) = false).
  { intros c. unfold primed. destruct (upd2_cases g 0 0 Prime 0 c) as [(_ & _ & ->)|[N ->]]; [reflexivity|].
    destruct (g 0%nat c) eqn:E; try reflexivity. exfalso. destruct N as [N|N]; [congruence|].
    apply N. apply (G3 0%nat); assumption. }
  assert (C0 : forall r, is_star (primed g r 0%nat) = false).
  { intros r. unfold primed. destruct (upd2_cases g 0 0 Prime r 0) as [(_ & _ & ->)|[N ->]]; [reflexivity|].
    destruct (g r 0%nat) eqn:E; try reflexivity. exfalso. destruct N as [N|N]; [|congruence].
    apply N. apply (G4 _ _ 0%nat); assumption. }
  unfold step. destruct (phase s) as [|[|[|[|[|[|p]]]]]] eqn:EP; try tauto.
  - (* step 2 *)
    eexists. split; [reflexivity|]. unfold step2, loop_a. cbn. rewrite (star_cells_ext n _ g HP).
    destruct (n <=? length (star_cells n g))%nat eqn:E; [apply Nat.leb_le in E; lia|]. auto.
  - (* step 3 *)
    eexists. split; [reflexivity|]. unfold step3. destruct (find_uncovered n s 0).
    + rewrite S1, S2.
      assert (HP' : meq2 (upd2 (mask s) 0 0 Prime) (primed g)) by (apply meq2_upd; exact HP).
      rewrite find_all_false; [|intros x; rewrite HP'; apply R0].
      unfold loop_a. cbn. auto.
    + unfold loop_a. cbn. auto.
  - (* step 4 *)
    unfold step4. rewrite S1, S2. cbn [step4_path].
    rewrite find_all_false; [|intros x; rewrite HP, C0; reflexivity].
    eexists. split; [reflexivity|]. unfold loop_a. cbn [saverow savecol phase mask].
    split; [reflexivity|]. split; [reflexivity|]. intros r c. cbn [fold_left].
    unfold step4_flip. assert (E0 : mask s 0%nat 0%nat = Prime).
    { rewrite HP. unfold primed, upd2. reflexivity. }
    rewrite E0. cbn [is_star]. rewrite E0. cbn [is_prime].
    unfold erase_primes. destruct (upd2_cases (mask s) 0 0 Star r c) as [(-> & -> & ->)|[N ->]].
    + cbn. congruence.
    + rewrite HP. unfold primed. destruct (upd2_cases g 0 0 Prime r c) as [(-> & -> & _)|[_ ->]]; [tauto|].
      pose proof (G2 r c). destruct (g r c); cbn; congruence.
  - (* step 5 *)
    eexists. split; [reflexivity|]. unfold step5, loop_a. cbn. auto.
Qed.

Lemma loop_b_step n m g j s : good n m g -> g 0%nat j = Star -> j <> 0%nat -> length (star_cells n g) <> n ->
  loop_b g s -> exists s', step n s = Some s' /\ loop_b g s'.
Proof.
  intros G H0 Hj HL (S1 & S2 & HP). pose proof (star_count_le n m g G) as HC.
  destruct G as (G1 & G2 & G3 & G4).
  unfold step. destruct (phase s) as [|[|[|[|[|[|p]]]]]] eqn:EP; try tauto.
  - eexists. split; [reflexivity|]. unfold step2, loop_b. cbn. rewrite (star_cells_ext n _ g HP).
    destruct (n <=? length (star_cells n g))%nat eqn:E; [apply Nat.leb_le in E; lia|]. auto.
  - eexists. split; [reflexivity|]. unfold step3. destruct (find_uncovered n s 0).
    + rewrite S1, S2.
      assert (HP' : meq2 (upd2 (mask s) 0 0 Prime) (primed g)).
      { destruct HP as [HP|HP]; [apply meq2_upd; exact HP|]. intros r c.
        unfold upd2, primed. rewrite HP. unfold primed, upd2. destruct (_ && _); reflexivity. }
      destruct (find _ _) as [nc|] eqn:EF.
      * unfold loop_b. cbn. auto.
      * exfalso. assert (X : is_star (upd2 (mask s) 0 0 Prime 0%nat j) = false).
        { apply (find_none _ _ EF). apply in_seq. destruct (G1 _ _ H0). lia. }
        rewrite HP' in X. unfold primed in X.
        destruct (upd2_cases g 0 0 Prime 0 j) as [(_ & E & _)|[_ E]]; [congruence|].
        rewrite E, H0 in X. discriminate.
    + unfold loop_b. cbn. auto.
  - eexists. split; [reflexivity|]. unfold step5, loop_b. cbn. auto.
Qed.

Lemma run_invariant n (P : state -> Prop) : (forall s, P s -> exists s', step n s = Some s' /\ P s') ->
  forall k s, P s -> exists s', run k n s = Some s' /\ P s'.
Proof.
  intros H. induction k as [|k IH]; intros s Hs; [exists s; auto|]. cbn.
  destruct (H s Hs) as (s' & -> & Hs'). apply IH. exact Hs'.
Qed.

Lemma run_start n c k : run (S k) n (start n c) = run k n (step1 n (start n c)).
Proof. reflexivity. Qed.

Lemma not_complete_diverges n c : ~ greedy_complete n c ->
  forall k, exists s, run k n (start n c) = Some s /\ phase s <> 0%nat.
Proof.
  intros HN k. destruct k as [|k]; [exists (start n c); cbn; auto|]. rewrite run_start.
  assert (Hn : (0 < n)%nat). { destruct n; [exfalso; apply HN; reflexivity|lia]. }
  pose proof (greedy_good n c) as G. destruct (greedy_first_row n c Hn) as (j & Hj).
  destruct (Nat.eq_dec j 0) as [->|Hj0].
  - destruct (run_invariant n (loop_a (greedy n c)) (fun s => loop_a_step n _ _ s G Hj HN) k (step1 n (start n c)))
      as (s & Hs & (_ & _ & HP)).
    + unfold loop_a. cbn. repeat split.
    + exists s. split; [exact Hs|]. intros E. rewrite E in HP. exact HP.
  - destruct (run_invariant n (loop_b (greedy n c)) (fun s => loop_b_step n _ _ j s G Hj Hj0 HN) k (step1 n (start n c)))
      as (s & Hs & (_ & _ & HP)).
    + unfold loop_b. cbn. repeat split.
    + exists s. split; [exact Hs|]. intros E. rewrite E in HP. exact HP.
Qed.

Lemma complete_stops n c : greedy_complete n c ->
  exists s, run 2 n (start n c) = Some s /\ phase s = 0%nat /\ mask s = greedy n c.
Proof.
  intros H. eexists. split; [reflexivity|]. unfold step2. cbn. fold (greedy n c).
  unfold greedy_complete in H. fold (greedy n c) in H. rewrite H, Nat.leb_refl. auto.
Qed.

Lemma run_done k n s : phase s = 0%nat -> run k n s = Some s.
Proof. intros H. induction k as [|k IH]; [reflexivity|]. cbn. unfold step. rewrite H. exact IH. Qed.

Lemma run_add a b n s s' : run a n s = Some s' -> run (a + b) n s = run b n s'.
Proof.
  revert s. induction a as [|a IH]; intros s H; [injection H as ->; reflexivity|]. cbn in *.
  destruct (step n s); [|discriminate]. apply IH. exact H.
Qed.

Lemma solved_greedy n c s : solved n c s -> greedy_complete n c /\ mask s = greedy n c.
Proof.
  intros (k & Hk & Hp). 
  assert (HG : greedy_complete n c).
  { destruct (Nat.eq_dec (length (star_cells n (greedy n c))) n) as [E|E]; [exact E|].
    destruct (not_complete_diverges n c E k) as (s' & Hs' & HP). rewrite Hk in Hs'. injection Hs' as <-. contradiction. }
  split; [exact HG|]. destruct (complete_stops n c HG) as (s' & Hs' & Hp' & Hm).
  assert (E1 : run (k + 2) n (start n c) = Some s) by (rewrite (run_add k 2 _ _ _ Hk); apply run_done; exact Hp).
  assert (E2 : run (2 + k) n (start n c) = Some s') by (rewrite (run_add 2 k _ _ _ Hs'); apply run_done; exact Hp').
  rewrite Nat.add_comm in E1. rewrite E1 in E2. injection E2 as ->. exact Hm.
Qed.

(** ** The modified matrix stays an equivalent, non-negative problem *)
Definition uncovered (s : state) (rc : nat * nat) : bool :=
  negb (row_mask s (fst rc)) && negb (col_mask s (snd rc)).

Lemma step5_fold s l a : 0 <= a ->
  (forall rc, In rc l -> uncovered s rc = true -> 0 < matrix s (fst rc) (snd rc)) ->
  let r := fold_left (fun (h : Z) (rc : nat * nat) =>
    let (r, c) := rc in
    if negb (row_mask s r) && negb (col_mask s c) then
      if ((matrix s r c <? h) && negb (matrix s r c =? 0)) || (h =? 0) then matrix s r c else h
    else h) l a in
  0 <= r /\ (0 < a -> r <= a) /\ (forall rc, In rc l -> uncovered s rc = true -> r <= matrix s (fst rc) (snd rc)).
Proof.
  revert a. induction l as [|[x y] l IH]; intros a Ha Hl; cbn [fold_left].
  { split; [exact Ha|]. split; [lia|]. intros rc [].  }
  set (b := if negb (row_mask s x) && negb (col_mask s y) then
      if ((matrix s x y <? a) && negb (matrix s x y =? 0)) || (a =? 0) then matrix s x y else a
    else a).
  assert (Hpos := Hl (x, y) (or_introl eq_refl)). unfold uncovered in Hpos. cbn in Hpos.
  assert (HB : 0 <= b /\ (0 < a -> 0 < b <= a) /\ (uncovered s (x, y) = true -> 0 < b <= matrix s x y)).
  { unfold b, uncovered. cbn.
    destruct (negb (row_mask s x) && negb (col_mask s y)).
    - specialize (Hpos eq_refl).
      destruct (matrix s x y <? a) eqn:E1; destruct (matrix s x y =? 0) eqn:E2; destruct (a =? 0) eqn:E3; cbn;
        repeat match goal with
        | H : (_ <? _) = true |- _ => apply Z.ltb_lt in H | H : (_ <? _) = false |- _ => apply Z.ltb_ge in H
        | H : (_ =? _) = true |- _ => apply Z.eqb_eq in H | H : (_ =? _) = false |- _ => apply Z.eqb_neq in H
        end; lia.
    - split; [exact Ha|]. split; [lia|]. discriminate. }
  destruct HB as (HB1 & HB2 & HB3).
  destruct (IH b HB1) as (I1 & I2 & I3).
  { intros rc Hrc. apply Hl. right. exact Hrc. }
  split; [exact I1|]. split.
  - intros H. specialize (HB2 H). lia.
  - intros rc [<-|Hrc] HU; [|apply I3; assumption]. cbn. specialize (HB3 HU). lia.
Qed.

Definition dual (n : nat) (c : cost) (s : state) : Prop :=
  (exists u v, forall i j, matrix s i j = c i j - u i - v j) /\
  (forall i j, (i < n)%nat -> (j < n)%nat -> 0 <= matrix s i j) /\
  (phase s = 5%nat -> find_uncovered n s 0 = false).

Lemma find_uncovered_false n s : find_uncovered n s 0 = false ->
  forall i j, (i < n)%nat -> (j < n)%nat -> uncovered s (i, j) = true -> matrix s i j <> 0.
Proof.
  intros H i j Hi Hj HU E. unfold uncovered in HU. cbn in HU. apply andb_true_iff in HU. destruct HU as [U1 U2].
  assert (X : find_uncovered n s 0 = true); [|congruence].
  unfold find_uncovered. apply existsb_exists. exists i. split; [apply in_seq; lia|]. rewrite U1. cbn.
  apply existsb_exists. exists j. split; [apply in_seq; lia|]. rewrite U2, E. reflexivity.
Qed.

Lemma dual_step n c s s' : dual n c s -> step n s = Some s' -> dual n c s'.
Proof.
  intros ((u & v & HD) & HN & HF) HS. unfold step in HS.
  destruct (phase s) as [|[|[|[|[|[|p]]]]]] eqn:EP; try (injection HS as <-).
  - split; [exists u, v; exact HD|]. split; [exact HN|]. rewrite EP. discriminate.
  - split; [exists u, v; exact HD|]. split; [exact HN|]. discriminate.
  - split; [exists u, v; exact HD|]. split; [exact HN|]. cbn. destruct (_ <=? _)%nat; discriminate.
  - unfold step3. destruct (find_uncovered n s 0) eqn:E.
    + destruct (find _ _); (split; [exists u, v; exact HD|]; split; [exact HN|]; discriminate).
    + split; [exists u, v; exact HD|]. split; [exact HN|]. intros _. exact E.
  - unfold step4 in HS. destruct (step4_path _ _ _ _ _); [|discriminate]. injection HS as <-.
    split; [exists u, v; exact HD|]. split; [exact HN|]. discriminate.
  - unfold step5. set (h := step5_min n s).
    split; [|split; [|discriminate]]; cbn [matrix].
    + exists (fun i => u i - (if row_mask s i then h else 0)), (fun j => v j + (if col_mask s j then 0 else h)).
      intros i j. rewrite HD. lia.
    + intros i j Hi Hj. pose proof (HN i j Hi Hj) as H0.
      destruct (step5_fold s (cells n) 0) as (F1 & _ & F3); [lia| |].
      { intros [r k] Hr HU. cbn. apply in_cells in Hr.
        pose proof (HN r k ltac:(tauto) ltac:(tauto)).
        pose proof (find_uncovered_false n s (HF eq_refl) r k ltac:(tauto) ltac:(tauto) HU). lia. }
      fold (step5_min n s) in F1, F3. fold h in F1, F3.
      specialize (F3 (i, j)). unfold uncovered in F3. cbn in F3.
      destruct (row_mask s i), (col_mask s j); cbn in *; try lia.
      specialize (F3 ltac:(apply in_cells; auto) eq_refl). lia.
  - split; [exists u, v; exact HD|]. split; [exact HN|]. rewrite EP. discriminate.
Qed.

Lemma dual_start n c : dual n c (start n c).
Proof.
  split; [|split; [|discriminate]]; cbn.
  - exists (row_min n c), (fun _ => 0). intros i j. unfold set_matrix. lia.
  - intros i j _ Hj. apply set_matrix_nonneg. exact Hj.
Qed.

Lemma dual_run n c k s : run k n (start n c) = Some s -> dual n c s.
Proof.
  revert s. assert (G : forall k s0 s, dual n c s0 -> run k n s0 = Some s -> dual n c s).
  { clear k. induction k as [|k IH]; intros s0 s H0 HR; [injection HR as <-; exact H0|]. cbn in HR.
    destruct (step n s0) as [s1|] eqn:E; [|discriminate]. apply (IH s1); [|exact HR]. eapply dual_step; eassumption. }
  intros s. apply G, dual_start.
Qed.

(** step4's bounded search never runs out of fuel, in any state the solver reaches *)
Lemma run_defined n c k : exists s, run k n (start n c) = Some s.
Proof.
  destruct (Nat.eq_dec (length (star_cells n (greedy n c))) n) as [E|E].
  - destruct k as [|[|k]]; [eexists; reflexivity|eexists; reflexivity|].
    destruct (complete_stops n c E) as (s & Hs & Hp & _).
    exists s. change (S (S k)) with (2 + k)%nat. rewrite (run_add 2 k _ _ _ Hs). apply run_done. exact Hp.
  - destruct (not_complete_diverges n c E k) as (s & Hs & _). exists s. exact Hs.
Qed.

(** ** Certificate *)
Lemma total_potential c m u v p i :
  (forall i j, m i j = c i j - u i - v j) ->
  total c i p = total m i p + sum_from u i (length p) + fold_right (fun j a => v j + a) 0 p.
Proof.
  intros H. revert i. induction p as [|j p IH]; intros i; cbn; [reflexivity|]. rewrite IH, H. lia.
Qed.

Lemma total_nonneg m n p i : (forall i j, (i < n)%nat -> (j < n)%nat -> 0 <= m i j) ->
  (forall j, In j p -> (j < n)%nat) -> (i + length p <= n)%nat -> 0 <= total m i p.
Proof.
  intros H. revert i. induction p as [|j p IH]; intros i Hp Hl; cbn in *; [lia|].
  assert (0 <= total m (S i) p) by (apply IH; [intros x Hx; apply Hp; right; exact Hx|lia]).
  assert (0 <= m i j) by (apply H; [lia|apply Hp; left; reflexivity]). lia.
Qed.

Lemma fold_right_perm (v : nat -> Z) p q : Permutation p q ->
  fold_right (fun j a => v j + a) 0 p = fold_right (fun j a => v j + a) 0 q.
Proof. intros H. induction H; cbn; lia. Qed.

Lemma assignment_perm n p q : assignment n p -> assignment n q -> Permutation p q.
Proof.
  intros (P1 & P2 & P3) (Q1 & Q2 & Q3).
  assert (X : forall l, length l = n -> NoDup l -> (forall j, In j l -> (j < n)%nat) -> Permutation l (seq 0 n)).
  { intros l L1 L2 L3. apply NoDup_Permutation; [exact L2|apply seq_NoDup|].
    intros j. split; [intros Hj; apply in_seq; specialize (L3 j Hj); lia|].
    apply (NoDup_length_incl L2); [rewrite seq_length; lia|].
    intros y Hy. apply in_seq. specialize (L3 y Hy). lia. }
  eapply perm_trans; [apply X; assumption|]. apply Permutation_sym, X; assumption.
Qed.

Lemma certificate n c m p u v : (forall i j, m i j = c i j - u i - v j) ->
  (forall i j, (i < n)%nat -> (j < n)%nat -> 0 <= m i j) ->
  assignment n p -> total m 0 p = 0 -> minimal n c p.
Proof.
  intros HD HN HA HT. split; [exact HA|]. intros q HQ.
  rewrite (total_potential c m u v p 0 HD), (total_potential c m u v q 0 HD).
  rewrite (fold_right_perm v _ _ (assignment_perm n p q HA HQ)).
  destruct HA as (P1 & _ & _), HQ as (Q1 & _ & Q3). rewrite P1, Q1.
  pose proof (total_nonneg m n q 0 HN Q3 ltac:(lia)). lia.
Qed.

(** ** The column list *)
Lemma star_cols n m k : good n m k -> length (star_cells n k) = n ->
  forall c, (c < n)%nat -> exists r, (r < n)%nat /\ k r c = Star.
Proof.
  intros (G1 & G2 & G3 & G4) E c Hc.
  assert (H1 : NoDup (map snd (star_cells n k))).
  { apply map_NoDup_on; [apply NoDup_filter, NoDup_cells|].
    intros [r x] [r' x'] H H' EE. cbn in EE. subst x'. apply in_star_cells in H, H'.
    f_equal. apply (G4 _ _ x); tauto. }
  assert (H2 : incl (map snd (star_cells n k)) (seq 0 n)).
  { intros y H. apply in_map_iff in H. destruct H as ([r' x] & <- & H). apply in_star_cells in H.
    apply in_seq. cbn. lia. }
  assert (HI : incl (seq 0 n) (map snd (star_cells n k))).
  { apply NoDup_length_incl; [exact H1| |exact H2]. rewrite map_length, seq_length. lia. }
  specialize (HI c). rewrite in_map_iff in HI. destruct HI as ([r x] & <- & H); [apply in_seq; lia|].
  apply in_star_cells in H. exists r. cbn. tauto.
Qed.

Lemma nth_map_seq (f : nat -> nat) n i d : (i < n)%nat -> nth i (map f (seq 0 n)) d = f i.
Proof.
  intros H. rewrite (nth_indep _ d (f 0%nat)) by (rewrite map_length, seq_length; exact H).
  rewrite map_nth, seq_nth by exact H. reflexivity.
Qed.

Lemma match_lists_inverse n c s : solved n c s ->
  length (col_match_list n (mask s)) = n /\
  forall r k, (r < n)%nat -> (k < n)%nat ->
    nth r (row_match_list n (mask s)) n = k <-> nth k (col_match_list n (mask s)) n = r.
Proof.
  intros H. destruct (solved_greedy n c s H) as [HG ->]. pose proof (greedy_good n c) as G.
  destruct (row_match_map n _ (star_complete n _ _ G HG)) as (f & HM & Hf).
  destruct (row_match_map n (fun r c0 => greedy n c c0 r) (star_cols n _ _ G HG)) as (g & HM' & Hg).
  change (row_match_list n (fun r c0 => greedy n c c0 r)) with (col_match_list n (greedy n c)) in HM'.
  rewrite HM, HM'. split; [rewrite map_length; apply seq_length|].
  intros r k Hr Hk. rewrite !nth_map_seq by assumption. destruct G as (G1 & G2 & G3 & G4).
  destruct (Hf r Hr) as [_ F]. destruct (Hg k Hk) as [_ K]. split; intros <-.
  - apply (G4 _ _ (f r)); assumption.
  - apply (G3 (g k)); assumption.
Qed.

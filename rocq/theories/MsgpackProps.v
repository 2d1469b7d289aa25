(** C37, C38, C39: msgpack serialisation. *)
Require Import List ZArith Bool Lia PeanoNat.
From Verif Require Import Msgpack.
Import ListNotations.
Open Scope Z_scope.

Section Lemmas.
Variable D : Type.

(** Packing [ts] describes the object [o], whatever follows in the stream. *)
Definition packs (ts : list (tok D)) (o : obj D) : Prop :=
  forall fuel rest, (length ts <= fuel)%nat -> parse D fuel (ts ++ rest) = Some (o, rest).

Lemma packs_int z : packs [TInt z] (OInt z).
Proof. intros [|f] rest H; [simpl in H; lia|reflexivity]. Qed.
Lemma packs_real d : packs [TReal d] (OReal d).
Proof. intros [|f] rest H; [simpl in H; lia|reflexivity]. Qed.
Lemma packs_nil : packs [TNil] ONil.
Proof. intros [|f] rest H; [simpl in H; lia|reflexivity]. Qed.

Lemma parse_n_ok f tss os rest :
  Forall2 packs tss os -> (length (concat tss) <= f)%nat ->
  parse_n D (parse D f) (length os) (concat tss ++ rest) = Some (os, rest).
Proof.
  intros H. revert rest. induction H as [|ts o tss os Hp _ IH]; intros rest Hf; [reflexivity|].
  cbn [concat] in *. rewrite app_length in Hf. cbn [length parse_n].
  rewrite <- app_assoc, Hp by lia. rewrite IH by lia. reflexivity.
Qed.

Lemma packs_arr tss os n :
  Forall2 packs tss os -> n = Z.of_nat (length os) ->
  packs (TArr n :: concat tss) (OArr os).
Proof.
  intros H -> [|f] rest Hf; [simpl in Hf; lia|]. cbn [length] in Hf.
  change ((TArr (Z.of_nat (length os)) :: concat tss) ++ rest)
    with (TArr (Z.of_nat (length os)) :: (concat tss ++ rest)).
  cbn [parse]. rewrite Nat2Z.id. rewrite parse_n_ok by (auto; lia). reflexivity.
Qed.

Lemma packs_next ts o rest :
  packs ts o -> next D (ts ++ rest) = Some (o, rest).
Proof. intros H. apply H. rewrite app_length. lia. Qed.

Lemma u32_nat n : Z.of_nat n < two32 -> u32 (Z.of_nat n) = Z.of_nat n.
Proof. intros H. apply Z.mod_small. lia. Qed.

Lemma concat_singletons A B (f : A -> B) l : concat (map (fun x => [f x]) l) = map f l.
Proof. induction l; simpl; congruence. Qed.

Lemma packs_reals (ds : list D) n :
  n = Z.of_nat (length ds) -> packs (TArr n :: map TReal ds) (OArr (map OReal ds)).
Proof.
  intros ->. rewrite <- (concat_singletons D (tok D) TReal). apply packs_arr.
  - induction ds; simpl; constructor; auto. apply packs_real.
  - rewrite map_length. reflexivity.
Qed.

Lemma packs_ints (zs : list Z) n :
  n = Z.of_nat (length zs) -> packs (TArr n :: map TInt zs) (OArr (map OInt zs)).
Proof.
  intros ->. rewrite <- (concat_singletons Z (tok D) TInt). apply packs_arr.
  - induction zs; simpl; constructor; auto. apply packs_int.
  - rewrite map_length. reflexivity.
Qed.

Lemma pack_vec_fixed N v :
  length v = N -> Z.of_nat N < two32 ->
  pack_vec D N v = TArr (Z.of_nat N) :: map TReal v.
Proof.
  intros <- Hn. unfold pack_vec.
  assert (E : (if (length v =? 0)%nat then length v else length v) = length v)
    by (destruct (length v =? 0)%nat; reflexivity).
  rewrite E, firstn_all, u32_nat by exact Hn. reflexivity.
Qed.

Lemma packs_vec N v :
  length v = N -> Z.of_nat N < two32 -> packs (pack_vec D N v) (OArr (map OReal v)).
Proof.
  intros Hl Hn. rewrite pack_vec_fixed by assumption. apply packs_reals. congruence.
Qed.

Lemma packs_vec_dynamic v :
  Z.of_nat (length v) < two32 -> packs (pack_vec D 0 v) (OArr (map OReal v)).
Proof.
  intros Hn. unfold pack_vec. cbn [Nat.eqb]. rewrite firstn_all, u32_nat by exact Hn.
  apply packs_reals. reflexivity.
Qed.

Lemma set_nth_ok A i (d : A) v :
  (i < length v)%nat -> set_nth i d v = Some (firstn i v ++ d :: skipn (S i) v).
Proof.
  revert i. induction v as [|x v IH]; intros i H; [simpl in H; lia|].
  destruct i; [reflexivity|]. cbn [set_nth firstn skipn length] in *.
  rewrite IH by lia. reflexivity.
Qed.

Lemma set_nth_none A i (d : A) v : (length v <= i)%nat -> set_nth i d v = None.
Proof.
  revert i. induction v as [|x v IH]; intros i H; [destruct i; reflexivity|].
  destruct i; [simpl in H; lia|]. cbn [set_nth length] in *. rewrite IH by lia. reflexivity.
Qed.

Lemma skipn_twice A (l : list A) : forall a b, skipn a (skipn b l) = skipn (b + a) l.
Proof.
  intros a b. revert l. induction b as [|b IH]; intros l; [reflexivity|].
  destruct l as [|x l]; [simpl; apply skipn_nil|]. exact (IH l).
Qed.

Lemma fill_ok A (conv : obj D -> res A) os ds : forall i v,
  Forall2 (fun o d => conv o = Val d) os ds ->
  (i + length ds <= length v)%nat ->
  fill D conv i os v = Val (firstn i v ++ ds ++ skipn (i + length ds) v).
Proof.
  intros i v H. revert i v. induction H as [|o d os ds Hc _ IH]; intros i v Hl.
  - simpl. rewrite Nat.add_0_r, firstn_skipn. reflexivity.
  - cbn [fill length] in *. rewrite Hc. cbn [bind].
    rewrite set_nth_ok by lia. rewrite IH.
    + f_equal. assert (L : length (firstn i v) = i) by (rewrite firstn_length; lia).
      assert (E1 : firstn (S i) (firstn i v ++ d :: skipn (S i) v) = firstn i v ++ [d]).
      { rewrite firstn_app, L. rewrite firstn_all2 by lia.
        replace (S i - i)%nat with 1%nat by lia. reflexivity. }
      assert (E2 : skipn (S i + length ds) (firstn i v ++ d :: skipn (S i) v)
                   = skipn (i + S (length ds)) v).
      { rewrite skipn_app, L. rewrite skipn_all2 by lia.
        replace (S i + length ds - i)%nat with (S (length ds)) by lia.
        rewrite app_nil_l. change (skipn (S (length ds)) (d :: skipn (S i) v))
          with (skipn (length ds) (skipn (S i) v)).
        rewrite skipn_twice. f_equal. lia. }
      rewrite E1, E2, <- app_assoc. reflexivity.
    + rewrite app_length, firstn_length. cbn [length]. rewrite skipn_length. lia.
Qed.

Lemma reals_conv ds : Forall2 (fun o d => convert_real D o = Val d) (map OReal ds) ds.
Proof. induction ds; simpl; constructor; auto. Qed.

Lemma ints_conv zs :
  Forall (fun z => 0 <= z) zs ->
  Forall2 (fun o d => convert_nat D o = Val d) (map OInt zs) zs.
Proof.
  induction 1 as [|z zs Hz _ IH]; simpl; constructor; auto.
  simpl. apply Z.leb_le in Hz. rewrite Hz. reflexivity.
Qed.

Lemma forall2_length A B (R : A -> B -> Prop) l m : Forall2 R l m -> length l = length m.
Proof. induction 1; simpl; congruence. Qed.

Lemma convert_vec_fixed A (conv : obj D -> res A) N v os ds :
  Forall2 (fun o d => conv o = Val d) os ds -> length ds = N -> length v = N ->
  convert_vec D conv N v (OArr os) = Val ds.
Proof.
  intros H Hd Hv. unfold convert_vec.
  rewrite (forall2_length _ _ _ _ _ H), Hd, Nat.eqb_refl. cbn [negb]. rewrite andb_false_r.
  rewrite (fill_ok _ conv os ds 0 v H) by lia.
  simpl. rewrite skipn_all2 by lia. rewrite app_nil_r. reflexivity.
Qed.

(** *** Matrix cells *)

Lemma cells_nth M N s k :
  (0 < N)%nat -> (k < M * N)%nat ->
  nth_error (list_prod (seq s M) (seq 0 N)) k = Some ((s + k / N)%nat, (k mod N)%nat).
Proof.
  intros HN. revert s k. induction M as [|M IH]; intros s k Hk; [simpl in Hk; lia|].
  cbn [seq list_prod].
  destruct (Nat.lt_ge_cases k N) as [L|L].
  - rewrite nth_error_app1 by (rewrite map_length, seq_length; exact L).
    rewrite Nat.div_small, Nat.mod_small, Nat.add_0_r by exact L.
    rewrite (map_nth_error (fun y => (s, y)) k (seq 0 N) (d := k)); [reflexivity|].
    rewrite nth_error_nth' with (d := 0%nat) by (rewrite seq_length; exact L).
    f_equal. rewrite seq_nth by exact L. reflexivity.
  - rewrite nth_error_app2 by (rewrite map_length, seq_length; exact L).
    rewrite map_length, seq_length. rewrite IH by (simpl in Hk; lia).
    f_equal.
    assert (E1 : (k / N = S ((k - N) / N))%nat).
    { replace k with ((k - N) + 1 * N)%nat at 1 by lia. rewrite Nat.div_add by lia. lia. }
    assert (E2 : (k mod N = (k - N) mod N)%nat).
    { replace k with ((k - N) + 1 * N)%nat at 1 by lia. apply Nat.mod_add. lia. }
    rewrite E1, E2. f_equal. lia.
Qed.

Lemma cells_length M N : length (cells M N) = (M * N)%nat.
Proof. unfold cells. rewrite prod_length, !seq_length. reflexivity. Qed.

Lemma in_cells M N i j : In (i, j) (cells M N) <-> (i < M /\ j < N)%nat.
Proof. unfold cells. rewrite in_prod_iff, !in_seq. lia. Qed.

(** The element stored at position [k] of a packed [M] by [N] matrix. *)
Definition packed (N : nat) (A : fmat D) (k : nat) : D := A (k / N)%nat (k mod N)%nat.

Definition mat_objs (M N : nat) (A : fmat D) : list (obj D) :=
  map (fun c => OReal (A (fst c) (snd c))) (cells M N).

Lemma mat_objs_nth M N A k :
  (0 < N)%nat -> (k < M * N)%nat ->
  nth_error (mat_objs M N A) k = Some (OReal (packed N A k)).
Proof.
  intros HN Hk. unfold mat_objs.
  rewrite (map_nth_error _ _ _ (cells_nth M N 0 k HN Hk)). reflexivity.
Qed.

Lemma mat_objs_length M N A : length (mat_objs M N A) = (M * N)%nat.
Proof. unfold mat_objs. rewrite map_length. apply cells_length. Qed.

Lemma packs_mat M N A :
  (0 < M)%nat -> (0 < N)%nat -> Z.of_nat (M * N) < two32 ->
  exists ts, pack_mat D M N A = Val ts /\ packs ts (OArr (mat_objs M N A)).
Proof.
  intros HM HN Hb. unfold pack_mat.
  destruct (Nat.eqb_spec (M * N) 0) as [E|E]; [nia|]. eexists. split; [reflexivity|].
  rewrite u32_nat by exact Hb.
  unfold mat_objs.
  replace (map (fun c => TReal (A (fst c) (snd c))) (cells M N))
    with (map TReal (map (fun c => A (fst c) (snd c)) (cells M N))) by apply map_map.
  replace (map (fun c => OReal (A (fst c) (snd c))) (cells M N))
    with (map OReal (map (fun c => A (fst c) (snd c)) (cells M N))) by apply map_map.
  apply packs_reals. rewrite map_length, cells_length. reflexivity.
Qed.

Definition cell_dec (a b : nat * nat) : {a = b} + {a <> b}.
Proof. decide equality; apply Nat.eq_dec. Defined.

Lemma fill_cells_ok M l f : forall cs A,
  NoDup cs ->
  (forall i j, In (i, j) cs -> nth_error l (i * M + j) = Some (OReal (f (i * M + j)%nat))) ->
  exists B, fill_cells D M l cs A = Val B /\
    forall i j, B i j = if in_dec cell_dec (i, j) cs
                        then f (i * M + j)%nat else A i j.
Proof.
  induction cs as [|[i j] cs IH]; intros A Hn H.
  - exists A. split; [reflexivity|]. intros i j. reflexivity.
  - cbn [fill_cells]. rewrite (H i j) by (left; reflexivity). cbn [convert_real bind].
    inversion Hn as [|? ? Hni Hnd]; subst.
    destruct (IH (upd D A i j (f (i * M + j)%nat)) Hnd) as (B & E & HB).
    { intros i' j' Hin. apply H. right. exact Hin. }
    exists B. split; [exact E|]. intros i' j'. rewrite HB.
    destruct (in_dec _ (i', j') cs) as [L|L].
    + destruct (in_dec _ (i', j') ((i, j) :: cs)) as [K|K]; [reflexivity|].
      exfalso. apply K. right. exact L.
    + unfold upd. destruct (Nat.eqb_spec i' i); [destruct (Nat.eqb_spec j' j)|]; cbn [andb].
      * subst. destruct (in_dec _ (i, j) ((i, j) :: cs)) as [K|K]; [reflexivity|].
        exfalso. apply K. left. reflexivity.
      * destruct (in_dec _ (i', j') ((i, j) :: cs)) as [K|K]; [|reflexivity].
        exfalso. destruct K as [K|K]; [congruence|contradiction].
      * destruct (in_dec _ (i', j') ((i, j) :: cs)) as [K|K]; [|reflexivity].
        exfalso. destruct K as [K|K]; [congruence|contradiction].
Qed.

Lemma nodup_cells M N : NoDup (cells M N).
Proof.
  unfold cells. generalize 0%nat at 1. intros s. revert s.
  induction M as [|M IH]; intros s; cbn [seq list_prod]; [constructor|].
  assert (G : forall l, NoDup l -> NoDup (map (fun y : nat => (s, y)) l)).
  { induction 1; simpl; constructor; auto. rewrite in_map_iff.
    intros (y & E & Hy). injection E as ->. contradiction. }
  assert (Ha : forall a b : list (nat * nat), NoDup a -> NoDup b ->
             (forall x, In x a -> In x b -> False) -> NoDup (a ++ b)).
  { intros a b Na Nb Hd. induction Na as [|x a Hx Na IHa]; [exact Nb|].
    simpl. constructor.
    - rewrite in_app_iff. intros [K|K]; [contradiction|]. apply (Hd x); [left; reflexivity|exact K].
    - apply IHa. intros y Hy. apply Hd. right. exact Hy. }
  apply Ha.
  - apply G, seq_NoDup.
  - apply IH.
  - intros [i j] H1 H2. apply in_map_iff in H1. destruct H1 as (y & E & _).
    injection E as <- _. apply in_prod_iff in H2. destruct H2 as [H2 _].
    apply in_seq in H2. lia.
Qed.

Lemma fill_cells_outside M l cs : forall A,
  (forall o, In o l -> exists d, o = OReal d) ->
  (exists i j, In (i, j) cs /\ (length l <= i * M + j)%nat) ->
  fill_cells D M l cs A = Outside.
Proof.
  induction cs as [|[i j] cs IH]; intros A Hl (i0 & j0 & Hin & Hout); [destruct Hin|].
  cbn [fill_cells]. destruct (nth_error l (i * M + j)) as [o|] eqn:E; [|reflexivity].
  destruct (Hl o (nth_error_In _ _ E)) as [d ->]. cbn [convert_real bind].
  apply IH; [exact Hl|].
  destruct Hin as [Hin|Hin].
  - injection Hin as -> ->. apply nth_error_None in Hout. congruence.
  - exists i0, j0. auto.
Qed.

(** The converted matrix, when all positions exist. *)
Lemma convert_mat_positions M N A dest :
  (0 < M)%nat -> (0 < N)%nat -> ((M - 1) * M + (N - 1) < M * N)%nat ->
  exists B, convert_mat D M N dest (OArr (mat_objs M N A)) = Val B /\
    forall i j, (i < M)%nat -> (j < N)%nat -> B i j = packed N A (i * M + j).
Proof.
  intros HM HN Hb. unfold convert_mat.
  destruct (Nat.ltb_spec 0 M); [|lia]. destruct (Nat.ltb_spec 0 N); [|lia]. cbn [andb].
  rewrite mat_objs_length, Nat.eqb_refl.
  destruct (fill_cells_ok M (mat_objs M N A) (packed N A) (cells M N) dest (nodup_cells M N))
    as (B & E & HB).
  { intros i j Hin. apply in_cells in Hin. apply mat_objs_nth; [exact HN|]. nia. }
  exists B. split; [exact E|]. intros i j Hi Hj. rewrite HB.
  destruct (in_dec _ (i, j) (cells M N)) as [K|K]; [reflexivity|].
  exfalso. apply K, in_cells. auto.
Qed.

Lemma packed_square N A i j : (i < N)%nat -> (j < N)%nat -> packed N A (i * N + j) = A i j.
Proof.
  intros Hi Hj. unfold packed. f_equal.
  - rewrite Nat.add_comm, Nat.div_add by lia. rewrite Nat.div_small by exact Hj. reflexivity.
  - rewrite Nat.add_comm, Nat.mod_add by lia. apply Nat.mod_small, Hj.
Qed.

Lemma convert_mat_square N A dest :
  (0 < N)%nat ->
  exists B, convert_mat D N N dest (OArr (mat_objs N N A)) = Val B /\
    forall i j, (i < N)%nat -> (j < N)%nat -> B i j = A i j.
Proof.
  intros HN. destruct (convert_mat_positions N N A dest HN HN) as (B & E & HB); [nia|].
  exists B. split; [exact E|]. intros i j Hi Hj. rewrite HB by assumption.
  apply packed_square; assumption.
Qed.

End Lemmas.

(** ** Theorems *)

Section Props.
Variable D : Type.

(** Reading back one packed object from a stream leaves what follows. *)
Lemma read_packs A (conv : obj D -> res A) old ts o rest a :
  packs D ts o -> conv o = Val a -> read D conv old (ts ++ rest) = (Val a, rest).
Proof. intros H E. unfold read. rewrite (packs_next D ts o rest H). rewrite E. reflexivity. Qed.

(** *** C37 *)

(** A vector of fixed size is read back into any vector of that size. *)
Theorem msgpack_vector_round_trip N (v old : list D) rest :
  length v = N -> length old = N -> Z.of_nat N < two32 ->
  read D (convert_vec D (convert_real D) N old) old (pack_vec D N v ++ rest) = (Val v, rest).
Proof.
  intros Hv Ho Hn. apply (read_packs _ _ _ _ _ _ _ (packs_vec D N v Hv Hn)).
  apply convert_vec_fixed; auto. apply reals_conv.
Qed.

(** A vector of dynamic size is read back exactly into a destination that
    already has its size ... *)
Theorem msgpack_dynamic_vector_round_trip (v old : list D) rest :
  length old = length v -> Z.of_nat (length v) < two32 ->
  read D (convert_vec D (convert_real D) 0 old) old (pack_vec D 0 v ++ rest) = (Val v, rest).
Proof.
  intros Ho Hn. apply (read_packs _ _ _ _ _ _ _ (packs_vec_dynamic D v Hn)).
  unfold convert_vec. cbn [Nat.ltb Nat.leb andb].
  rewrite (fill_ok D _ _ _ v 0 old (reals_conv D v)) by lia.
  simpl. rewrite skipn_all2 by lia. rewrite app_nil_r. reflexivity.
Qed.

(** ... but the destination is never resized: a shorter one (such as a default
    constructed vector) is written out of bounds, a longer one keeps its
    tail. *)
Theorem msgpack_dynamic_vector_refuted :
  (forall (v old : list D), (length old < length v)%nat ->
     convert_vec D (convert_real D) 0 old (OArr (map OReal v)) = Outside) /\
  (forall (v old : list D), (length v < length old)%nat ->
     exists w, convert_vec D (convert_real D) 0 old (OArr (map OReal v)) = Val w /\ w <> v).
Proof.
  split.
  - intros v old H. unfold convert_vec. cbn [Nat.ltb Nat.leb andb].
    assert (G : forall v i u, (length u <= i + length v)%nat -> (0 < length v)%nat ->
              (length u < i + length v)%nat ->
              fill D (convert_real D) i (map OReal v) u = Outside).
    { clear. induction v as [|x v IH]; intros i u H1 H2 H3; [simpl in H2; lia|].
      cbn [map fill convert_real bind].
      destruct (Nat.lt_ge_cases i (length u)) as [L|L].
      - rewrite set_nth_ok by exact L. cbn [length] in *.
        assert (E : length (firstn i u ++ x :: skipn (S i) u) = length u).
        { rewrite app_length, firstn_length. cbn [length]. rewrite skipn_length. lia. }
        apply IH; rewrite ?E; lia.
      - rewrite set_nth_none by exact L. reflexivity. }
    apply G; lia.
  - intros v old H. exists (v ++ skipn (length v) old). split.
    + unfold convert_vec. cbn [Nat.ltb Nat.leb andb].
      rewrite (fill_ok D _ _ _ v 0 old (reals_conv D v)) by lia. reflexivity.
    + intros E. apply (f_equal (@length D)) in E. rewrite app_length, skipn_length in E. lia.
Qed.

Theorem msgpack_quaternion_round_trip (q old : quat D) junk rest :
  length junk = 4%nat ->
  read D (convert_quat D junk) old (pack_quat D q ++ rest) = (Val q, rest).
Proof.
  intros Hj. unfold pack_quat.
  apply (read_packs _ _ _ _ _ _ _ (packs_vec D 4 (vec4 D q) eq_refl eq_refl)).
  unfold convert_quat.
  rewrite (convert_vec_fixed D _ _ 4 junk _ _ (reals_conv D (vec4 D q)) eq_refl Hj).
  destruct q. reflexivity.
Qed.

Lemma packs_pair t1 o1 t2 o2 :
  packs D t1 o1 -> packs D t2 o2 -> packs D (TArr 2 :: t1 ++ t2) (OArr [o1; o2]).
Proof.
  intros H1 H2. replace (t1 ++ t2) with (concat [t1; t2]) by (simpl; rewrite app_nil_r; reflexivity).
  apply packs_arr; [|reflexivity]. repeat constructor; assumption.
Qed.

Lemma packs_pose (p : pose D) :
  length (tra D p) = 3%nat ->
  packs D (pack_pose D p)
    (OArr [OArr (map OReal (vec4 D (rot D p))); OArr (map OReal (tra D p))]).
Proof.
  intros Ht. apply packs_pair; apply packs_vec; auto; reflexivity.
Qed.

Lemma convert_pose_ok (p : pose D) j4 j3 :
  length j4 = 4%nat -> length j3 = 3%nat -> length (tra D p) = 3%nat ->
  convert_pose D j4 j3
    (OArr [OArr (map OReal (vec4 D (rot D p))); OArr (map OReal (tra D p))]) = Val p.
Proof.
  intros H4 H3 Ht. unfold convert_pose. cbn [length Nat.eqb nth]. unfold convert_quat.
  rewrite (convert_vec_fixed D _ _ 4 j4 _ _ (reals_conv D (vec4 D (rot D p))) eq_refl H4).
  cbn [bind]. destruct p as [[x y z w] t]. cbn [rot vec4 qx qy qz qw quat_of bind tra] in *.
  rewrite (convert_vec_fixed D _ _ 3 j3 _ _ (reals_conv D t) Ht H3). reflexivity.
Qed.

Theorem msgpack_pose_round_trip (p old : pose D) j4 j3 rest :
  length j4 = 4%nat -> length j3 = 3%nat -> length (tra D p) = 3%nat ->
  read D (convert_pose D j4 j3) old (pack_pose D p ++ rest) = (Val p, rest).
Proof.
  intros H4 H3 Ht. apply (read_packs _ _ _ _ _ _ _ (packs_pose p Ht)).
  apply convert_pose_ok; assumption.
Qed.

(** A measurement with payload keeps payload and time, for every payload type
    whose own packing can be read back. *)
Theorem msgpack_measurement_round_trip A (packA : A -> list (tok D)) (convA : obj D -> res A) t a old rest :
  (forall x, exists o, packs D (packA x) o /\ convA o = Val x) ->
  0 <= t < two64 ->
  read D (convert_meas D convA) old (pack_meas D packA (Meas t (Some a)) ++ rest)
  = (Val (Meas t (Some a)), rest).
Proof.
  intros HA Ht. destruct (HA a) as (o & Hp & Hc).
  unfold pack_meas. cbn [payload time].
  apply (read_packs _ _ _ _ (OArr [OInt t; o])).
  - replace (TArr 2 :: TInt t :: packA a) with (@TArr D 2 :: [TInt t] ++ packA a) by reflexivity.
    apply packs_pair; [apply packs_int|exact Hp].
  - unfold convert_meas. cbn [length Nat.eqb nth]. rewrite Hc. cbn [bind convert_nat].
    destruct (Z.leb_spec 0 t); [|lia]. reflexivity.
Qed.

(** The usual instance: timestamped poses. *)
Theorem msgpack_pose_measurement_round_trip (p : pose D) t old rest :
  0 <= t < two64 -> length (tra D p) = 3%nat ->
  forall j4 j3, length j4 = 4%nat -> length j3 = 3%nat ->
  read D (convert_meas D (convert_pose D j4 j3)) old
    (pack_meas D (pack_pose D) (Meas t (Some p)) ++ rest)
  = (Val (Meas t (Some p)), rest).
Proof.
  intros Ht Hl j4 j3 H4 H3.
  unfold pack_meas. cbn [payload time].
  apply (read_packs _ _ _ _ (OArr [OInt t; OArr [OArr (map OReal (vec4 D (rot D p)));
                                                OArr (map OReal (tra D p))]])).
  - replace (TArr 2 :: TInt t :: pack_pose D p) with (@TArr D 2 :: [TInt t] ++ pack_pose D p)
      by reflexivity.
    apply packs_pair; [apply packs_int|apply packs_pose, Hl].
  - unfold convert_meas. cbn [length Nat.eqb nth]. rewrite convert_pose_ok by assumption.
    cbn [bind convert_nat]. destruct (Z.leb_spec 0 t); [|lia]. reflexivity.
Qed.

(** An empty measurement comes back empty and invalid; its time is lost unless
    it was zero. *)
Theorem msgpack_empty_measurement A (packA : A -> list (tok D)) (convA : obj D -> res A) t old rest :
  read D (convert_meas D convA) old (pack_meas D packA (Meas t None) ++ rest)
  = (Val (Meas 0 None), rest).
Proof.
  unfold pack_meas. cbn [payload].
  apply (read_packs _ _ _ _ ONil); [apply packs_nil|reflexivity].
Qed.

(** Several objects in one stream come back one by one. *)
Theorem msgpack_stream_order N (v w old : list D) rest :
  length v = N -> length w = N -> length old = N -> Z.of_nat N < two32 ->
  let conv := convert_vec D (convert_real D) N old in
  let r := read D conv old (pack_vec D N v ++ pack_vec D N w ++ rest) in
  fst r = Val v /\ read D conv old (snd r) = (Val w, rest).
Proof.
  intros Hv Hw Ho Hn. cbv zeta. rewrite msgpack_vector_round_trip by assumption.
  cbn [fst snd]. split; [reflexivity|]. apply msgpack_vector_round_trip; assumption.
Qed.

(** Reading from an exhausted stream silently keeps the old value. *)
Theorem msgpack_exhausted_keeps_old A (conv : obj D -> res A) old :
  read D conv old [] = (Val old, []).
Proof. reflexivity. Qed.

(** The in-memory variant ([object_with_zone]) of a vector initialises only its
    first slot. *)
Theorem msgpack_zone_vector_refuted (v : list D) N :
  length v = N -> (2 <= N)%nat ->
  exists d, zone_vec D N v = Some (OReal d) :: repeat None (N - 1).
Proof.
  intros Hv HN. unfold zone_vec.
  destruct (Nat.eqb_spec N 0); [lia|]. rewrite <- Hv, firstn_all.
  assert (R : @repeat (option (obj D)) None (length v) = None :: repeat None (length v - 1)).
  { destruct (length v) as [|k]; [lia|]. simpl. rewrite Nat.sub_0_r. reflexivity. }
  rewrite R. clear R.
  assert (G : forall v s r, exists s',
     fold_left (fun slots (d : D) => match slots with [] => [] | _ :: r => Some (OReal d) :: r end)
               v (s :: r) = s' :: r /\
     (v = [] /\ s' = s \/ exists d, s' = Some (OReal d))).
  { clear. induction v as [|x v IH]; intros s r.
    - exists s. split; [reflexivity|left; auto].
    - cbn [fold_left]. destruct (IH (Some (OReal x)) r) as (s' & E & H).
      exists s'. split; [exact E|]. right. destruct H as [[_ ->]|H]; [exists x; reflexivity|exact H]. }
  destruct (G v None (repeat None (length v - 1))) as (s' & E & H). rewrite E.
  destruct H as [[-> _]|[d ->]]; [simpl in Hv; lia|]. exists d. reflexivity.
Qed.

(** *** C38 *)

(** Packing an [M] by [N] matrix and reading it back returns the same matrix
    for all matrices exactly when the matrix is square or has one row. *)
Theorem msgpack_matrix_round_trip_iff M N (d0 d1 : D) :
  d0 <> d1 -> (0 < M)%nat -> (0 < N)%nat -> Z.of_nat (M * N) < two32 ->
  ((forall A dest, exists ts B,
      pack_mat D M N A = Val ts /\
      read D (convert_mat D M N dest) dest ts = (Val B, []) /\
      forall i j, (i < M)%nat -> (j < N)%nat -> B i j = A i j)
   <-> M = 1%nat \/ M = N).
Proof.
  intros Hd HM HN Hb. split.
  - intros H.
    destruct (Nat.eq_dec M 1) as [E1|E1]; [auto|].
    destruct (Nat.eq_dec M N) as [E2|E2]; [auto|]. exfalso.
    pose (A := fun i j : nat => if (i =? 1)%nat && (j =? 0)%nat then d1 else d0).
    destruct (H A (fun _ _ => d0)) as (ts & B & Hts & Hr & HB).
    destruct (packs_mat D M N A HM HN Hb) as (ts' & Hts' & Hp).
    rewrite Hts in Hts'. injection Hts' as <-.
    pose proof (packs_next D ts _ [] Hp) as Hnx. rewrite app_nil_r in Hnx.
    unfold read in Hr. rewrite Hnx in Hr.
    destruct (Nat.lt_ge_cases M N) as [L|L].
    + destruct (convert_mat_positions D M N A (fun _ _ => d0) HM HN) as (B' & E & HB'); [nia|].
      rewrite E in Hr. injection Hr as <-.
      specialize (HB' 1%nat 0%nat ltac:(lia) ltac:(lia)).
      rewrite HB in HB' by lia. unfold packed in HB'.
      rewrite Nat.mul_1_l, Nat.add_0_r, Nat.div_small, Nat.mod_small in HB' by lia.
      unfold A in HB'. cbn [Nat.eqb andb] in HB'. congruence.
    + assert (E : convert_mat D M N (fun _ _ => d0) (OArr (mat_objs D M N A)) = Outside).
      { unfold convert_mat. destruct (Nat.ltb_spec 0 M); [|lia].
        destruct (Nat.ltb_spec 0 N); [|lia]. cbn [andb].
        rewrite mat_objs_length, Nat.eqb_refl. apply fill_cells_outside.
        - intros o Ho. unfold mat_objs in Ho. apply in_map_iff in Ho.
          destruct Ho as (c & <- & _). eexists. reflexivity.
        - exists (M - 1)%nat, (N - 1)%nat. split; [apply in_cells; lia|].
          rewrite mat_objs_length. assert (N <= M - 1)%nat by lia. nia. }
      rewrite E in Hr. discriminate.
  - intros HMN A dest.
    destruct (packs_mat D M N A HM HN Hb) as (ts & Hts & Hp).
    pose proof (packs_next D ts _ [] Hp) as Hnx. rewrite app_nil_r in Hnx.
    destruct (convert_mat_positions D M N A dest HM HN) as (B & E & HB).
    { destruct HMN as [->| ->]; nia. }
    exists ts, B. split; [exact Hts|]. split.
    + unfold read. rewrite Hnx, E. reflexivity.
    + intros i j Hi Hj. rewrite HB by assumption.
      destruct HMN as [->| ->].
      * replace i with 0%nat by lia. unfold packed. cbn [Nat.mul Nat.add].
        rewrite Nat.div_small, Nat.mod_small by exact Hj. reflexivity.
      * apply packed_square; assumption.
Qed.

(** More rows than columns: the unpacker reads behind the array. *)
Theorem msgpack_tall_matrix_refuted M N (A dest : fmat D) :
  (0 < N)%nat -> (N < M)%nat ->
  convert_mat D M N dest (OArr (mat_objs D M N A)) = Outside.
Proof.
  intros HN HM. unfold convert_mat. destruct (Nat.ltb_spec 0 M); [|lia].
  destruct (Nat.ltb_spec 0 N); [|lia]. cbn [andb].
  rewrite mat_objs_length, Nat.eqb_refl. apply fill_cells_outside.
  - intros o Ho. unfold mat_objs in Ho. apply in_map_iff in Ho.
    destruct Ho as (c & <- & _). eexists. reflexivity.
  - exists (M - 1)%nat, (N - 1)%nat. split; [apply in_cells; lia|].
    rewrite mat_objs_length. assert (N <= M - 1)%nat by lia. nia.
Qed.

(** A matrix without elements is not accepted, whatever was packed. *)
Theorem msgpack_empty_matrix_refused M N (dest : fmat D) o :
  (M * N = 0)%nat -> convert_mat D M N dest o = TypeError.
Proof.
  intros H. unfold convert_mat. destruct o; try reflexivity.
  destruct M as [|M]; [reflexivity|]. destruct N as [|N]; [reflexivity|lia].
Qed.

(** Uncertain vectors and poses contain only square matrices and survive. *)
Theorem msgpack_error_vector_round_trip N (v : evec D) j jm old rest :
  (0 < N)%nat -> Z.of_nat (N * N) < two32 -> length (value D v) = N -> length j = N ->
  exists ts w, pack_evec D N v = Val ts /\
    read D (convert_evec D N j jm) old (ts ++ rest) = (Val w, rest) /\
    value D w = value D v /\
    forall a b, (a < N)%nat -> (b < N)%nat -> cov D w a b = cov D v a b.
Proof.
  intros HN Hb Hv Hj.
  destruct (packs_mat D N N (cov D v) HN HN Hb) as (tc & Htc & Hpc).
  destruct (convert_mat_square D N (cov D v) jm HN) as (B & EB & HB).
  assert (HN2 : Z.of_nat N < two32) by nia.
  unfold pack_evec. rewrite Htc. cbn [bind].
  eexists. exists (EV D (value D v) B). split; [reflexivity|]. split; [|split; [reflexivity|exact HB]].
  apply (read_packs _ _ _ _ _ _ _ (packs_pair _ _ _ _ (packs_vec D N _ Hv HN2) Hpc)).
  unfold convert_evec. cbn [length Nat.eqb nth].
  rewrite (convert_vec_fixed D _ _ N j _ _ (reals_conv D (value D v)) Hv Hj). cbn [bind].
  rewrite EB. reflexivity.
Qed.

Theorem msgpack_error_pose_round_trip (p : epose D) j4 j3 j66 old rest :
  length j4 = 4%nat -> length j3 = 3%nat -> length (etra D p) = 3%nat ->
  exists ts w, pack_epose D p = Val ts /\
    read D (convert_epose D j4 j3 j66) old (ts ++ rest) = (Val w, rest) /\
    erot D w = erot D p /\ etra D w = etra D p /\
    forall a b, (a < 6)%nat -> (b < 6)%nat -> ecov D w a b = ecov D p a b.
Proof.
  intros H4 H3 Ht.
  destruct (packs_mat D 6 6 (ecov D p) ltac:(lia) ltac:(lia) eq_refl) as (tc & Htc & Hpc).
  destruct (convert_mat_square D 6 (ecov D p) j66 ltac:(lia)) as (B & EB & HB).
  unfold pack_epose. rewrite Htc. cbn [bind].
  eexists. exists (EP D (erot D p) (etra D p) B). split; [reflexivity|].
  split; [|split; [reflexivity|split; [reflexivity|exact HB]]].
  apply (read_packs _ _ _ _ (OArr [OArr (map OReal (vec4 D (erot D p)));
            OArr (map OReal (etra D p)); OArr (mat_objs D 6 6 (ecov D p))])).
  - replace (pack_quat D (erot D p) ++ pack_vec D 3 (etra D p) ++ tc)
      with (concat [pack_quat D (erot D p); pack_vec D 3 (etra D p); tc])
      by (cbn [concat]; rewrite app_nil_r; reflexivity).
    apply packs_arr; [|reflexivity].
    repeat constructor; [apply packs_vec; reflexivity|apply packs_vec; [exact Ht|reflexivity]|exact Hpc].
  - unfold convert_epose. cbn [length Nat.eqb nth]. unfold convert_quat.
    rewrite (convert_vec_fixed D _ _ 4 j4 _ _ (reals_conv D (vec4 D (erot D p))) eq_refl H4).
    cbn [bind]. destruct p as [[x y z w] t c]. cbn [erot vec4 qx qy qz qw quat_of bind etra ecov] in *.
    rewrite (convert_vec_fixed D _ _ 3 j3 _ _ (reals_conv D t) Ht H3). cbn [bind].
    rewrite EB. reflexivity.
Qed.

(** *** C39, msgpack half: every field of the camera intrinsics comes back,
    whatever they contain and whatever the destination contained. *)
Theorem msgpack_camera_round_trip (c c0 : camera D) rest :
  0 <= calib D c -> 0 <= rsize D c -> Forall (fun z => 0 <= z) (dim D c) ->
  length (dim D c) = 2%nat -> length (rad D c) = 6%nat -> length (tan D c) = 2%nat ->
  length (dim D c0) = 2%nat -> length (rad D c0) = 6%nat -> length (tan D c0) = 2%nat ->
  exists ts w, pack_camera D c = Val ts /\
    read D (convert_camera D c0) c0 (ts ++ rest) = (Val w, rest) /\
    calib D w = calib D c /\ dim D w = dim D c /\ rsize D w = rsize D c /\
    rad D w = rad D c /\ tan D w = tan D c /\
    forall a b, (a < 3)%nat -> (b < 3)%nat -> kmat D w a b = kmat D c a b.
Proof.
  intros Hc Hs Hd0 Hd Hr Ht Hd' Hr' Ht'.
  destruct (packs_mat D 3 3 (kmat D c) ltac:(lia) ltac:(lia) eq_refl) as (tc & Htc & Hpc).
  destruct (convert_mat_square D 3 (kmat D c) (kmat D c0) ltac:(lia)) as (B & EB & HB).
  unfold pack_camera. rewrite Htc. cbn [bind].
  eexists. exists (Cam D (calib D c) (dim D c) B (rsize D c) (rad D c) (tan D c)).
  split; [reflexivity|]. cbn [calib dim rsize rad tan kmat].
  split; [|repeat (split; [reflexivity|]); exact HB].
  apply (read_packs _ _ _ _ (OArr [OInt (calib D c); OArr (map OInt (dim D c));
     OArr (mat_objs D 3 3 (kmat D c)); OInt (rsize D c); OArr (map OReal (rad D c));
     OArr (map OReal (tan D c))])).
  - replace (TInt (calib D c) :: pack_nats D (dim D c) ++ tc ++ TInt (rsize D c) ::
             pack_vec D 6 (rad D c) ++ pack_vec D 2 (tan D c))
      with (concat [[TInt (calib D c)]; pack_nats D (dim D c); tc; [TInt (rsize D c)];
                    pack_vec D 6 (rad D c); pack_vec D 2 (tan D c)])
      by (cbn [concat app]; rewrite app_nil_r; reflexivity).
    apply packs_arr; [|reflexivity].
    constructor; [apply packs_int|]. constructor.
    { unfold pack_nats. rewrite Hd. apply packs_ints. rewrite Hd. reflexivity. }
    constructor; [exact Hpc|]. constructor; [apply packs_int|].
    constructor; [apply packs_vec; [exact Hr|reflexivity]|].
    constructor; [apply packs_vec; [exact Ht|reflexivity]|]. constructor.
  - unfold convert_camera. cbn [length Nat.eqb nth].
    apply Z.leb_le in Hc, Hs. cbn [convert_nat]. rewrite Hc, Hs. cbn [bind].
    rewrite (convert_vec_fixed D _ _ 2 (dim D c0) _ _ (ints_conv D _ Hd0) Hd Hd'). cbn [bind].
    rewrite EB. cbn [bind].
    rewrite (convert_vec_fixed D _ _ 6 (rad D c0) _ _ (reals_conv D _) Hr Hr'). cbn [bind].
    rewrite (convert_vec_fixed D _ _ 2 (tan D c0) _ _ (reals_conv D _) Ht Ht'). reflexivity.
Qed.

End Props.

(** Concrete instances. *)
Example msgpack_pose_case :
  read Z (convert_pose Z [0; 0; 0; 0] [0; 0; 0]) (P Z (Q Z 0 0 0 0) [])
    (pack_pose Z (P Z (Q Z 1 2 3 4) [5; 6; 7]) ++ [TNil])
  = (Val (P Z (Q Z 1 2 3 4) [5; 6; 7]), [TNil]).
Proof. reflexivity. Qed.

Example msgpack_wide_matrix_wrong :
  match pack_mat Z 2 3 (fun i j => Z.of_nat (10 * i + j)) with
  | Val ts => match read Z (convert_mat Z 2 3 (fun _ _ => 0)) (fun _ _ => 0) ts with
              | (Val B, _) => B 1%nat 0%nat = 2
              | _ => False
              end
  | _ => False
  end.
Proof. reflexivity. Qed.

Print Assumptions msgpack_vector_round_trip.
Print Assumptions msgpack_dynamic_vector_round_trip.
Print Assumptions msgpack_dynamic_vector_refuted.
Print Assumptions msgpack_quaternion_round_trip.
Print Assumptions msgpack_pose_round_trip.
Print Assumptions msgpack_measurement_round_trip.
Print Assumptions msgpack_pose_measurement_round_trip.
Print Assumptions msgpack_empty_measurement.
Print Assumptions msgpack_stream_order.
Print Assumptions msgpack_zone_vector_refuted.
Print Assumptions msgpack_matrix_round_trip_iff.
Print Assumptions msgpack_tall_matrix_refuted.
Print Assumptions msgpack_error_vector_round_trip.
Print Assumptions msgpack_error_pose_round_trip.
Print Assumptions msgpack_camera_round_trip.

(** Lemmas about the time update of the pose filter. *)
From Coq Require Import Reals Lra Lia Bool Arith ZArith List.
Import ListNotations.
From Verif Require Import Mat Quat CovTransform Jacobians TimeUpdate.
Open Scope R_scope.
Local Arguments Nat.mul : simpl never.
Local Arguments Nat.div : simpl never.
Local Arguments Nat.modulo : simpl never.

Lemma sum_shift k (f : nat -> R) : sum (S k) f = f 0%nat + sum k (fun a => f (S a)).
Proof. change (S k) with (1 + k)%nat. rewrite sum_split. cbn [sum]. rewrite Rplus_0_l. reflexivity. Qed.

Lemma tay_0 dt : tay dt 0 = 1.
Proof. unfold tay. simpl. field. Qed.

Lemma tay_S dt i : tay dt (S i) = tay dt i * (dt / INR (S i)).
Proof.
  unfold tay. rewrite fact_simpl, mult_INR. rewrite <- tech_pow_Rmult.
  field. split; [apply not_0_INR; lia|apply not_0_INR, fact_neq_0].
Qed.

Definition inr (b e j : nat) : Prop := (b <= j < e)%nat.

Lemma vset_in x b e y j : inr b e j -> vset_range x b e y j = y (j - b)%nat.
Proof.
  intros [H1 H2]. unfold vset_range. apply Nat.leb_le in H1. apply Nat.ltb_lt in H2.
  rewrite H1, H2. reflexivity.
Qed.
Lemma vset_out x b e y j : ~ inr b e j -> vset_range x b e y j = x j.
Proof.
  intros H. unfold vset_range. destruct (Nat.leb_spec b j); destruct (Nat.ltb_spec j e);
    cbn [andb]; try reflexivity. exfalso. apply H. split; assumption.
Qed.
Lemma set_in C a b c d B i j : inr a b i -> inr c d j -> set_sub C a b c d B i j = B (i - a)%nat (j - c)%nat.
Proof.
  intros [H1 H2] [H3 H4]. unfold set_sub. apply Nat.leb_le in H1, H3. apply Nat.ltb_lt in H2, H4.
  rewrite H1, H2, H3, H4. reflexivity.
Qed.
Lemma set_out C a b c d B i j : ~ (inr a b i /\ inr c d j) -> set_sub C a b c d B i j = C i j.
Proof.
  intros H. unfold set_sub. destruct (Nat.leb_spec a i); destruct (Nat.ltb_spec i b);
    destruct (Nat.leb_spec c j); destruct (Nat.ltb_spec j d); cbn [andb]; try reflexivity.
  exfalso. apply H. unfold inr. tauto.
Qed.

(** input and result are the same memory *)
Definition coherent (alias : bool) (m : mem) : Prop := alias = true -> forall j, inp m j = out m j.

Lemma assign_coherent alias m b e y : coherent alias (assign alias m b e y).
Proof. intros ->. intros j. reflexivity. Qed.

Lemma assign_inp alias m b e y j :
  coherent alias m -> ~ inr b e j -> inp (assign alias m b e y) j = inp m j.
Proof.
  intros Hc H. unfold assign. cbn [inp]. destruct alias; [|reflexivity].
  rewrite vset_out by exact H. symmetry. apply Hc. reflexivity.
Qed.

Lemma lin_loop_spec alias dt size s (Hs : (0 < size)%nat) k : forall i t m J m' J',
  (1 <= i)%nat -> t = tay dt (i - 1) -> coherent alias m ->
  lin_loop alias dt size s k i t m J = (m', J') ->
  coherent alias m' /\
  (forall j, inr s (s + size) j ->
     out m' j = out m j + sum k (fun a => tay dt (i + a) * inp m (j + size * (i + a))%nat)) /\
  (forall j, ~ inr s (s + size) j -> out m' j = out m j /\ inp m' j = inp m j) /\
  (forall a b c, (a < size)%nat -> (c < size)%nat -> (i <= b < i + k)%nat ->
     J' (s + a)%nat (s + size * b + c)%nat = tay dt b * eye a c) /\
  (forall r c, ~ (inr s (s + size) r /\ inr (s + size * i) (s + size * (i + k)) c) -> J' r c = J r c).
Proof.
  induction k as [|k IH]; intros i t m J m' J' Hi Ht Hc E.
  - cbn [lin_loop] in E. assert (E1 : m = m') by congruence. assert (E2 : J = J') by congruence.
    subst m' J'. split; [exact Hc|]. split; [|split; [|split]].
    + intros j _. cbn [sum]. ring.
    + intros j _. split; reflexivity.
    + intros a b c _ _ H. lia.
    + intros r c _. reflexivity.
  - cbn [lin_loop] in E.
    set (t' := t * (dt / INR i)) in *.
    assert (Ht' : t' = tay dt i).
    { unfold t'. destruct i as [|i]; [lia|]. rewrite Ht, tay_S.
      replace (S i - 1)%nat with i by lia. reflexivity. }
    set (m1 := assign alias m s (s + size) _) in E.
    set (J1 := set_sub J _ _ _ _ _) in E.
    assert (Hc1 : coherent alias m1) by apply assign_coherent.
    destruct (IH (i + 1)%nat t' m1 J1 m' J' ltac:(lia)
                 ltac:(replace (i + 1 - 1)%nat with i by lia; exact Ht') Hc1 E)
      as (A & B & C & D & F).
    split; [exact A|]. split; [|split; [|split]].
    + intros j Hj. rewrite (B j Hj). unfold m1 at 1. unfold assign at 1. cbn [out].
      rewrite vset_in by exact Hj. unfold vadd, vscale, vsub_range.
      replace (s + (j - s))%nat with j by (unfold inr in Hj; lia).
      replace (s + size * i + (j - s))%nat with (j + size * i)%nat by (unfold inr in Hj; lia).
      rewrite sum_shift.
      replace (i + 0)%nat with i by lia. rewrite Ht'.
      rewrite (sum_ext k (fun a => tay dt (i + 1 + a) * inp m1 (j + size * (i + 1 + a))%nat)
                 (fun a => tay dt (i + S a) * inp m (j + size * (i + S a))%nat)); [ring|].
      intros a _. replace (i + 1 + a)%nat with (i + S a)%nat by lia. f_equal.
      apply assign_inp; [exact Hc|]. unfold inr in *. nia.
    + intros j Hj. destruct (C j Hj) as [C1 C2]. rewrite C1, C2. split.
      * unfold m1, assign. cbn [out]. apply vset_out, Hj.
      * apply assign_inp; assumption.
    + intros a b c Ha Hcs Hb. destruct (Nat.eq_dec b i) as [->|Hne].
      * rewrite F by (unfold inr; nia). unfold J1. rewrite set_in by (unfold inr; nia).
        replace (s + a - s)%nat with a by lia.
        replace (s + size * i + c - (s + size * i))%nat with c by lia.
        unfold mscale. rewrite Ht'. reflexivity.
      * apply D; lia.
    + intros r c H. rewrite F.
      * unfold J1. apply set_out. intros [H1 H2]. apply H. split; [exact H1|]. unfold inr in *. nia.
      * intros [H1 H2]. apply H. split; [exact H1|]. unfold inr in *. nia.
Qed.

Lemma linear_spec alias dt size s order (Hs : (0 < size)%nat) m J m' J' :
  coherent alias m ->
  linear_update alias dt size order s m J = (m', J') ->
  coherent alias m' /\
  (forall j, inr s (s + size) j ->
     out m' j = sum (S order) (fun a => tay dt a * inp m (j + size * a)%nat)) /\
  (forall j, ~ inr s (s + size) j -> out m' j = out m j /\ inp m' j = inp m j) /\
  (forall a b c, (a < size)%nat -> (c < size)%nat -> (b < S order)%nat ->
     J' (s + a)%nat (s + size * b + c)%nat = tay dt b * eye a c) /\
  (forall r c, ~ (inr s (s + size) r /\ inr s (s + size * S order) c) -> J' r c = J r c).
Proof.
  intros Hc E. unfold linear_update in E.
  set (m1 := assign alias m s (s + size) _) in E.
  set (J1 := set_sub J _ _ _ _ _) in E.
  destruct (lin_loop_spec alias dt size s Hs order 1 1 m1 J1 m' J' ltac:(lia)
              ltac:(simpl; symmetry; apply tay_0) (assign_coherent _ _ _ _ _) E)
    as (A & B & C & D & F).
  split; [exact A|]. split; [|split; [|split]].
  - intros j Hj. rewrite (B j Hj). unfold m1 at 1. unfold assign at 1. cbn [out].
    rewrite vset_in by exact Hj. unfold vsub_range. rewrite sum_shift.
    replace (s + (j - s))%nat with j by (unfold inr in Hj; lia).
    rewrite tay_0. replace (j + size * 0)%nat with j by lia.
    rewrite Rmult_1_l. f_equal. apply sum_ext. intros a _.
    replace (1 + a)%nat with (S a) by lia. f_equal.
    apply assign_inp; [exact Hc|]. unfold inr in *. nia.
  - intros j Hj. destruct (C j Hj) as [C1 C2]. rewrite C1, C2. split.
    + unfold m1, assign. cbn [out]. apply vset_out, Hj.
    + apply assign_inp; assumption.
  - intros a b c Ha Hcs Hb. destruct b as [|b].
    + rewrite F by (unfold inr; nia). unfold J1. rewrite set_in by (unfold inr; nia).
      replace (s + a - s)%nat with a by lia.
      replace (s + size * 0 + c - s)%nat with c by lia. rewrite tay_0. ring.
    + apply D; lia.
  - intros r c H. rewrite F.
    + unfold J1. apply set_out. intros [H1 H2]. apply H. split; [exact H1|]. unfold inr in *. nia.
    + intros [H1 H2]. apply H. split; [exact H1|]. unfold inr in *. nia.
Qed.

(** rows s, s+1, s+2 of a Jacobian of n blocks that starts in column s *)
Definition lin_rows (dt : R) (J : mat) (s n ts : nat) : Prop :=
  (forall a b c, (a < 3)%nat -> (c < 3)%nat -> (b < n)%nat ->
     J (s + a)%nat (s + 3 * b + c)%nat = tay dt b * eye a c) /\
  (forall a j, (a < 3)%nat -> (j < s \/ s + 3 * n <= j < ts)%nat -> J (s + a)%nat j = 0).

Lemma lin_rows_ext dt J J' s n ts :
  (forall r c, (s <= r < s + 3)%nat -> J' r c = J r c) -> lin_rows dt J s n ts -> lin_rows dt J' s n ts.
Proof.
  intros H [A B]. split.
  - intros a b c Ha Hc Hb. rewrite H by lia. apply A; assumption.
  - intros a j Ha Hj. rewrite H by lia. apply B; assumption.
Qed.

Lemma pos_loop_spec alias dt P O x k : forall i m J m' J',
  (i + k = P)%nat -> coherent alias m ->
  (forall j, (3 * i <= j)%nat -> inp m j = x j) ->
  pos_loop alias dt P O k i m J = (m', J') ->
  coherent alias m' /\
  (forall j, inr (3 * i) (3 * P) j -> out m' j = advance dt P x j) /\
  (forall j, ~ inr (3 * i) (3 * P) j -> out m' j = out m j /\ inp m' j = inp m j) /\
  (forall b, (i <= b < P)%nat -> lin_rows dt J' (3 * b) (P - b) (total_size P O)) /\
  (forall r c, ~ inr (3 * i) (3 * P) r -> J' r c = J r c).
Proof.
  induction k as [|k IH]; intros i m J m' J' Hk Hc Hx E.
  - cbn [pos_loop] in E. assert (E1 : m = m') by congruence. assert (E2 : J = J') by congruence.
    subst m' J'. split; [exact Hc|]. split; [|split; [|split]]; unfold inr; intros; try lia; try reflexivity.
    split; reflexivity.
  - cbn [pos_loop] in E.
    destruct (linear_update alias dt 3 (P - 1 - i) (3 * i) m J) as [m1 J1] eqn:E1.
    destruct (linear_spec alias dt 3 (3 * i) (P - 1 - i) ltac:(lia) m J m1 J1 Hc E1)
      as (A1 & B1 & C1 & D1 & F1).
    set (J2 := set_sub J1 _ _ _ _ _) in E. set (J3 := set_sub J2 _ _ _ _ _) in E.
    assert (Hx1 : forall j, (3 * (i + 1) <= j)%nat -> inp m1 j = x j).
    { intros j Hj. destruct (C1 j) as [_ ->]; [unfold inr; lia|]. apply Hx. lia. }
    destruct (IH (i + 1)%nat m1 J3 m' J' ltac:(lia) A1 Hx1 E) as (A & B & C & D & F).
    assert (R3 : lin_rows dt J3 (3 * i) (P - i) (total_size P O)).
    { assert (T : (3 * P <= total_size P O)%nat) by (unfold total_size, rot_start; lia).
      unfold rot_start in *. split.
      - intros a b c Ha Hcs Hb. unfold J3, J2. rewrite !set_out by (unfold inr, rot_start; lia).
        apply D1; lia.
      - intros a j Ha Hj. destruct Hj as [Hj|Hj].
        + unfold J3, J2. rewrite set_out by (unfold inr, rot_start; lia).
          rewrite set_in by (unfold inr; lia). reflexivity.
        + unfold J3. rewrite set_in by (unfold inr, rot_start; lia). reflexivity. }
    split; [exact A|]. split; [|split; [|split]].
    + intros j Hj. destruct (le_lt_dec (3 * (i + 1)) j) as [L|L].
      * apply B. unfold inr in *. lia.
      * destruct (C j) as [-> _]; [unfold inr; lia|]. rewrite B1 by (unfold inr in *; lia).
        unfold advance. replace (j / 3)%nat with i.
        2:{ apply (Nat.div_unique j 3 i (j - 3 * i)); unfold inr in Hj; lia. }
        replace (S (P - 1 - i)) with (P - i)%nat by lia.
        apply sum_ext. intros a _. f_equal. apply Hx. unfold inr in Hj. lia.
    + intros j Hj. destruct (C j) as [-> ->]; [unfold inr in *; lia|].
      apply C1. unfold inr in *. lia.
    + intros b Hb. destruct (Nat.eq_dec b i) as [->|Hne]; [|apply D; lia].
      apply (lin_rows_ext dt J3); [|exact R3]. intros r c Hr. apply F. unfold inr. lia.
    + intros r c Hr. rewrite F by (unfold inr in *; lia). unfold J3, J2.
      rewrite !set_out by (unfold inr in *; lia). apply F1. unfold inr in *. lia.
Qed.

Lemma rot_loop_spec alias dt P o x k : forall i m J m' J',
  (i + k = S o)%nat -> (1 <= i)%nat -> coherent alias m ->
  (forall j, (rot_start P + 1 + 3 * i <= j)%nat -> inp m j = x j) ->
  rot_loop alias dt P o k i m J = (m', J') ->
  coherent alias m' /\
  (forall j, inr (rot_start P + 1 + 3 * i) (total_size P (S o)) j ->
     out m' j = advance dt o (vsub_range x (rot_start P + 4)) (j - (rot_start P + 4))%nat) /\
  (forall j, ~ inr (rot_start P + 1 + 3 * i) (total_size P (S o)) j -> out m' j = out m j /\ inp m' j = inp m j) /\
  (forall b, (i <= b <= o)%nat -> lin_rows dt J' (rot_start P + 1 + 3 * b) (S o - b) (total_size P (S o))) /\
  (forall r c, ~ inr (rot_start P + 1 + 3 * i) (total_size P (S o)) r -> J' r c = J r c).
Proof.
  assert (T : total_size P (S o) = (rot_start P + 4 + 3 * o)%nat) by (unfold total_size; lia).
  rewrite T. clear T.
  induction k as [|k IH]; intros i m J m' J' Hk Hi Hc Hx E.
  - cbn [rot_loop] in E. assert (E1 : m = m') by congruence. assert (E2 : J = J') by congruence.
    subst m' J'. split; [exact Hc|]. split; [|split; [|split]]; unfold inr; intros; try lia; try reflexivity.
    split; reflexivity.
  - cbn [rot_loop] in E. set (s := (rot_start P + 1 + 3 * i)%nat) in *.
    destruct (linear_update alias dt 3 (o - i) s m J) as [m1 J1] eqn:E1.
    destruct (linear_spec alias dt 3 s (o - i) ltac:(lia) m J m1 J1 Hc E1)
      as (A1 & B1 & C1 & D1 & F1).
    set (J2 := set_sub J1 _ _ _ _ _) in E.
    assert (Hx1 : forall j, (rot_start P + 1 + 3 * (i + 1) <= j)%nat -> inp m1 j = x j).
    { intros j Hj. destruct (C1 j) as [_ ->]; [unfold inr; lia|]. apply Hx. lia. }
    destruct (IH (i + 1)%nat m1 J2 m' J' ltac:(lia) ltac:(lia) A1 Hx1 E) as (A & B & C & D & F).
    assert (R2 : lin_rows dt J2 s (S o - i) (rot_start P + 4 + 3 * o)).
    { split.
      - intros a b c Ha Hcs Hb. unfold J2. rewrite set_out by (unfold inr; lia). apply D1; lia.
      - intros a j Ha Hj. destruct Hj as [Hj|Hj]; [|unfold s in Hj; lia].
        unfold J2. rewrite set_in by (unfold inr; lia). reflexivity. }
    split; [exact A|]. split; [|split; [|split]].
    + intros j Hj. destruct (le_lt_dec (s + 3) j) as [L|L].
      * apply B. unfold inr, s in *. lia.
      * destruct (C j) as [-> _]; [unfold inr, s in *; lia|]. rewrite B1 by (unfold inr, s in *; lia).
        unfold advance.
        replace ((j - (rot_start P + 4)) / 3)%nat with (i - 1)%nat.
        2:{ apply (Nat.div_unique _ 3 _ (j - s)); unfold inr, s in *; lia. }
        replace (S (o - i)) with (o - (i - 1))%nat by lia.
        apply sum_ext. intros a _. f_equal. unfold vsub_range. rewrite Hx by (unfold inr in Hj; lia).
        f_equal. unfold inr, s in Hj. lia.
    + intros j Hj. destruct (C j) as [-> ->]; [unfold inr, s in *; lia|].
      apply C1. unfold inr, s in *. lia.
    + intros b Hb. destruct (Nat.eq_dec b i) as [->|Hne]; [|apply D; lia].
      apply (lin_rows_ext dt J2); [|exact R2]. intros r c Hr. apply F. unfold inr, s in *. lia.
    + intros r c Hr. rewrite F by (unfold inr, s in *; lia). unfold J2.
      rewrite set_out by (unfold inr, s in *; lia). apply F1. unfold inr, s in *. lia.
Qed.

(** what the quaternion loop computes *)
Fixpoint quat_pred (dt : R) (x : vect) (k i : nat) (t : R) (r : quat) : quat :=
  match k with
  | O => r
  | S k' => quat_pred dt x k' (i + 1) (t * dt) (qmul r (integrate (vec_of x (4 + 3 * i)) t))
  end.

Lemma quat_loop_fst dt q x b k : forall i t r J,
  fst (quat_loop dt q x b k i t r J) = quat_pred dt x k i t r.
Proof. induction k as [|k IH]; intros; cbn [quat_loop quat_pred]; [reflexivity|apply IH]. Qed.

Lemma quat_loop_snd dt q x b k : forall i t r J,
  t = dt ^ S i ->
  (forall a c l, (a < 4)%nat -> (c < 3)%nat -> (i <= l < i + k)%nat ->
     snd (quat_loop dt q x b k i t r J) (b + a)%nat (b + 4 + l * 3 + c)%nat
     = quat_vel_block (dt ^ S (S l)) q a c) /\
  (forall r0 c, ~ (inr b (b + 4) r0 /\ inr (b + 4 + i * 3) (b + 4 + (i + k) * 3) c) ->
     snd (quat_loop dt q x b k i t r J) r0 c = J r0 c).
Proof.
  induction k as [|k IH]; intros i t r J Ht; cbn [quat_loop].
  - split; [intros; lia|intros; reflexivity].
  - set (J1 := set_sub J _ _ _ _ _).
    destruct (IH (i + 1)%nat (t * dt) (qmul r (integrate (vec_of x (4 + 3 * i)) t)) J1) as [A B].
    { replace (i + 1)%nat with (S i) by lia. rewrite <- (tech_pow_Rmult dt (S i)), <- Ht. ring. }
    split.
    + intros a c l Ha Hc Hl. destruct (Nat.eq_dec l i) as [->|Hne].
      * rewrite B by (unfold inr; lia). unfold J1. rewrite set_in by (unfold inr; lia).
        replace (b + a - b)%nat with a by lia.
        replace (b + 4 + i * 3 + c - (b + 4 + i * 3))%nat with c by lia.
        f_equal. rewrite Ht. simpl. ring.
      * apply A; lia.
    + intros r0 c H. rewrite B.
      * unfold J1. apply set_out. unfold inr in *. lia.
      * unfold inr in *. lia.
Qed.

Lemma quat_update_spec alias dt o b m J m' J' :
  coherent alias m -> quat_update alias dt o b m J = (m', J') ->
  let x := vsub_range (inp m) b in
  coherent alias m' /\
  (forall j, inr b (b + 4) j -> out m' j = to4 (quat_pred dt x o 0 dt (quat_of x 0)) (j - b)%nat) /\
  (forall j, ~ inr b (b + 4) j -> out m' j = out m j /\ inp m' j = inp m j) /\
  (forall a c l, (a < 4)%nat -> (c < 3)%nat -> (l < o)%nat ->
     J' (b + a)%nat (b + 4 + l * 3 + c)%nat = quat_vel_block (dt ^ S (S l)) (quat_of x 0) a c) /\
  (forall a c, (a < 4)%nat -> (c < 4)%nat -> J' (b + a)%nat (b + c)%nat = eye a c) /\
  (forall r c, ~ (inr b (b + 4) r /\ inr b (b + 4 + 3 * o) c) -> J' r c = J r c).
Proof.
  intros Hc E x. unfold quat_update in E. fold x in E.
  pose proof (quat_loop_fst dt (quat_of x 0) x b o 0 dt (quat_of x 0) J) as Hf.
  pose proof (quat_loop_snd dt (quat_of x 0) x b o 0 dt (quat_of x 0) J ltac:(simpl; ring)) as [A B].
  destruct (quat_loop dt (quat_of x 0) x b o 0 dt (quat_of x 0) J) as [r J1]. cbn [fst snd] in *.
  assert (Em : m' = assign alias m b (b + 4) (to4 r)) by congruence.
  assert (EJ : J' = set_sub J1 b (b + 4) b (b + 4) eye) by congruence.
  clear E. subst m' J'. split; [apply assign_coherent|]. split; [|split; [|split; [|split]]].
  - intros j Hj. unfold assign. cbn [out]. rewrite vset_in by exact Hj. rewrite Hf. reflexivity.
  - intros j Hj. split; [unfold assign; cbn [out]; apply vset_out, Hj|apply assign_inp; assumption].
  - intros a c l Ha Hcs Hl. rewrite set_out by (unfold inr; lia). apply A; lia.
  - intros a c Ha Hcs. rewrite set_in by (unfold inr; lia).
    replace (b + a - b)%nat with a by lia. replace (b + c - b)%nat with c by lia. reflexivity.
  - intros r0 c H. rewrite set_out by (unfold inr in *; lia). apply B. unfold inr in *. lia.
Qed.

(** everything about the pose update in one place *)
Record pose_update_result (dt : R) (P O : nat) (x : vect) (m' : mem) (J' : mat) : Prop := {
  pu_pos : forall j, (j < 3 * P)%nat -> out m' j = advance dt P x j;
  pu_quat : forall a, (a < 4)%nat -> (0 < O)%nat ->
    out m' (rot_start P + a)%nat =
    to4 (quat_pred dt (vsub_range x (rot_start P)) (O - 1) 0 dt (quat_of x (rot_start P))) a;
  pu_rot : forall j, (j < 3 * (O - 1))%nat ->
    out m' (rot_start P + 4 + j)%nat = advance dt (O - 1) (vsub_range x (rot_start P + 4)) j;
  pu_jpos : forall b, (b < P)%nat -> lin_rows dt J' (3 * b) (P - b) (total_size P O);
  pu_jrot : forall b, (1 <= b <= O - 1)%nat ->
    lin_rows dt J' (rot_start P + 1 + 3 * b) (O - b) (total_size P O);
  pu_jquat_vel : forall a c l, (a < 4)%nat -> (c < 3)%nat -> (l < O - 1)%nat ->
    J' (rot_start P + a)%nat (rot_start P + 4 + l * 3 + c)%nat
    = quat_vel_block (dt ^ S (S l)) (quat_of x (rot_start P)) a c;
  pu_jquat_quat : forall a c, (a < 4)%nat -> (c < 4)%nat -> (0 < O)%nat ->
    J' (rot_start P + a)%nat (rot_start P + c)%nat = eye a c;
  pu_jquat_pos : forall a c, (a < 4)%nat -> (c < rot_start P)%nat -> (0 < O)%nat ->
    J' (rot_start P + a)%nat c = 0 }.

Lemma quat_of_sub x b : quat_of (vsub_range x b) 0 = quat_of x b.
Proof. unfold quat_of, vsub_range. replace (b + 0)%nat with b by lia. reflexivity. Qed.

Lemma quat_pred_ext dt x y k : forall i t r,
  (forall j, x j = y j) -> quat_pred dt x k i t r = quat_pred dt y k i t r.
Proof.
  induction k as [|k IH]; intros i t r H; cbn [quat_pred]; [reflexivity|].
  rewrite (IH _ _ _ H). unfold vec_of. rewrite !H. reflexivity.
Qed.

Lemma pose_update_spec alias dt P O x m J m' J' :
  coherent alias m -> (forall j, inp m j = x j) ->
  pose_update alias dt P O m J = (m', J') ->
  pose_update_result dt P O x m' J'.
Proof.
  intros Hc Hx E. unfold pose_update in E.
  destruct (pos_loop alias dt P O P 0 m J) as [m1 J1] eqn:E1.
  destruct (pos_loop_spec alias dt P O x P 0 m J m1 J1 ltac:(lia) Hc (fun j _ => Hx j) E1)
    as (A1 & B1 & C1 & D1 & F1).
  destruct O as [|o].
  - assert (m1 = m') by congruence. assert (J1 = J') by congruence. subst m' J'.
    split; intros; try lia.
    + apply B1. unfold inr. lia.
    + apply D1. lia.
  - set (rs := rot_start P) in *.
    destruct (quat_update alias dt o rs m1 J1) as [m2 J2] eqn:E2.
    destruct (quat_update_spec alias dt o rs m1 J1 m2 J2 A1 E2) as (A2 & B2 & C2 & D2 & G2 & F2).
    set (J3 := set_sub J2 _ _ _ _ _) in E.
    assert (X1 : forall j, (rs <= j)%nat -> inp m1 j = x j).
    { intros j Hj. destruct (C1 j) as [_ ->]; [unfold inr, rs, rot_start in *; lia|]. apply Hx. }
    assert (X2 : forall j, (rs + 1 + 3 * 1 <= j)%nat -> inp m2 j = x j).
    { intros j Hj. destruct (C2 j) as [_ ->]; [unfold inr; lia|]. apply X1. lia. }
    destruct (rot_loop_spec alias dt P o x o 1 m2 J3 m' J' ltac:(lia) ltac:(lia) A2 X2 E)
      as (A & B & C & D & F).
    fold rs in B, C, D, F.
    assert (T : total_size P (S o) = (rs + 4 + 3 * o)%nat) by (unfold total_size, rs; lia).
    assert (Q : forall j, vsub_range (inp m1) rs j = vsub_range x rs j).
    { intros j. unfold vsub_range. apply X1. lia. }
    assert (Q4 : quat_of (vsub_range (inp m1) rs) 0 = quat_of x rs).
    { rewrite quat_of_sub. unfold quat_of. rewrite !X1 by lia. reflexivity. }
    cbv zeta in B2. rewrite Q4 in B2, D2.
    split; fold rs; replace (S o - 1)%nat with o by lia.
    + intros j Hj. destruct (C j) as [-> _]; [rewrite T; unfold inr, rs, rot_start; lia|].
      destruct (C2 j) as [-> _]; [unfold inr, rs, rot_start; lia|]. apply B1. unfold inr. lia.
    + intros a Ha _. destruct (C (rs + a)%nat) as [-> _]; [rewrite T; unfold inr; lia|].
      rewrite B2 by (unfold inr; lia). replace (rs + a - rs)%nat with a by lia.
      rewrite (quat_pred_ext dt _ _ o 0 dt (quat_of x rs) Q). reflexivity.
    + intros j Hj. rewrite B by (rewrite T; unfold inr; lia). f_equal. lia.
    + intros b Hb. apply (lin_rows_ext dt J1); [|apply D1; lia].
      intros r c Hr. unfold rs, rot_start in *. rewrite F by (rewrite T; unfold inr; lia).
      unfold J3. rewrite set_out by (unfold inr; lia). apply F2. unfold inr. lia.
    + intros b Hb. apply D. lia.
    + intros a c l Ha Hcs Hl. rewrite F by (rewrite T; unfold inr; lia).
      unfold J3. rewrite set_out by (unfold inr; lia). apply D2; assumption.
    + intros a c Ha Hcs _. rewrite F by (rewrite T; unfold inr; lia).
      unfold J3. rewrite set_out by (unfold inr; lia). apply G2; assumption.
    + intros a c Ha Hcs _. rewrite F by (rewrite T; unfold inr; lia).
      unfold J3. rewrite set_in by (unfold inr; lia). reflexivity.
Qed.

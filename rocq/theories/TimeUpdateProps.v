(** Properties of the motion models (C41-C44, C55, C81, C82). *)
From Coq Require Import Reals Lra Lia Bool Arith ZArith List.
Import ListNotations.
From Coquelicot Require Import Coquelicot.
From Verif Require Import Mat Quat QuatProofs QuatTrigProofs QuatProps CovTransform Jacobians JacobiansProofs
  TimeUpdate TimeUpdateProofs.
Open Scope R_scope.
Local Arguments Nat.mul : simpl never.
Local Arguments Nat.div : simpl never.
Local Arguments Nat.modulo : simpl never.

(** ** C42: linear motion *)

(** Specification: [f k] is the k-th derivative of a motion whose derivative of order [n]
    vanishes.  Its values at one time determine those at every other time by the sum that the
    update computes. *)
Definition polynomial_motion (n : nat) (f : nat -> R -> R) : Prop :=
  forall k t, (k < n)%nat -> is_derive (f k) t (if (S k <? n)%nat then f (S k) t else 0).

Lemma tay_deriv k s : is_derive (fun h => tay h (S k)) s (tay s k).
Proof.
  unfold tay. apply (is_derive_ext (fun h => / INR (fact (S k)) * h ^ S k)).
  { intros h. change (@eq R (/ INR (fact (S k)) * h ^ S k) (h ^ S k / INR (fact (S k)))). field.
    apply not_0_INR, fact_neq_0. }
  pose proof (is_derive_pow (fun h => h) (S k) s 1 (is_derive_id s)) as D.
  pose proof (is_derive_scal _ s (/ INR (fact (S k))) _ D) as D2. cbv beta in D2.
  match type of D2 with is_derive _ _ ?v => replace (s ^ k / INR (fact k)) with v; [exact D2|] end.
  cbn [Nat.pred]. rewrite fact_simpl, mult_INR.
  assert (INR (S k) <> 0) by (apply not_0_INR; lia).
  assert (INR (fact k) <> 0) by apply not_0_INR, fact_neq_0. field. split; assumption.
Qed.

Lemma motion_taylor n f : polynomial_motion n f -> forall d i t dt, (i + d = n)%nat ->
  (0 < d)%nat -> f i (t + dt) = sum d (fun k => tay dt k * f (i + k)%nat t).
Proof.
  intros Hf. induction d as [|d IH]; intros i t dt Hd Hp; [lia|].
  set (g := fun s => f i (t + s) - sum (S d) (fun k => tay s k * f (i + k)%nat t)).
  assert (G : forall s, is_derive g s 0).
  { intros s. unfold g.
    apply (is_derive_ext (fun s => f i (t + s) - f i t - sum d (fun k => tay s (S k) * f (i + S k)%nat t))).
    { intros r. change (@eq R (f i (t + r) - f i t - sum d (fun k => tay r (S k) * f (i + S k)%nat t))
        (f i (t + r) - sum (S d) (fun k => tay r k * f (i + k)%nat t))).
      rewrite sum_shift, tay_0. replace (i + 0)%nat with i by lia. ring. }
    set (w := if (S i <? n)%nat then f (S i) (t + s) else 0).
    assert (D1 : is_derive (fun s => f i (t + s)) s w).
    { assert (D := Hf i (t + s) ltac:(lia)).
      assert (D2 : is_derive (fun s => t + s) s 1) by (auto_derive; [exact I|ring]).
      pose proof (is_derive_comp (f i) (fun s => t + s) s _ _ D D2) as D3.
      unfold scal in D3; cbn -[Nat.ltb] in D3. unfold mult in D3; cbn -[Nat.ltb] in D3.
      rewrite Rmult_1_l in D3. exact D3. }
    assert (Ew : w = if (S i <? n)%nat then f (S i) (t + s) else 0) by reflexivity. clearbody w.
    assert (D2 : is_derive (fun s => sum d (fun k => tay s (S k) * f (i + S k)%nat t)) s
                   (sum d (fun k => tay s k * f (i + S k)%nat t))).
    { apply (is_derive_sum d (fun k s => tay s (S k) * f (i + S k)%nat t)
               (fun k => tay s k * f (i + S k)%nat t)).
      intros k _. pose proof (tay_deriv k s) as D.
      pose proof (is_derive_mult (fun h => tay h (S k)) (fun _ => f (i + S k)%nat t) s _ _ D
                    (is_derive_const (f (i + S k)%nat t) s) Rmult_comm) as M.
      unfold plus, mult, zero in M; cbn in M. rewrite Rmult_0_r, Rplus_0_r in M. exact M. }
    pose proof (is_derive_minus _ _ s _ _ (is_derive_minus _ _ s _ _ D1 (is_derive_const (f i t) s)) D2) as M.
    unfold minus, plus, opp, zero in M; cbn in M.
    match type of M with is_derive _ _ ?v => replace 0 with v; [exact M|] end.
    destruct (Nat.ltb_spec (S i) n) as [L|L]; rewrite Ew.
    - rewrite (IH (S i) t s) by lia.
      rewrite (sum_ext d (fun k => tay s k * f (i + S k)%nat t) (fun k => tay s k * f (S i + k)%nat t)).
      + ring.
      + intros k _. do 2 f_equal. lia.
    - replace d with 0%nat by lia. cbn [sum]. ring. }
  assert (E : g dt = g 0).
  { destruct (MVT_gen g 0 dt (fun _ => 0)) as (c & _ & E).
    - intros x _. apply G.
    - intros x _. apply derivable_continuous_pt. exists 0. apply is_derive_Reals, G.
    - lra. }
  unfold g in E. rewrite Rplus_0_r in E.
  rewrite (sum_shift d (fun k => tay 0 k * f (i + k)%nat t)) in E.
  rewrite tay_0 in E. replace (i + 0)%nat with i in E by lia.
  rewrite (sum_zero d (fun a => tay 0 (S a) * f (i + S a)%nat t)) in E; [lra|].
  intros k _. unfold tay. rewrite <- tech_pow_Rmult. unfold Rdiv. ring.
Qed.

(** The update of the position part is the exact solution, for every number of derivatives,
    in place or not. *)
Theorem time_update_exact alias dt P O (f : nat -> nat -> R -> R) t m J :
  coherent alias m ->
  (forall c, (c < 3)%nat -> polynomial_motion P (f c)) ->
  (forall b c, (b < P)%nat -> (c < 3)%nat -> inp m (3 * b + c)%nat = f c b t) ->
  forall b c, (b < P)%nat -> (c < 3)%nat ->
  out (fst (pose_update alias dt P O m J)) (3 * b + c)%nat = f c b (t + dt).
Proof.
  intros Hc Hf Hm b c Hb Hcc.
  destruct (pose_update alias dt P O m J) as [m' J'] eqn:E. cbn [fst].
  pose proof (pose_update_spec alias dt P O (inp m) m J m' J' Hc (fun j => eq_refl) E) as S.
  rewrite (pu_pos _ _ _ _ _ _ S) by lia. unfold advance.
  replace ((3 * b + c) / 3)%nat with b by (apply (Nat.div_unique _ 3 b c); lia).
  rewrite (motion_taylor P (f c) (Hf c Hcc) (P - b) b t dt ltac:(lia) ltac:(lia)).
  apply sum_ext. intros k Hk. f_equal.
  replace (3 * b + c + 3 * k)%nat with (3 * (b + k) + c)%nat by lia. apply Hm; lia.
Qed.

(** the same for the angular velocity and its derivatives *)
Theorem time_update_exact_rotation alias dt P o (f : nat -> nat -> R -> R) t m J :
  coherent alias m ->
  (forall c, (c < 3)%nat -> polynomial_motion o (f c)) ->
  (forall b c, (b < o)%nat -> (c < 3)%nat -> inp m (rot_start P + 4 + (3 * b + c))%nat = f c b t) ->
  forall b c, (b < o)%nat -> (c < 3)%nat ->
  out (fst (pose_update alias dt P (S o) m J)) (rot_start P + 4 + (3 * b + c))%nat = f c b (t + dt).
Proof.
  intros Hc Hf Hm b c Hb Hcc.
  destruct (pose_update alias dt P (S o) m J) as [m' J'] eqn:E. cbn [fst].
  pose proof (pose_update_spec alias dt P (S o) (inp m) m J m' J' Hc (fun j => eq_refl) E) as S.
  rewrite (pu_rot _ _ _ _ _ _ S) by lia. replace (Datatypes.S o - 1)%nat with o by lia. unfold advance.
  replace ((3 * b + c) / 3)%nat with b by (apply (Nat.div_unique _ 3 b c); lia).
  rewrite (motion_taylor o (f c) (Hf c Hcc) (o - b) b t dt ltac:(lia) ltac:(lia)).
  apply sum_ext. intros k Hk. f_equal. unfold vsub_range.
  replace (3 * b + c + 3 * k)%nat with (3 * (b + k) + c)%nat by lia. apply Hm; lia.
Qed.

(** a falling body: position, velocity and constant acceleration *)
Example polynomial_motion_case :
  polynomial_motion 3 (fun k t => match k with 0%nat => 5 - t * t | 1%nat => - 2 * t | _ => - 2 end).
Proof.
  intros k t Hk. destruct k as [|[|[|k]]]; try lia; cbn [Nat.ltb Nat.leb]; auto_derive; try exact I; ring.
Qed.

(** every state belongs to such a motion *)
Lemma advance_motion n x c :
  (c < 3)%nat -> polynomial_motion n (fun b s => advance s n x (3 * b + c)%nat).
Proof.
  intros Hc k t Hk. unfold advance.
  replace ((3 * k + c) / 3)%nat with k by (apply (Nat.div_unique _ 3 k c); lia).
  destruct (n - k)%nat as [|d] eqn:Ed; [lia|].
  apply (is_derive_ext (fun h => x (3 * k + c)%nat + sum d (fun a => tay h (S a) * x (3 * k + c + 3 * S a)%nat))).
  { intros h. change (@eq R (x (3 * k + c)%nat + sum d (fun a => tay h (S a) * x (3 * k + c + 3 * S a)%nat))
      (sum (S d) (fun a => tay h a * x (3 * k + c + 3 * a)%nat))).
    rewrite sum_shift, tay_0. replace (3 * k + c + 3 * 0)%nat with (3 * k + c)%nat by lia. ring. }
  assert (D2 : is_derive (fun s => sum d (fun a => tay s (S a) * x (3 * k + c + 3 * S a)%nat)) t
                 (sum d (fun a => tay t a * x (3 * k + c + 3 * S a)%nat))).
  { apply (is_derive_sum d (fun a s => tay s (S a) * x (3 * k + c + 3 * S a)%nat)
             (fun a => tay t a * x (3 * k + c + 3 * S a)%nat)).
    intros a _. pose proof (tay_deriv a t) as D.
    pose proof (is_derive_mult (fun h => tay h (S a)) (fun _ => x (3 * k + c + 3 * S a)%nat) t _ _ D
                  (is_derive_const (x (3 * k + c + 3 * S a)%nat) t) Rmult_comm) as M.
    unfold plus, mult, zero in M; cbn in M. rewrite Rmult_0_r, Rplus_0_r in M. exact M. }
  pose proof (is_derive_plus _ _ t _ _ (is_derive_const (x (3 * k + c)%nat) t) D2) as M.
  unfold plus, zero in M; cbn in M. rewrite Rplus_0_l in M.
  match type of M with is_derive _ _ ?v =>
    match goal with |- is_derive _ _ ?w => replace w with v; [exact M|] end end.
  destruct (Nat.ltb_spec (S k) n) as [L|L].
  - replace ((3 * S k + c) / 3)%nat with (S k) by (apply (Nat.div_unique _ 3 (S k) c); lia).
    replace (n - S k)%nat with d by lia. apply sum_ext. intros a _. do 2 f_equal. lia.
  - replace d with 0%nat by lia. reflexivity.
Qed.

Lemma advance_compose n x d1 d2 i :
  (i < 3 * n)%nat -> advance d2 n (advance d1 n x) i = advance (d1 + d2) n x i.
Proof.
  intros Hi.
  assert (E : i = (3 * (i / 3) + i mod 3)%nat) by (apply Nat.div_mod; lia).
  assert (Hc : (i mod 3 < 3)%nat) by (apply Nat.mod_upper_bound; lia).
  set (b := (i / 3)%nat) in *. set (c := (i mod 3)%nat) in *. clearbody b c. subst i.
  pose proof (motion_taylor n _ (advance_motion n x c Hc) (n - b) b d1 d2 ltac:(lia) ltac:(lia)) as T.
  cbv beta in T. rewrite T. unfold advance at 1.
  replace ((3 * b + c) / 3)%nat with b by (apply (Nat.div_unique _ 3 b c); lia).
  apply sum_ext. intros k _. do 2 f_equal. lia.
Qed.

(** Two steps are one long step, for the position, the angular velocity and all their
    derivatives, for every order and for steps of any sign. *)
Theorem time_update_composes al1 al2 al3 d1 d2 P O m1 m2 m3 J1 J2 J3 :
  coherent al1 m1 -> coherent al2 m2 -> coherent al3 m3 ->
  (forall j, inp m3 j = inp m1 j) ->
  (forall j, (j < total_size P O)%nat -> inp m2 j = out (fst (pose_update al1 d1 P O m1 J1)) j) ->
  forall j, (j < 3 * P \/ rot_start P + 4 <= j < total_size P O)%nat ->
  out (fst (pose_update al2 d2 P O m2 J2)) j = out (fst (pose_update al3 (d1 + d2) P O m3 J3)) j.
Proof.
  intros C1 C2 C3 H31 H21 j Hj.
  destruct (pose_update al1 d1 P O m1 J1) as [n1 K1] eqn:E1.
  destruct (pose_update al2 d2 P O m2 J2) as [n2 K2] eqn:E2.
  destruct (pose_update al3 (d1 + d2) P O m3 J3) as [n3 K3] eqn:E3.
  cbn [fst] in *.
  pose proof (pose_update_spec _ _ _ _ (inp m1) _ _ _ _ C1 (fun _ => eq_refl) E1) as S1.
  pose proof (pose_update_spec _ _ _ _ (inp m2) _ _ _ _ C2 (fun _ => eq_refl) E2) as S2.
  pose proof (pose_update_spec _ _ _ _ (inp m1) _ _ _ _ C3 H31 E3) as S3.
  assert (T : (3 * P <= total_size P O)%nat) by (unfold total_size, rot_start; lia).
  destruct Hj as [Hj|Hj].
  - rewrite (pu_pos _ _ _ _ _ _ S2), (pu_pos _ _ _ _ _ _ S3) by exact Hj.
    rewrite <- (advance_compose P (inp m1) d1 d2 j Hj). unfold advance at 1 2.
    pose proof (Nat.div_mod j 3 ltac:(lia)) as Ej. pose proof (Nat.mod_upper_bound j 3 ltac:(lia)) as Mj.
    apply sum_ext. intros k Hk. f_equal.
    rewrite H21 by lia. apply (pu_pos _ _ _ _ _ _ S1). lia.
  - destruct O as [|o]; [unfold total_size in Hj; lia|].
    assert (To : total_size P (S o) = (rot_start P + 4 + 3 * o)%nat) by (unfold total_size; lia).
    rewrite To in *. set (i := (j - (rot_start P + 4))%nat).
    replace j with (rot_start P + 4 + i)%nat by lia. assert (Hi : (i < 3 * o)%nat) by lia.
    rewrite (pu_rot _ _ _ _ _ _ S2), (pu_rot _ _ _ _ _ _ S3) by lia.
    replace (S o - 1)%nat with o in * by lia.
    rewrite <- (advance_compose o (vsub_range (inp m1) (rot_start P + 4)) d1 d2 i Hi). unfold advance at 1 2.
    pose proof (Nat.div_mod i 3 ltac:(lia)) as Ei. pose proof (Nat.mod_upper_bound i 3 ltac:(lia)) as Mi.
    apply sum_ext. intros k Hk. f_equal. unfold vsub_range at 1.
    rewrite H21 by lia. replace o with (S o - 1)%nat at 1 by lia.
    apply (pu_rot _ _ _ _ _ _ S1). lia.
Qed.

(** The Jacobian rows of positions and their derivatives are the exact linear map: multiplied
    with any state they give that state advanced. *)
Lemma sum_triples n (f : nat -> R) :
  sum (3 * n) f = sum n (fun b => f (3 * b)%nat + f (3 * b + 1)%nat + f (3 * b + 2)%nat).
Proof.
  induction n as [|n IH]; [reflexivity|].
  replace (3 * S n)%nat with (S (S (S (3 * n)))) by lia. cbn [sum]. rewrite IH.
  replace (S (S (3 * n))) with (3 * n + 2)%nat by lia. replace (S (3 * n)) with (3 * n + 1)%nat by lia. ring.
Qed.

Lemma lin_rows_apply dt J s n ts y a :
  lin_rows dt J s n ts -> (a < 3)%nat -> (s + 3 * n <= ts)%nat ->
  sum ts (fun j => J (s + a)%nat j * y j) = sum n (fun k => tay dt k * y (s + a + 3 * k)%nat).
Proof.
  intros [A B] Ha Hts. replace ts with (s + (3 * n + (ts - s - 3 * n)))%nat by lia.
  rewrite sum_split, sum_split.
  rewrite (sum_zero s) by (intros i Hi; rewrite B by lia; ring).
  rewrite (sum_zero (ts - s - 3 * n)) by (intros i Hi; rewrite B by lia; ring).
  rewrite sum_triples, Rplus_0_l, Rplus_0_r. apply sum_ext. intros k Hk.
  replace (s + 3 * k)%nat with (s + 3 * k + 0)%nat by lia.
  replace (s + (3 * k + 1))%nat with (s + 3 * k + 1)%nat by lia.
  replace (s + (3 * k + 2))%nat with (s + 3 * k + 2)%nat by lia.
  rewrite !A by lia. replace (s + a + 3 * k)%nat with (s + 3 * k + a)%nat by lia.
  destruct a as [|[|[|a]]]; try lia; unfold eye; cbn [Nat.eqb]; ring.
Qed.

Theorem time_update_jacobian_linear alias dt P O m J y :
  coherent alias m ->
  let J' := snd (pose_update alias dt P O m J) in
  (forall i, (i < 3 * P)%nat -> mvec (total_size P O) J' y i = advance dt P y i) /\
  (forall i, (i < 3 * (O - 1))%nat ->
     mvec (total_size P O) J' y (rot_start P + 4 + i)%nat
     = advance dt (O - 1) (vsub_range y (rot_start P + 4)) i).
Proof.
  intros Hc J'. unfold J'. destruct (pose_update alias dt P O m J) as [m' J''] eqn:E. cbn [snd].
  pose proof (pose_update_spec _ _ _ _ (inp m) _ _ _ _ Hc (fun _ => eq_refl) E) as S.
  assert (T : (3 * P <= total_size P O)%nat) by (unfold total_size, rot_start; lia).
  split; intros i Hi; pose proof (Nat.div_mod i 3 ltac:(lia)) as Ei;
    pose proof (Nat.mod_upper_bound i 3 ltac:(lia)) as Mi;
    set (b := (i / 3)%nat) in *; set (a := (i mod 3)%nat) in *; unfold mvec, advance; fold b.
  - replace (J'' i) with (J'' (3 * b + a)%nat) by (f_equal; lia).
    rewrite (lin_rows_apply dt J'' (3 * b) (P - b) _ y a (pu_jpos _ _ _ _ _ _ S b ltac:(lia)) Mi ltac:(lia)).
    apply sum_ext. intros k _. do 2 f_equal. lia.
  - destruct O as [|o]; [lia|]. replace (Datatypes.S o - 1)%nat with o in * by lia.
    replace (rot_start P + 4 + i)%nat with (rot_start P + 1 + 3 * (b + 1) + a)%nat by lia.
    rewrite (lin_rows_apply dt J'' (rot_start P + 1 + 3 * (b + 1)) (Datatypes.S o - (b + 1)) _ y a
               (pu_jrot _ _ _ _ _ _ S (b + 1)%nat ltac:(lia)) Mi ltac:(unfold total_size; lia)).
    replace (Datatypes.S o - (b + 1))%nat with (o - b)%nat by lia.
    apply sum_ext. intros k _. unfold vsub_range. do 2 f_equal. lia.
Qed.

(** In place or into a separate vector: same result, same Jacobian, whatever was in the
    result vector and the Jacobian before; so every entry of both is written. *)
Theorem time_update_in_place dt P O x y J0 J1 :
  let '(m1, K1) := pose_update true dt P O (Mem x x) J0 in
  let '(m2, K2) := pose_update false dt P O (Mem x y) J1 in
  veq (total_size P O) (out m1) (out m2) /\ meq (total_size P O) (total_size P O) K1 K2.
Proof.
  destruct (pose_update true dt P O (Mem x x) J0) as [m1 K1] eqn:E1.
  destruct (pose_update false dt P O (Mem x y) J1) as [m2 K2] eqn:E2.
  assert (C1 : coherent true (Mem x x)) by (intros _ j; reflexivity).
  pose proof (pose_update_spec _ _ _ _ x _ _ _ _ C1 (fun _ => eq_refl) E1) as S1.
  assert (C2 : coherent false (Mem x y)) by (intros H; discriminate).
  pose proof (pose_update_spec _ _ _ _ x _ _ _ _ C2 (fun _ => eq_refl) E2) as S2.
  assert (T : total_size P O = (3 * P + match O with O => 0 | S o => 4 + 3 * o end)%nat) by reflexivity.
  split.
  - intros j Hj. destruct (le_lt_dec (3 * P) j) as [L|L].
    2:{ rewrite (pu_pos _ _ _ _ _ _ S1), (pu_pos _ _ _ _ _ _ S2) by exact L. reflexivity. }
    destruct O as [|o]; [lia|].
    destruct (le_lt_dec (rot_start P + 4) j) as [L2|L2]; unfold rot_start in *.
    + replace j with (rot_start P + 4 + (j - (rot_start P + 4)))%nat by (unfold rot_start; lia).
      rewrite (pu_rot _ _ _ _ _ _ S1), (pu_rot _ _ _ _ _ _ S2) by (unfold rot_start; lia). reflexivity.
    + replace j with (rot_start P + (j - rot_start P))%nat by (unfold rot_start; lia).
      rewrite (pu_quat _ _ _ _ _ _ S1), (pu_quat _ _ _ _ _ _ S2) by (unfold rot_start; lia). reflexivity.
  - assert (LR : forall s n, lin_rows dt K1 s n (total_size P O) -> lin_rows dt K2 s n (total_size P O) ->
               forall a j, (a < 3)%nat -> (j < total_size P O)%nat -> K1 (s + a)%nat j = K2 (s + a)%nat j).
    { intros s n [A1 B1] [A2 B2] a j Ha Hj.
      destruct (le_lt_dec s j) as [L|L]; [|rewrite B1, B2 by lia; reflexivity].
      destruct (le_lt_dec (s + 3 * n) j) as [L2|L2]; [rewrite B1, B2 by lia; reflexivity|].
      pose proof (Nat.div_mod (j - s) 3 ltac:(lia)) as Ej.
      pose proof (Nat.mod_upper_bound (j - s) 3 ltac:(lia)) as Mj.
      replace j with (s + 3 * ((j - s) / 3) + (j - s) mod 3)%nat by lia.
      rewrite A1, A2 by lia. reflexivity. }
    intros i j Hi Hj. destruct (le_lt_dec (3 * P) i) as [L|L].
    2:{ pose proof (Nat.div_mod i 3 ltac:(lia)) as Ei. pose proof (Nat.mod_upper_bound i 3 ltac:(lia)) as Mi.
        rewrite Ei. apply (LR (3 * (i / 3))%nat (P - i / 3)%nat); try assumption.
        - apply (pu_jpos _ _ _ _ _ _ S1). lia.
        - apply (pu_jpos _ _ _ _ _ _ S2). lia. }
    destruct O as [|o]; [lia|].
    destruct (le_lt_dec (rot_start P + 4) i) as [L2|L2].
    + set (i' := (i - (rot_start P + 4))%nat).
      pose proof (Nat.div_mod i' 3 ltac:(lia)) as Ei. pose proof (Nat.mod_upper_bound i' 3 ltac:(lia)) as Mi.
      unfold rot_start in *.
      replace i with (rot_start P + 1 + 3 * (i' / 3 + 1) + i' mod 3)%nat by (unfold rot_start; lia).
      apply (LR _ (S o - (i' / 3 + 1))%nat); try assumption.
      * apply (pu_jrot _ _ _ _ _ _ S1). lia.
      * apply (pu_jrot _ _ _ _ _ _ S2). lia.
    + set (i' := (i - rot_start P)%nat). unfold rot_start in L2.
      replace i with (rot_start P + i')%nat by (unfold i', rot_start; lia).
      assert (Hi' : (i' < 4)%nat) by (unfold i', rot_start; lia).
      destruct (le_lt_dec (rot_start P) j) as [L3|L3].
      2:{ rewrite (pu_jquat_pos _ _ _ _ _ _ S1), (pu_jquat_pos _ _ _ _ _ _ S2) by lia. reflexivity. }
      destruct (le_lt_dec (rot_start P + 4) j) as [L4|L4].
      * set (j' := (j - (rot_start P + 4))%nat).
        pose proof (Nat.div_mod j' 3 ltac:(lia)) as Ej. pose proof (Nat.mod_upper_bound j' 3 ltac:(lia)) as Mj.
        unfold rot_start in *.
        replace j with (rot_start P + 4 + (j' / 3) * 3 + j' mod 3)%nat by (unfold rot_start; lia).
        rewrite (pu_jquat_vel _ _ _ _ _ _ S1), (pu_jquat_vel _ _ _ _ _ _ S2) by lia. reflexivity.
      * replace j with (rot_start P + (j - rot_start P))%nat by lia.
        rewrite (pu_jquat_quat _ _ _ _ _ _ S1), (pu_jquat_quat _ _ _ _ _ _ S2) by lia. reflexivity.
Qed.

Print Assumptions time_update_exact.
Print Assumptions time_update_exact_rotation.
Print Assumptions time_update_composes.
Print Assumptions time_update_jacobian_linear.
Print Assumptions time_update_in_place.

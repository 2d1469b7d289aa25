(** Properties of the correlation coefficient and of the filtering iterator (C30, C31). *)
From Coq Require Import Reals Lra Lia Bool Arith List.
Import ListNotations.
From Verif Require Import Stats.
Open Scope R_scope.

(** ** sums *)
Definition sm (f : R -> R -> R) (l : list (R * R)) : R := fold_right (fun p s => f (fst p) (snd p) + s) 0 l.
Lemma acc2_sm f l : acc2 f l = sm f l.
Proof.
  unfold acc2. assert (G : forall a, fold_left (fun s p => s + f (fst p) (snd p)) l a = a + sm f l).
  { induction l as [|p l IH]; intros a; cbn; [ring|]. rewrite IH. unfold sm. ring. }
  rewrite G. ring.
Qed.
Lemma sm_cons f p l : sm f (p :: l) = f (fst p) (snd p) + sm f l.
Proof. reflexivity. Qed.
Lemma sm_ext f g l : (forall x y, In (x, y) l -> f x y = g x y) -> sm f l = sm g l.
Proof.
  induction l as [|[x y] l IH]; intros H; [reflexivity|]. rewrite !sm_cons. cbn.
  rewrite H by (left; reflexivity). f_equal. apply IH. intros; apply H; right; assumption.
Qed.
Lemma sm_plus f g l : sm (fun x y => f x y + g x y) l = sm f l + sm g l.
Proof. induction l as [|p l IH]; [cbn; ring|]. rewrite !sm_cons, IH. ring. Qed.
Lemma sm_scale c f l : sm (fun x y => c * f x y) l = c * sm f l.
Proof. induction l as [|p l IH]; [cbn; ring|]. rewrite !sm_cons, IH. ring. Qed.
Lemma sm_const c l : sm (fun _ _ => c) l = INR (length l) * c.
Proof. induction l as [|p l IH]; [cbn; ring|]. rewrite sm_cons, IH. cbn [length]. rewrite S_INR. ring. Qed.
Lemma sm_nonneg f l : (forall x y, 0 <= f x y) -> 0 <= sm f l.
Proof. intros H. induction l as [|p l IH]; [cbn; lra|]. rewrite sm_cons. specialize (H (fst p) (snd p)). lra. Qed.
Lemma sm_zero f l : (forall x y, 0 <= f x y) -> sm f l = 0 -> forall x y, In (x, y) l -> f x y = 0.
Proof.
  intros H. induction l as [|p l IH]; intros E x y Hin; [destruct Hin|]. rewrite sm_cons in E.
  pose proof (H (fst p) (snd p)). pose proof (sm_nonneg f l H). destruct Hin as [->|Hin].
  - cbn in *. lra.
  - apply IH; [lra|exact Hin].
Qed.
Lemma sm_map f (g h : R -> R) l : sm f (map (fun p => (g (fst p), h (snd p))) l) = sm (fun x y => f (g x) (h y)) l.
Proof. induction l as [|p l IH]; [reflexivity|]. cbn [map]. rewrite !sm_cons, IH. reflexivity. Qed.
Lemma sm_swap f l : sm f (map (fun p => (snd p, fst p)) l) = sm (fun x y => f y x) l.
Proof. induction l as [|p l IH]; [reflexivity|]. cbn [map]. rewrite !sm_cons, IH. reflexivity. Qed.

(** ** textbook definition, on pairs *)
Definition m1 l := sm (fun x _ => x) l / INR (length l).
Definition m2 l := sm (fun _ y => y) l / INR (length l).
Definition cov l := sm (fun x y => (x - m1 l) * (y - m2 l)) l.
Definition var1 l := sm (fun x y => (x - m1 l) * (x - m1 l)) l.
Definition var2 l := sm (fun x y => (y - m2 l) * (y - m2 l)) l.

Lemma correlation_pairs l1 l2 : combine l1 l2 <> [] -> correlation l1 l2 =
  let l := combine l1 l2 in
  if Req_EM_T (sqrt (var1 l * var2 l)) 0 then None else Some (cov l / sqrt (var1 l * var2 l)).
Proof.
  intros H. destruct l1 as [|a l1]; [contradiction H; reflexivity|].
  destruct l2 as [|b l2]; [contradiction H; reflexivity|].
  unfold correlation. rewrite <- combine_length.
  destruct (length (combine (a :: l1) (b :: l2))) as [|n] eqn:E; [cbn in E; discriminate|]. rewrite <- E.
  rewrite !acc2_sm. reflexivity.
Qed.
Lemma correlation_cases l1 l2 c : correlation l1 l2 = Some c ->
  (l1 = [] /\ l2 = [] /\ c = 1) \/
  (combine l1 l2 <> [] /\ 0 < var1 (combine l1 l2) * var2 (combine l1 l2) /\
   c = cov (combine l1 l2) / sqrt (var1 (combine l1 l2) * var2 (combine l1 l2))).
Proof.
  intros E. destruct l1 as [|a l1], l2 as [|b l2].
  - left. injection E as <-. auto.
  - discriminate E.
  - discriminate E.
  - right. split; [discriminate|]. rewrite correlation_pairs in E by discriminate. cbv zeta in E.
    set (l := combine (a :: l1) (b :: l2)) in *. clearbody l.
    destruct (Req_EM_T (sqrt (var1 l * var2 l)) 0) as [|N]; [discriminate|]. injection E as <-.
    split; [|reflexivity]. destruct (Rlt_dec 0 (var1 l * var2 l)) as [|G]; [assumption|].
    exfalso. apply N. apply sqrt_neg_0. lra.
Qed.

(** the quadratic form t -> sum (t (x - m1) + (y - m2))^2 *)
Lemma quadratic l t : sm (fun x y => (t * (x - m1 l) + (y - m2 l)) * (t * (x - m1 l) + (y - m2 l))) l
  = t * t * var1 l + 2 * t * cov l + var2 l.
Proof.
  unfold var1, var2, cov. rewrite <- !sm_scale, <- !sm_plus. apply sm_ext. intros; ring.
Qed.
Lemma cauchy_schwarz l : cov l * cov l <= var1 l * var2 l.
Proof.
  assert (V1 : 0 <= var1 l) by (apply sm_nonneg; intros; apply Rle_0_sqr).
  assert (V2 : 0 <= var2 l) by (apply sm_nonneg; intros; apply Rle_0_sqr).
  destruct (Req_dec (var1 l) 0) as [Z|Z].
  - assert (cov l = 0) as ->; [|rewrite Z; lra]. unfold cov.
    rewrite (sm_ext _ (fun _ _ => 0)); [rewrite sm_const; ring|].
    intros x y Hin. pose proof (sm_zero (fun x _ => (x - m1 l) * (x - m1 l)) l ltac:(intros; apply Rle_0_sqr) Z x y Hin) as E.
    cbn in E. apply Rmult_integral in E. assert (x - m1 l = 0) as -> by tauto. ring.
  - assert (P : 0 < var1 l) by (destruct V1 as [|V1]; [assumption|congruence]).
    assert (Q : 0 <= sm (fun x y => (- (cov l / var1 l) * (x - m1 l) + (y - m2 l)) * (- (cov l / var1 l) * (x - m1 l) + (y - m2 l))) l)
      by (apply sm_nonneg; intros; apply Rle_0_sqr).
    rewrite quadratic in Q.
    replace (- (cov l / var1 l) * - (cov l / var1 l) * var1 l + 2 * - (cov l / var1 l) * cov l + var2 l)
      with ((var1 l * var2 l - cov l * cov l) / var1 l) in Q by (field; lra).
    destruct (Rle_dec (cov l * cov l) (var1 l * var2 l)) as [|N]; [assumption|exfalso].
    assert ((var1 l * var2 l - cov l * cov l) / var1 l < 0); [|lra].
    apply Rinv_0_lt_compat in P. unfold Rdiv. nra.
Qed.

(** C30: the coefficient lies in [-1, 1] *)
Theorem correlation_range l1 l2 c : correlation l1 l2 = Some c -> -1 <= c <= 1.
Proof.
  intros E. destruct (correlation_cases _ _ _ E) as [(_ & _ & ->)|(_ & P & ->)]; [lra|].
  set (l := combine l1 l2) in *. clearbody l.
  assert (S : 0 < sqrt (var1 l * var2 l)) by (apply sqrt_lt_R0; exact P).
  assert (A : Rabs (cov l) <= sqrt (var1 l * var2 l)).
  { rewrite <- sqrt_Rsqr_abs. apply sqrt_le_1_alt. unfold Rsqr. apply cauchy_schwarz. }
  assert (A1 := Rle_abs (cov l)). assert (A2 := Rle_abs (- cov l)). rewrite Rabs_Ropp in A2.
  assert (K : cov l = cov l / sqrt (var1 l * var2 l) * sqrt (var1 l * var2 l)) by (field; lra).
  revert K A A1 A2 S. generalize (Rabs (cov l)). generalize (cov l / sqrt (var1 l * var2 l)).
  generalize (sqrt (var1 l * var2 l)). generalize (cov l). intros u q c w K A A1 A2 S.
  split; apply Rmult_le_reg_r with q; lra.
Qed.

(** C30: symmetric *)
Lemma combine_swap (l1 l2 : list R) : combine l2 l1 = map (fun p => (snd p, fst p)) (combine l1 l2).
Proof. revert l2. induction l1 as [|a l1 IH]; intros [|b l2]; try reflexivity. cbn. f_equal. apply IH. Qed.
Theorem correlation_symmetric l1 l2 : correlation l1 l2 = correlation l2 l1.
Proof.
  destruct l1 as [|a l1], l2 as [|b l2]; try reflexivity.
  rewrite !correlation_pairs by discriminate. cbv zeta. rewrite (combine_swap (a :: l1) (b :: l2)).
  set (l := combine (a :: l1) (b :: l2)). clearbody l.
  set (l' := map (fun p => (snd p, fst p)) l).
  assert (M1 : m1 l' = m2 l) by (unfold m1, m2, l'; rewrite sm_swap, map_length; reflexivity).
  assert (M2 : m2 l' = m1 l) by (unfold m1, m2, l'; rewrite sm_swap, map_length; reflexivity).
  assert (V1 : var1 l' = var2 l) by (unfold var1, var2; rewrite M1; unfold l'; rewrite sm_swap; reflexivity).
  assert (V2 : var2 l' = var1 l) by (unfold var1, var2; rewrite M2; unfold l'; rewrite sm_swap; reflexivity).
  assert (C : cov l' = cov l).
  { unfold cov. rewrite M1, M2. unfold l'. rewrite sm_swap. apply sm_ext. intros; ring. }
  rewrite V1, V2, C, (Rmult_comm (var2 l)). reflexivity.
Qed.

(** C30: defined exactly if both prefixes have two different elements (or both sequences
    are empty) *)
Definition constant (l : list R) : Prop := exists c, Forall (eq c) l.
Lemma var1_zero l : l <> [] -> (var1 l = 0 <-> constant (map fst l)).
Proof.
  intros Hl. split.
  - intros E. exists (m1 l). apply Forall_forall. intros x Hx. apply in_map_iff in Hx.
    destruct Hx as ([x' y] & <- & Hin).
    pose proof (sm_zero (fun x _ => (x - m1 l) * (x - m1 l)) l ltac:(intros; apply Rle_0_sqr) E x' y Hin) as Z. cbn in *. apply Rmult_integral in Z. lra.
  - intros [c Hc]. assert (Hx : forall x y, In (x, y) l -> x = c).
    { intros x y Hin. symmetry. apply (proj1 (Forall_forall _ _) Hc). apply in_map_iff. exists (x, y). auto. }
    assert (M : m1 l = c).
    { unfold m1. rewrite (sm_ext _ (fun _ _ => c)) by exact Hx. rewrite sm_const. field.
      apply not_0_INR. destruct l; [congruence|discriminate]. }
    unfold var1. rewrite M. rewrite (sm_ext _ (fun _ _ => 0)).
    + rewrite sm_const. ring.
    + intros x y Hin. rewrite (Hx x y Hin). ring.
Qed.
Lemma var_swap l : var2 l = var1 (map (fun p => (snd p, fst p)) l).
Proof. unfold var1, var2, m1, m2. rewrite !sm_swap, map_length. reflexivity. Qed.

Theorem correlation_defined l1 l2 : correlation l1 l2 <> None <->
  (l1 = [] /\ l2 = []) \/
  (combine l1 l2 <> [] /\ ~ constant (map fst (combine l1 l2)) /\ ~ constant (map snd (combine l1 l2))).
Proof.
  destruct l1 as [|a l1], l2 as [|b l2].
  - split; [left; auto|discriminate].
  - split; [intros N; contradiction N; reflexivity|intros [[_ H]|[H _]]; [discriminate|contradiction H; reflexivity]].
  - split; [intros N; contradiction N; reflexivity|intros [[H _]|[H _]]; [discriminate|contradiction H; reflexivity]].
  - rewrite correlation_pairs by discriminate. cbv zeta.
    assert (Hl : combine (a :: l1) (b :: l2) <> []) by discriminate.
    set (l := combine (a :: l1) (b :: l2)) in *. clearbody l.
    assert (V1 : 0 <= var1 l) by (apply sm_nonneg; intros; apply Rle_0_sqr).
    assert (V2 : 0 <= var2 l) by (apply sm_nonneg; intros; apply Rle_0_sqr).
    pose proof (var1_zero l Hl) as Z1.
    assert (Z2 : var2 l = 0 <-> constant (map snd l)).
    { rewrite var_swap. rewrite var1_zero by (destruct l; [congruence|discriminate]). rewrite map_map. reflexivity. }
    assert (Q : sqrt (var1 l * var2 l) = 0 <-> var1 l = 0 \/ var2 l = 0).
    { split.
      - intros E. apply sqrt_eq_0 in E; [|nra]. apply Rmult_integral in E. exact E.
      - intros [->| ->]; [rewrite Rmult_0_l|rewrite Rmult_0_r]; apply sqrt_0. }
    destruct (Req_EM_T (sqrt (var1 l * var2 l)) 0) as [E|E].
    + split; [intros N; contradiction N; reflexivity|]. intros [[Z _]|(_ & N1 & N2)]; [discriminate|].
      apply Q in E. exfalso. destruct E as [E|E]; [apply N1, Z1, E|apply N2, Z2, E].
    + split; [|discriminate]. intros _. right. split; [exact Hl|]. split; intros C; apply E, Q.
      * left. apply Z1, C.
      * right. apply Z2, C.
Qed.

(** C30: a sequence correlates perfectly with itself *)
Lemma combine_self (l : list R) : map fst (combine l l) = l.
Proof. induction l as [|a l IH]; [reflexivity|]. cbn. f_equal. exact IH. Qed.
Lemma self_pair (l : list R) x y : In (x, y) (combine l l) -> x = y.
Proof. induction l as [|a l IH]; cbn; [tauto|]. intros [E|H]; [injection E; congruence|apply IH, H]. Qed.
Theorem correlation_self l : ~ constant l -> correlation l l = Some 1.
Proof.
  intros N. assert (Hl : l <> []) by (intros ->; apply N; exists 0; constructor).
  assert (Hc : combine l l <> []) by (destruct l; [congruence|discriminate]).
  rewrite correlation_pairs by exact Hc. cbv zeta.
  assert (M : m2 (combine l l) = m1 (combine l l)).
  { unfold m1, m2. f_equal. apply sm_ext. intros x y H. symmetry. exact (self_pair l x y H). }
  assert (V : var2 (combine l l) = var1 (combine l l)).
  { unfold var1, var2. rewrite M. apply sm_ext. intros x y H. rewrite (self_pair l x y H). reflexivity. }
  assert (C : cov (combine l l) = var1 (combine l l)).
  { unfold cov, var1. rewrite M. apply sm_ext. intros x y H. rewrite (self_pair l x y H). reflexivity. }
  assert (P : 0 < var1 (combine l l)).
  { assert (W : 0 <= var1 (combine l l)) by (apply sm_nonneg; intros; apply Rle_0_sqr).
    destruct W as [W|Z]; [exact W|symmetry in Z].
    exfalso. apply N. apply (var1_zero _ Hc) in Z. rewrite combine_self in Z. exact Z. }
  rewrite V, C, sqrt_square by lra. destruct (Req_EM_T (var1 (combine l l)) 0); [lra|]. f_equal. field. lra.
Qed.

(** C30: rescaling; a negative factor flips the sign *)
Definition scale_opt (s : R) (o : option R) := match o with Some c => Some (s * c) | None => None end.
Lemma combine_map1 (g : R -> R) (l1 l2 : list R) : combine (map g l1) l2 = map (fun p => (g (fst p), snd p)) (combine l1 l2).
Proof. revert l2. induction l1 as [|a l1 IH]; intros [|b l2]; try reflexivity. cbn. f_equal. apply IH. Qed.
Theorem correlation_affine a b l1 l2 : a <> 0 -> l1 <> [] ->
  correlation (map (fun x => a * x + b) l1) l2 = scale_opt (if Rlt_dec 0 a then 1 else -1) (correlation l1 l2).
Proof.
  intros Ha Hl. destruct l1 as [|x l1]; [congruence|]. destruct l2 as [|y l2]; [reflexivity|].
  rewrite (correlation_pairs (x :: l1) (y :: l2)) by discriminate.
  rewrite (correlation_pairs (map (fun x => a * x + b) (x :: l1)) (y :: l2)) by discriminate. cbv zeta.
  rewrite combine_map1. assert (Hc : combine (x :: l1) (y :: l2) <> []) by discriminate.
  set (l := combine (x :: l1) (y :: l2)) in *. clearbody l.
  set (l' := map (fun p => (a * fst p + b, snd p)) l).
  assert (T : forall f, sm f l' = sm (fun x y => f (a * x + b) y) l)
    by (intros f; exact (sm_map f (fun x => a * x + b) (fun y => y) l)).
  assert (Hn : INR (length l) <> 0) by (apply not_0_INR; destruct l; [congruence|discriminate]).
  assert (LN : length l' = length l) by apply map_length.
  assert (M1 : m1 l' = a * m1 l + b).
  { unfold m1. rewrite LN, T, (sm_plus (fun x _ => a * x) (fun _ _ => b)), sm_scale, sm_const. field. exact Hn. }
  assert (M2 : m2 l' = m2 l) by (unfold m2; rewrite LN, T; reflexivity).
  assert (V1 : var1 l' = a * a * var1 l).
  { unfold var1. rewrite M1, T, <- sm_scale. apply sm_ext. intros; ring. }
  assert (V2 : var2 l' = var2 l) by (unfold var2; rewrite M2, T; reflexivity).
  assert (C : cov l' = a * cov l).
  { unfold cov. rewrite M1, M2, T, <- sm_scale. apply sm_ext. intros; ring. }
  rewrite V1, V2, C.
  assert (W1 : 0 <= var1 l) by (apply sm_nonneg; intros; apply Rle_0_sqr).
  assert (W2 : 0 <= var2 l) by (apply sm_nonneg; intros; apply Rle_0_sqr).
  assert (SQ : sqrt (a * a * var1 l * var2 l) = Rabs a * sqrt (var1 l * var2 l)).
  { rewrite Rmult_assoc, sqrt_mult by nra. f_equal. replace (a * a) with (Rsqr a) by reflexivity. apply sqrt_Rsqr_abs. }
  rewrite SQ. assert (Hab : Rabs a <> 0) by (apply Rabs_no_R0; exact Ha).
  destruct (Req_EM_T (sqrt (var1 l * var2 l)) 0) as [E|E].
  - rewrite E, Rmult_0_r. destruct (Req_EM_T 0 0); [reflexivity|congruence].
  - destruct (Req_EM_T (Rabs a * sqrt (var1 l * var2 l)) 0) as [Z|_].
    + apply Rmult_integral in Z. destruct Z; contradiction.
    + cbn. f_equal. destruct (Rlt_dec 0 a) as [P|P].
      * rewrite Rabs_pos_eq by lra. field. split; assumption.
      * rewrite Rabs_left by lra. field. split; [assumption|lra].
Qed.

(** C30: perfect correlation means an affine relation *)
Theorem correlation_extreme l1 l2 c : correlation l1 l2 = Some c -> c * c = 1 -> l1 <> [] ->
  exists a b, a * c > 0 /\ forall x y, In (x, y) (combine l1 l2) -> y = a * x + b.
Proof.
  intros E Ec Hl. destruct (correlation_cases _ _ _ E) as [(Z & _)|(_ & P & Ev)]; [congruence|].
  set (l := combine l1 l2) in *. clearbody l.
  assert (S : 0 < sqrt (var1 l * var2 l)) by (apply sqrt_lt_R0; exact P).
  assert (SS : sqrt (var1 l * var2 l) * sqrt (var1 l * var2 l) = var1 l * var2 l) by (apply sqrt_sqrt; lra).
  set (s := sqrt (var1 l * var2 l)) in *. clearbody s.
  assert (W1 : 0 <= var1 l) by (apply sm_nonneg; intros; apply Rle_0_sqr).
  assert (P1 : 0 < var1 l). { destruct W1 as [|Z]; [assumption|rewrite <- Z in P; lra]. }
  assert (Ecv : cov l = c * s) by (rewrite Ev; field; lra).
  assert (EQ : cov l * cov l = var1 l * var2 l).
  { rewrite Ecv, <- SS. replace (c * s * (c * s)) with (c * c * (s * s)) by ring. rewrite Ec. ring. }
  set (t := - (cov l / var1 l)).
  assert (Q : sm (fun x y => (t * (x - m1 l) + (y - m2 l)) * (t * (x - m1 l) + (y - m2 l))) l = 0).
  { rewrite quadratic. unfold t.
    replace (- (cov l / var1 l) * - (cov l / var1 l) * var1 l + 2 * - (cov l / var1 l) * cov l + var2 l)
      with ((var1 l * var2 l - cov l * cov l) / var1 l) by (field; lra).
    rewrite EQ. unfold Rdiv. ring. }
  exists (cov l / var1 l), (m2 l - cov l / var1 l * m1 l). split.
  - rewrite Ecv. unfold Rdiv. replace (c * s * / var1 l * c) with (c * c * (s * / var1 l)) by ring.
    rewrite Ec. apply Rinv_0_lt_compat in P1. nra.
  - intros x y Hin. pose proof (sm_zero _ l ltac:(intros; apply Rle_0_sqr) Q x y Hin) as Z. cbn in Z.
    assert (Z' : t * (x - m1 l) + (y - m2 l) = 0) by (apply Rmult_integral in Z; tauto). unfold t in Z'. lra.
Qed.

(** C30: elements beyond the shorter sequence are ignored *)
Theorem correlation_prefix l1 l2 ext : l1 <> [] -> length l1 = length l2 ->
  correlation l1 (l2 ++ ext) = correlation l1 l2.
Proof.
  intros H1 HL. destruct l1 as [|a l1]; [congruence|]. destruct l2 as [|b l2]; [discriminate HL|].
  assert (E : forall (x y z : list R), length x = length y -> combine x (y ++ z) = combine x y).
  { clear. induction x as [|a x IH]; intros [|b y] z H; try discriminate H; [destruct z; reflexivity|].
    cbn. f_equal. apply IH. cbn in H. lia. }
  rewrite !correlation_pairs by discriminate. rewrite E by exact HL. reflexivity.
Qed.

Example correlation_case : correlation [0; 1; 2] [5; 3; 1; 9] = Some (-1).
Proof.
  change [5; 3; 1; 9] with ([5; 3; 1] ++ [9]). rewrite correlation_prefix by (cbn; congruence).
  rewrite correlation_symmetric.
  replace [5; 3; 1] with (map (fun x => -2 * x + 5) [0; 1; 2]) by (cbn; repeat f_equal; ring).
  rewrite correlation_affine by (lra || discriminate).
  rewrite correlation_self.
  - cbn. destruct (Rlt_dec 0 (-2)); [lra|]. f_equal. ring.
  - intros [c H]. inversion H; subst. inversion H3; subst. lra.
Qed.

(** ** the filtering iterator *)
Section iter.
Context {V : Type}.
Variable values : list V.
Variable d : V.

Definition matching (labels : list nat) (comp : nat) : list V :=
  map fst (filter (fun p => Nat.eqb (snd p) comp) (combine values labels)).

Lemma find_from_match comp l : In comp l -> nth_error l (find_from comp l) = Some comp.
Proof.
  induction l as [|k l IH]; intros H; [destruct H|]. cbn [find_from].
  destruct (Nat.eqb_spec k comp) as [->|N]; [reflexivity|].
  destruct H as [H|H]; [congruence|]. exact (IH H).
Qed.
Lemma find_from_none comp l : ~ In comp l -> find_from comp l = length l.
Proof.
  induction l as [|k l IH]; intros H; [reflexivity|]. cbn [find_from].
  destruct (Nat.eqb_spec k comp) as [->|N]; [contradiction H; left; reflexivity|].
  cbn. f_equal. apply IH. intros X. apply H. right. exact X.
Qed.
Lemma next_match labels comp pos : nth_error labels pos = Some comp -> next labels comp pos = pos.
Proof.
  intros H. unfold next. replace (skipn pos labels) with (comp :: skipn (S pos) labels).
  - cbn. rewrite Nat.eqb_refl. lia.
  - clear -H. revert pos H. induction labels as [|k l IH]; intros [|pos] H; try discriminate H.
    + injection H as ->. reflexivity.
    + exact (IH pos H).
Qed.

(** C31 (refuted): on a matching element the loop makes no progress *)
Lemma visit_stuck labels comp fuel pos : nth_error labels pos = Some comp ->
  visit labels comp values d fuel pos = (repeat (nth pos values d) fuel, false).
Proof.
  intros H. assert (HN : not_end labels pos = true).
  { unfold not_end. apply negb_true_iff, Nat.eqb_neq. intros ->.
    assert (nth_error labels (length labels) = None) by (apply nth_error_None; lia). congruence. }
  induction fuel as [|fuel IH]; cbn [visit]; rewrite HN; [reflexivity|].
  rewrite (next_match labels comp pos H), IH. reflexivity.
Qed.

Theorem filtered_iteration_diverges_refuted labels comp : In comp labels ->
  forall fuel, snd (visit labels comp values d fuel 0) = false.
Proof.
  intros H fuel. destruct labels as [|k labels]; [destruct H|].
  destruct fuel as [|fuel]; [reflexivity|]. cbn [visit not_end Nat.eqb length negb snd].
  unfold next. cbn [skipn Nat.add].
  rewrite visit_stuck by (apply find_from_match; exact H). reflexivity.
Qed.

(** with no matching element the loop ends, but has visited the first element *)
Theorem filtered_iteration_no_match labels comp fuel : ~ In comp labels -> labels <> [] -> (1 <= fuel)%nat ->
  visit labels comp values d fuel 0 = ([nth 0 values d], true).
Proof.
  intros H Hl Hf. destruct labels as [|k labels]; [congruence|]. destruct fuel as [|fuel]; [lia|].
  cbn [visit not_end Nat.eqb length negb]. unfold next. cbn [skipn Nat.add].
  rewrite find_from_none by exact H.
  assert (E : visit (k :: labels) comp values d fuel (length (k :: labels)) = ([], true)).
  { destruct fuel; cbn [visit]; unfold not_end; rewrite Nat.eqb_refl; reflexivity. }
  rewrite E. reflexivity.
Qed.

(** C31: iteration visits exactly the matching elements only for empty sequences *)
Theorem filtered_iteration_correct_iff labels comp : length values = length labels ->
  ((exists fuel, visit labels comp values d fuel 0 = (matching labels comp, true)) <-> labels = []).
Proof.
  intros HL. split.
  - intros [fuel E]. destruct (in_dec Nat.eq_dec comp labels) as [H|H].
    + pose proof (filtered_iteration_diverges_refuted labels comp H fuel) as F. rewrite E in F. discriminate F.
    + destruct labels as [|k labels]; [reflexivity|exfalso]. destruct fuel as [|fuel].
      * cbn [visit not_end Nat.eqb length negb] in E. discriminate E.
      * rewrite filtered_iteration_no_match in E by (try discriminate; try lia; exact H).
        assert (M : matching (k :: labels) comp = []).
        { unfold matching. assert (F : forall (a : list V) b, ~ In comp b -> filter (fun p => Nat.eqb (snd p) comp) (combine a b) = []).
          { clear. induction a as [|x a IH]; intros [|y b] H; try reflexivity. cbn.
            destruct (Nat.eqb_spec y comp) as [->|N]; [contradiction H; left; reflexivity|].
            apply IH. intros X; apply H; right; exact X. }
          rewrite F by exact H. reflexivity. }
        rewrite M in E. discriminate E.
  - intros ->. exists 0%nat. unfold matching. rewrite combine_nil. reflexivity.
Qed.

(** size() does count the matching elements *)
Theorem filtered_size labels comp : length values = length labels ->
  it_size labels comp 0 = length (matching labels comp).
Proof.
  unfold it_size, matching. cbn [skipn]. rewrite map_length. revert labels.
  induction values as [|x vs IH]; intros [|k labels] H; try discriminate H; [reflexivity|].
  cbn [combine filter snd count_occ]. rewrite IH by (cbn in H; lia).
  destruct (Nat.eq_dec k comp) as [->|N]; [rewrite Nat.eqb_refl; reflexivity|].
  rewrite (proj2 (Nat.eqb_neq k comp) N). reflexivity.
Qed.
End iter.

Example filtered_case : forall fuel,
  snd (visit [7; 8; 7]%nat 8%nat [1; 2; 3]%nat 0%nat fuel 0) = false.
Proof. apply filtered_iteration_diverges_refuted. cbn. auto. Qed.

Print Assumptions correlation_range.
Print Assumptions correlation_symmetric.
Print Assumptions correlation_defined.
Print Assumptions correlation_self.
Print Assumptions correlation_affine.
Print Assumptions correlation_extreme.
Print Assumptions correlation_prefix.
Print Assumptions filtered_iteration_diverges_refuted.
Print Assumptions filtered_iteration_no_match.
Print Assumptions filtered_iteration_correct_iff.
Print Assumptions filtered_size.

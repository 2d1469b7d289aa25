(** Specification and lemmas for the composable functions: meaning of an expression, contract of a
    function, chain rule. *)
From Coq Require Import Reals List Arith Bool Lra Lia.
Import ListNotations.
From Coquelicot Require Import Coquelicot.
From Verif Require Import Mat Quat Jacobians JacobiansProofs NewFunction.
Open Scope R_scope.

Scheme fexp_mut := Induction for fexp Sort Prop with pexp_mut := Induction for pexp Sort Prop.
Combined Scheme expr_ind from fexp_mut, pexp_mut.

(** * Specification *)
(** the meaning of an expression: composition of the functions *)
Fixpoint meaning (g : fexp) (p : vect) (args : list vect) : vect :=
  match g with Base f => f_eval f args | Bind g q => meaning g p (meaning_p q p :: args) end
with meaning_p (q : pexp) (p : vect) : vect :=
  match q with Param s _ => fun i => p (s + i)%nat | Fixed _ v => v | Nested g _ => meaning g p [] end.
(** the positions of the parameters an expression refers to, with repetitions *)
Fixpoint columns (g : fexp) : list nat :=
  match g with Base _ => [] | Bind g q => columns g ++ pcolumns q end
with pcolumns (q : pexp) : list nat :=
  match q with Param s n => seq s n | Fixed _ _ => [] | Nested g _ => columns g end.
(** several curves through several vectors; the derivative of a function of several vectors *)
Fixpoint curves (args : list (nat * vect)) (gs : list (nat -> R -> R)) (es : list vect) : Prop :=
  match args, gs, es with
  | [], [], [] => True
  | (n, v) :: args, g :: gs, e :: es => curve n g v e /\ curves args gs es
  | _, _, _ => False
  end.
Fixpoint total (args : list (nat * vect)) (Js : list mat) (es : list vect) (r : nat) : R :=
  match args, Js, es with
  | (n, _) :: args, J :: Js, e :: es => mvec n J e r + total args Js es r
  | _, _, _ => 0
  end.
Definition at_times (gs : list (nat -> R -> R)) (h : R) : list vect := map (fun g => at_time g h) gs.
(** contract of a function at some parameters (size, value), for left-hand matrices with [rows] rows:
    it has partial Jacobians, and multiplyJacobianK multiplies by the K-th of them *)
Definition contract (rows : nat) (f : func) (args : list (nat * vect)) : Prop :=
  exists Js, length Js = length args /\
  (forall gs es, curves args gs es ->
     curve (f_size f) (fun i h => f_eval f (at_times gs h) i) (f_eval f (map snd args)) (total args Js es)) /\
  (forall k n v J l junk, nth_error args k = Some (n, v) -> nth_error Js k = Some J ->
     meq rows n (f_mulj f k rows l junk (map snd args)) (mmul (f_size f) l J)).
(** every function of an expression fulfils its contract at the values it is called with; at most
    three parameters *)
Fixpoint smooth (rows : nat) (g : fexp) (p : vect) (args : list (nat * vect)) : Prop :=
  match g with
  | Base f => contract rows f args
  | Bind g q => smooth_p rows q p /\ smooth rows g p ((psize q, meaning_p q p) :: args) /\
                ((length args < 2)%nat \/ exists f, g = Base f)
  end
with smooth_p (rows : nat) (q : pexp) (p : vect) : Prop :=
  match q with Param _ _ => True | Fixed _ _ => True | Nested g _ => smooth rows g p [] end.

(** * Caches *)
(** an expression without the cached values *)
Fixpoint shape (g : fexp) : fexp := match g with Base f => Base f | Bind g q => Bind (shape g) (pshape q) end
with pshape (q : pexp) : pexp :=
  match q with Param s n => Param s n | Fixed n v => Fixed n v | Nested g _ => Nested (shape g) (fun _ => 0) end.
(** the cached values belong to the parameter vector *)
Fixpoint current (p : vect) (g : fexp) : Prop := match g with Base f => True | Bind g q => current p g /\ pcurrent p q end
with pcurrent (p : vect) (q : pexp) : Prop :=
  match q with Param s n => True | Fixed n v => True | Nested g m => current p g /\ m = meaning g p [] end.

Lemma shape_ok : (forall g, (forall p args, meaning (shape g) p args = meaning g p args) /\ fsize (shape g) = fsize g /\
    columns (shape g) = columns g /\ fwants (shape g) = fwants g)
  /\ (forall q, (forall p, meaning_p (pshape q) p = meaning_p q p) /\ psize (pshape q) = psize q /\
    pcolumns (pshape q) = pcolumns q /\ pwants (pshape q) = pwants q).
Proof.
  apply expr_ind; cbn.
  - intros f. repeat split.
  - intros g (M & S & C & W) q (M' & S' & C' & W'). repeat split; [|assumption|congruence|congruence].
    intros p args. rewrite M, M'. reflexivity.
  - repeat split.
  - repeat split.
  - intros g (M & S & C & W) m. repeat split; [|assumption..]. intros p. apply M.
Qed.

Lemma value_current q p : pcurrent p q -> value q p = meaning_p q p.
Proof. destruct q; cbn; [reflexivity..|intros [_ ->]; reflexivity]. Qed.

(** evaluation computes the meaning and leaves current caches, whatever they held before *)
Lemma evaluate_ok p :
  (forall g args, fst (i_evaluate g p args) = meaning g p args /\ current p (snd (i_evaluate g p args)) /\
                  shape (snd (i_evaluate g p args)) = shape g) /\
  (forall q, pcurrent p (evaluate_internal q p) /\ pshape (evaluate_internal q p) = pshape q /\
             value (evaluate_internal q p) p = meaning_p q p).
Proof.
  apply expr_ind.
  - cbn. repeat split.
  - intros g IHg q (IC & IS & IV) args. cbn [i_evaluate].
    specialize (IHg (value (evaluate_internal q p) p :: args)). destruct IHg as (E & C & S).
    destruct (i_evaluate g p _) as [d g'] eqn:D. cbn [fst snd] in *. cbn [meaning current shape].
    rewrite E, IV, S, IS. repeat split; assumption.
  - cbn. repeat split.
  - cbn. repeat split.
  - intros g IH m. cbn [evaluate_internal]. specialize (IH []). destruct IH as (E & C & S).
    destruct (i_evaluate g p []) as [d g'] eqn:D. cbn [fst snd] in *. cbn [pcurrent pshape value meaning_p].
    rewrite S. repeat split; [assumption| |assumption]. rewrite E.
    rewrite <- (proj1 (proj1 shape_ok g')), S, (proj1 (proj1 shape_ok g)). reflexivity.
Qed.
Lemma parameters_ok p g : current p (evaluate_parameters g p) /\ shape (evaluate_parameters g p) = shape g.
Proof.
  induction g as [f|g [IC IS] q]; cbn [evaluate_parameters current shape]; [repeat split|].
  destruct (proj2 (evaluate_ok p) q) as (C & S & _). rewrite IS, S. repeat split; assumption.
Qed.

(** * Chain rule *)
Lemma not_wanted : (forall g, fwants g = false -> columns g = []) /\ (forall q, pwants q = false -> pcolumns q = []).
Proof.
  apply expr_ind; cbn; intros; try reflexivity; try discriminate; try auto.
  apply orb_false_iff in H1. destruct H1. rewrite H, H0 by assumption. reflexivity.
Qed.

Lemma NoDup_parts (a b : list nat) : NoDup (a ++ b) -> NoDup a /\ NoDup b /\ forall c, In c a -> In c b -> False.
Proof.
  induction a as [|x a IH]; cbn; intros H; [repeat split; [constructor|assumption|contradiction]|].
  inversion H as [|? ? Hx Ha]; subst. destruct (IH Ha) as (A & B & C). repeat split; [constructor; [|assumption]|assumption|].
  - intros Hi. apply Hx, in_or_app. left; assumption.
  - intros c [<- |Hc] Hb; [apply Hx, in_or_app; right; assumption|exact (C c Hc Hb)].
Qed.

Definition covered (l : list nat) (c : nat) : bool := if in_dec Nat.eq_dec c l then true else false.

Section Chain.
Variables (rows N : nat) (junk : mat) (p : vect).

Definition chain_f (g : fexp) (args : list (nat * vect)) : Prop :=
  exists D Js, length Js = length args /\
  (forall x e gs es, curve N x p e -> curves args gs es ->
     curve (fsize g) (fun i h => meaning g (at_time x h) (at_times gs h) i) (meaning g p (map snd args))
       (fun r => mvec N D e r + total args Js es r)) /\
  (forall k n v J l junk, nth_error args k = Some (n, v) -> nth_error Js k = Some J ->
     meq rows n (multiply_k k g p rows l junk (map snd args)) (mmul (fsize g) l J)) /\
  (forall l j r c, (r < rows)%nat -> multiply g p rows junk l j (map snd args) r c =
     if covered (columns g) c then mmul (fsize g) l D r c else j r c) /\
  (forall r c, covered (columns g) c = false -> D r c = 0).
Definition chain_p (q : pexp) : Prop :=
  exists D,
  (forall x e, curve N x p e ->
     curve (psize q) (fun i h => meaning_p q (at_time x h) i) (meaning_p q p) (mvec N D e)) /\
  (forall l j r c, (r < rows)%nat -> multiply_param q p rows junk l j r c =
     if covered (pcolumns q) c then mmul (psize q) l D r c else j r c) /\
  (forall r c, covered (pcolumns q) c = false -> D r c = 0).

Lemma curve_ext n g g' x x' e e' : curve n g x e -> (forall i h, (i < n)%nat -> g' i h = g i h) ->
  (forall i, (i < n)%nat -> x' i = x i) -> (forall i, (i < n)%nat -> e' i = e i) -> curve n g' x' e'.
Proof.
  intros H G X E i Hi. destruct (H i Hi) as [H0 H1]. split.
  - rewrite G, X by exact Hi. exact H0.
  - apply (is_derive_ext (g i)); [intros t; symmetry; apply G, Hi|]. rewrite E by exact Hi. exact H1.
Qed.

Lemma chain :
  (forall g args, smooth rows g p args -> current p g -> NoDup (columns g) ->
     (forall c, In c (columns g) -> (c < N)%nat) -> chain_f g args) /\
  (forall q, smooth_p rows q p -> pcurrent p q -> NoDup (pcolumns q) ->
     (forall c, In c (pcolumns q) -> (c < N)%nat) -> chain_p q).
Proof.
  apply expr_ind.
  - (* a function *)
    intros f args (Js & L & HD & HM) _ _ _. exists mzero, Js. split; [exact L|]. split; [|split; [|split]].
    + intros x e gs es _ Hc. eapply curve_ext; [apply (HD gs es Hc)|..]; cbn; intros; try reflexivity.
      replace (mvec N mzero e i) with 0; [ring|]. unfold mvec, mzero. symmetry. apply sum_zero. intros; ring.
    + intros. cbn [multiply_k fsize]. eapply HM; eassumption.
    + intros. reflexivity.
    + reflexivity.
  - (* a binder *)
    intros g IHg q IHq args (Sq & Sg & A) (Cg & Cq) ND LT. cbn [columns] in ND, LT.
    destruct (NoDup_parts _ _ ND) as (Ng & Nq & DJ).
    destruct (IHq Sq Cq Nq ltac:(intros; apply LT, in_or_app; right; assumption)) as (Dq & Hq & Mq & Zq).
    destruct (IHg _ Sg Cg Ng ltac:(intros; apply LT, in_or_app; left; assumption)) as (D' & Js' & L & Hg & Kg & Mg & Zg).
    destruct Js' as [|J0 Js]; [discriminate|]. cbn in L. injection L as L.
    set (n := psize q) in *.
    pose proof (value_current q p Cq) as V.
    exists (madd D' (mmul n J0 Dq)), Js. split; [exact L|]. split; [|split; [|split]].
    + intros x e gs es Hx Hc.
      specialize (Hg x e ((fun i h => meaning_p q (at_time x h) i) :: gs) (mvec N Dq e :: es) Hx).
      eapply curve_ext; [apply Hg; split; [apply Hq, Hx|exact Hc]|..]; cbn; intros; try reflexivity.
      rewrite <- (mvec_mmul n N J0 Dq e). unfold mvec, madd.
      rewrite (sum_ext N (fun k => (D' i k + mmul n J0 Dq i k) * e k) (fun k => D' i k * e k + mmul n J0 Dq i k * e k)) by (intros; ring).
      rewrite sum_plus. ring.
    + intros k m v J l junk' Ha HJ. cbn [multiply_k fsize]. rewrite V.
      apply (Kg (S k) m v J l junk'); assumption.
    + intros l j r c Hr. cbn [multiply columns fsize]. rewrite V.
      set (j1 := if (length (map snd args) <? 2)%nat then _ else _).
      assert (E1 : j1 r c = if covered (columns g) c then mmul (fsize g) l D' r c else j r c).
      { unfold j1. rewrite map_length. destruct A as [A|[f ->]].
        - apply Nat.ltb_lt in A. rewrite A. apply (Mg l j r c Hr).
        - cbn [multiply columns]. destruct (length args <? 2)%nat; reflexivity. }
      clearbody j1.
      assert (Z0 : covered (pcolumns q) c = false -> mmul (fsize g) l (madd D' (mmul n J0 Dq)) r c = mmul (fsize g) l D' r c).
      { intros Hc. unfold mmul at 1 3. apply sum_ext. intros k _. f_equal. unfold madd, mmul.
        rewrite sum_zero; [ring|]. intros i _. rewrite Zq by exact Hc. ring. }
      assert (Cov : covered (columns g ++ pcolumns q) c = covered (columns g) c || covered (pcolumns q) c).
      { unfold covered. destruct (in_dec _ c (columns g ++ _)) as [I|I]; destruct (in_dec _ c (columns g)) as [I1|I1];
          destruct (in_dec _ c (pcolumns q)) as [I2|I2]; try reflexivity; exfalso;
          try (apply in_app_or in I; tauto); apply I, in_or_app; tauto. }
      rewrite Cov. destruct (pwants q) eqn:W.
      * rewrite Mq by exact Hr. destruct (covered (pcolumns q) c) eqn:Cq'.
        -- rewrite orb_true_r.
           assert (Zg' : covered (columns g) c = false).
           { unfold covered in *. destruct (in_dec _ c (columns g)); [|reflexivity].
             destruct (in_dec _ c (pcolumns q)); [|discriminate]. exfalso. eapply DJ; eassumption. }
           transitivity (mmul n (mmul (fsize g) l J0) Dq r c).
           ++ unfold mmul at 1 2. apply sum_ext. intros k Hk. f_equal.
              apply (Kg 0%nat n (meaning_p q p) J0 l junk); [reflexivity|reflexivity|exact Hr|exact Hk].
           ++ rewrite mmul_assoc. unfold mmul at 1 3. apply sum_ext. intros k _. unfold madd. rewrite Zg by exact Zg'. ring.
        -- rewrite orb_false_r, E1, Z0 by reflexivity. reflexivity.
      * assert (E : pcolumns q = []) by (apply (proj2 not_wanted), W). rewrite E in *. cbn.
        rewrite orb_false_r, E1, Z0 by reflexivity. reflexivity.
    + intros r c Hc. unfold covered in Hc. cbn [columns] in Hc. destruct (in_dec _ c _) as [|I]; [discriminate|].
      assert (Z1 : covered (columns g) c = false).
      { unfold covered. destruct (in_dec _ c (columns g)); [|reflexivity]. exfalso. apply I, in_or_app; tauto. }
      assert (Z2 : covered (pcolumns q) c = false).
      { unfold covered. destruct (in_dec _ c (pcolumns q)); [|reflexivity]. exfalso. apply I, in_or_app; tauto. }
      unfold madd, mmul. rewrite Zg by exact Z1. rewrite sum_zero; [ring|].
      intros; rewrite Zq by exact Z2; ring.
  - (* a parameter *)
    intros s n _ _ _ LT. cbn [pcolumns] in LT.
    exists (fun r c => if (c =? s + r)%nat then if (r <? n)%nat then 1 else 0 else 0). split; [|split].
    + intros x e Hx i Hi. cbn [psize] in Hi. cbn [meaning_p].
      assert (Hs : (s + i < N)%nat) by (apply LT, in_seq; lia).
      destruct (Hx (s + i)%nat Hs) as [X0 X1]. split; [exact X0|].
      replace (mvec N _ e i) with (e (s + i)%nat); [exact X1|]. unfold mvec. symmetry.
      rewrite (sum_single N _ (s + i)%nat); [|exact Hs|].
      * apply Nat.ltb_lt in Hi. rewrite Nat.eqb_refl, Hi. ring.
      * intros k _ Hk. apply Nat.eqb_neq in Hk. rewrite Hk. ring.
    + intros l j r c Hr. cbn [multiply_param pcolumns psize]. unfold store, covered.
      apply Nat.ltb_lt in Hr. rewrite Hr, andb_true_r.
      destruct (in_dec _ c (seq s n)) as [I|I]; rewrite in_seq in I.
      * replace ((s <=? c)%nat && (c <? s + n)%nat) with true
          by (symmetry; apply andb_true_iff; rewrite Nat.leb_le, Nat.ltb_lt; exact I).
        unfold mmul. rewrite (sum_single n _ (c - s)%nat); [|lia|].
        -- replace (c =? s + (c - s))%nat with true by (symmetry; apply Nat.eqb_eq; lia).
           replace (c - s <? n)%nat with true by (symmetry; apply Nat.ltb_lt; lia). ring.
        -- intros k _ Hk. replace (c =? s + k)%nat with false by (symmetry; apply Nat.eqb_neq; lia). ring.
      * replace ((s <=? c)%nat && (c <? s + n)%nat) with false; [reflexivity|].
        symmetry. apply andb_false_iff. rewrite Nat.leb_gt, Nat.ltb_ge. lia.
    + intros r c Hc. unfold covered in Hc. cbn [pcolumns] in Hc. destruct (in_dec _ c (seq s n)) as [|I]; [discriminate|].
      rewrite in_seq in I. destruct (c =? s + r)%nat eqn:E; [|reflexivity]. apply Nat.eqb_eq in E.
      destruct (r <? n)%nat eqn:F; [|reflexivity]. apply Nat.ltb_lt in F. lia.
  - (* a constant *)
    intros n v _ _ _ _. exists mzero. split; [|split].
    + intros x e _ i _. cbn [meaning_p]. split; [reflexivity|].
      replace (mvec N mzero e i) with 0; [apply (is_derive_const (v i) 0)|].
      unfold mvec, mzero. symmetry. apply sum_zero. intros; ring.
    + reflexivity.
    + reflexivity.
  - (* a nested expression *)
    intros g IH m Sg (Cg & _) ND LT. destruct (IH [] Sg Cg ND LT) as (D & Js & L & Hg & _ & Mg & Zg).
    exists D. split; [|split].
    + intros x e Hx. cbn [psize meaning_p]. eapply curve_ext; [apply (Hg x e [] [] Hx I)|..]; cbn; intros; try reflexivity. ring.
    + intros. apply Mg. assumption.
    + exact Zg.
Qed.
End Chain.

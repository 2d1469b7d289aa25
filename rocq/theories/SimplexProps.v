(** C23: downhill simplex search. *)
From Coq Require Import Reals List Bool Arith Lia Lra.
Import ListNotations.
From Verif Require Import Mat Simplex SimplexProofs LevMarq LevMarqProofs.
Open Scope R_scope.

(** the state after any number of passes, seen from the outside *)
Theorem simplex_state_coherent : forall n f normalize term fuel x s,
  (1 <= n)%nat ->
  downhill_simplex n f normalize term fuel x = Simplex.Running s ->
  (forall i, (i <= n)%nat -> val s i = f (vertex s i)) /\
  (forall j, psum s j = sum (S n) (fun i => vertex s i j)) /\
  (forall q, In q (seen s) -> exists i, (i <= n)%nat /\ f (vertex s i) <= f q).
Proof.
  intros n f normalize term fuel x s Hn H.
  pose proof (loop_ok n Hn f normalize term fuel _ (initial_coherent n Hn f normalize x)) as HL.
  unfold downhill_simplex in H. rewrite H in HL. destruct HL as ([A B C] & _). auto.
Qed.
Print Assumptions simplex_state_coherent.

(** one pass never loses the best value: every vertex value of the old state is matched or
    beaten by a vertex of the new one *)
Theorem simplex_best_monotone : forall n f normalize s,
  (1 <= n)%nat -> coherent n f s ->
  let s' := Simplex.step n f normalize s in
  coherent n f s' /\ (forall i, (i <= n)%nat -> exists k, (k <= n)%nat /\ f (vertex s' k) <= f (vertex s i)).
Proof.
  intros n f normalize s Hn HC s'. destruct (step_ok n Hn f normalize s HC) as (HC' & NW & _).
  split; [exact HC'|]. intros i Hi. destruct (NW i Hi) as (k & Hk & L). exists k. split; [exact Hk|].
  unfold s'. rewrite <- (coh_val _ _ _ HC' k Hk), <- (coh_val _ _ _ HC i Hi). exact L.
Qed.
Print Assumptions simplex_best_monotone.

(** the returned value is the value of the returned point and the minimum over all points that
    were evaluated during the search, the start included *)
Theorem simplex_returns_best_seen : forall n f normalize term fuel x p y s,
  (1 <= n)%nat ->
  downhill_simplex n f normalize term fuel x = Simplex.Done p y s ->
  y = f p /\ (forall q, In q (seen s) -> y <= f q) /\ In x (seen s) /\ y <= f x.
Proof.
  intros n f normalize term fuel x p y s Hn H.
  pose proof (loop_ok n Hn f normalize term fuel _ (initial_coherent n Hn f normalize x)) as HL.
  unfold downhill_simplex in H. rewrite H in HL. destruct HL as (_ & _ & E & M & _).
  assert (HX : In x (seen s)).
  { eapply seen_grows_loop; [|exact H]. cbn. left. reflexivity. }
  split; [exact E|]. split; [exact M|]. split; [exact HX|]. apply M, HX.
Qed.
Print Assumptions simplex_returns_best_seen.

(** the selection of vertices is what its comments say *)
Theorem simplex_selection : forall n y lo hi nhi, (1 <= n)%nat -> pick n y = (lo, hi, nhi) ->
  (lo <= n /\ hi <= n /\ nhi <= n /\ hi <> nhi)%nat /\
  (forall i, (i <= n)%nat -> y lo <= y i <= y hi) /\
  (forall i, (i <= n)%nat -> i <> hi -> y i <= y nhi).
Proof.
  intros n y lo hi nhi Hn H. pose proof (pick_spec n Hn y) as HP. rewrite H in HP.
  destruct HP as (A & B & C & D & _ & F & G & I). split; [auto|]. split.
  - intros i Hi. split; [apply F|apply G]; lia.
  - intros i Hi. apply I. lia.
Qed.
Print Assumptions simplex_selection.

(** the trial point lies on the line through the highest vertex and the centroid of the others *)
Theorem simplex_trial_point : forall n f s k fac j, (1 <= n)%nat -> (k <= n)%nat -> coherent n f s ->
  trial n (fun v => v) s k fac j =
  face_centroid n (vertex s) k j + fac * (vertex s k j - face_centroid n (vertex s) k j).
Proof. intros n f s k fac j Hn. apply trial_geometry. exact Hn. Qed.
Print Assumptions simplex_trial_point.

(** with a positive limit the search ends after at most that many passes *)
Theorem simplex_terminates_within_limit : forall n f normalize limit prec fuel x s,
  (1 <= n)%nat -> (0 < limit)%nat -> (limit < fuel)%nat ->
  downhill_simplex n f normalize (fun it lo hi => opt_terminate limit prec it (Some lo) (Some hi)) fuel x
    <> Simplex.Running s.
Proof.
  intros n f normalize limit prec fuel x s Hn Hl Hf H.
  unfold downhill_simplex in H.
  set (term := fun it lo hi => _) in H.
  assert (G : forall fuel s0, coherent n f s0 -> (limit < nfunk s0 + fuel)%nat -> (0 < fuel)%nat ->
     forall s, Simplex.loop n f normalize term fuel s0 <> Simplex.Running s).
  { clear - Hn Hl. induction fuel as [|fuel IH]; intros s0 HC Hlt Hpos s; [lia|]. cbn [Simplex.loop].
    destruct (pick n (val s0)) as [[ilo ihi] inhi].
    destruct (term (nfunk s0) (val s0 ilo) (val s0 ihi)) eqn:T; [discriminate|].
    destruct (step_ok n Hn f normalize s0 HC) as (HC' & _ & NF).
    assert (Hs : (nfunk s0 < limit)%nat).
    { destruct (Nat.lt_ge_cases (nfunk s0) limit) as [L|L]; [exact L|]. exfalso.
      unfold term in T. rewrite opt_terminate_limit in T by assumption. discriminate. }
    apply IH; [exact HC'|lia|lia]. }
  exact (G fuel (Simplex.initial n f normalize x) (initial_coherent n Hn f normalize x) ltac:(cbn; lia) ltac:(lia) s H).
Qed.
Print Assumptions simplex_terminates_within_limit.

(** the starting simplex: the start itself and, for each parameter, the start with this parameter enlarged by 48.529 percent *)
Theorem simplex_start_points : forall n f x j, let s := Simplex.initial n f (fun v => v) x in
  vertex s 0%nat j = x j /\
  (forall k, (k < n)%nat -> vertex s (S k) j - x j = if (j =? k)%nat then 48529 / 100000 * x k else 0).
Proof.
  intros n f x j. cbn [Simplex.initial vertex start_vertex]. split; [reflexivity|]. intros k _. unfold set. destruct (Nat.eqb_spec j k) as [->|]; lra.
Qed.
Print Assumptions simplex_start_points.
(** ... so a parameter that starts at zero makes the simplex flat, and the search never leaves that plane: whatever
    the function and the number of passes, the parameter stays exactly zero *)
Theorem simplex_zero_start_refuted : forall n f term fuel x k, (1 <= n)%nat -> (k < n)%nat -> x k = 0 ->
  match downhill_simplex n f (fun v => v) term fuel x with
  | Simplex.Done p _ _ => p k = 0
  | Simplex.Running s => forall i, (i <= n)%nat -> vertex s i k = 0
  end.
Proof.
  intros n f term fuel x k Hn Hk X. unfold downhill_simplex.
  set (flat := fun s : Simplex.state => (forall i, (i <= n)%nat -> vertex s i k = 0) /\ psum s k = 0).
  assert (I0 : flat (Simplex.initial n f (fun v => v) x)).
  { assert (V : forall i, vertex (Simplex.initial n f (fun v => v) x) i k = 0).
    { intros [|i]; cbn [Simplex.initial vertex start_vertex]; [exact X|]. unfold set. destruct (Nat.eqb_spec k i) as [<-|]; rewrite X; ring. }
    split; [intros i _; apply V|]. cbn [Simplex.initial psum]. unfold rowsum. rewrite (sum_ext _ _ (fun _ => 0)) by (intros i _; apply V).
    apply sum_zero. reflexivity. }
  assert (AT : forall s i fac, flat s -> (i <= n)%nat -> flat (fst (attempt n f (fun v => v) s i fac))).
  { intros s i fac [V P] Hi. unfold attempt. assert (T : trial n (fun v => v) s i fac k = 0) by (unfold trial; rewrite P, (V i Hi); ring).
    destruct (Simplex.Rltb _ _); cbn [fst]; [|split; assumption]. split; cbn [vertex psum].
    - intros l Hl. unfold set. destruct (Nat.eqb_spec l i); [exact T|apply V, Hl].
    - rewrite T, P, (V i Hi). ring. }
  assert (ST : forall s, flat s -> flat (Simplex.step n f (fun v => v) s)).
  { intros s F. unfold Simplex.step. destruct (pick n (val s)) as [[lo hi] nhi] eqn:PK.
    destruct (simplex_selection n _ lo hi nhi Hn PK) as ((H1 & H2 & H3 & _) & _).
    assert (FC : flat (count s (nfunk s + 2))) by exact F.
    pose proof (AT _ hi (-1) FC H2) as F1. destruct (attempt n f (fun v => v) (count s (nfunk s + 2)) hi (-1)) as [s1 y1]. cbn [fst] in F1.
    destruct (Rleb y1 (val s1 lo)); [apply AT; assumption|]. destruct (Rleb (val s1 nhi) y1); [|exact F1].
    pose proof (AT _ hi (1 / 2) F1 H2) as F2. destruct (attempt n f (fun v => v) s1 hi (1 / 2)) as [s2 y2]. cbn [fst] in F2.
    destruct (Rleb _ y2); [|exact F2]. destruct F2 as [V P].
    assert (W : forall i, (i <= n)%nat -> contract_vertex (fun v => v) s2 lo i k = 0).
    { intros i Hi. unfold contract_vertex. destruct (i =? lo)%nat; [apply V, Hi|]. rewrite (V i Hi), (V lo H1). ring. }
    split; [exact W|]. cbn [contract psum]. unfold rowsum. rewrite (sum_ext _ _ (fun _ => 0)) by (intros i Hi; apply W; lia). apply sum_zero. reflexivity. }
  generalize (Simplex.initial n f (fun v => v) x), I0. induction fuel as [|fuel IH]; intros s F; cbn [Simplex.loop]; [exact (proj1 F)|].
  destruct (pick n (val s)) as [[lo hi] nhi] eqn:PK. destruct (simplex_selection n _ lo hi nhi Hn PK) as ((H1 & _) & _).
  destruct (term _ _ _); [apply (proj1 F), H1|]. apply IH, ST, F.
Qed.
Print Assumptions simplex_zero_start_refuted.
(** f x = |x - 1| from zero: the minimum is one step away, but any call that returns returns zero *)
Example simplex_zero_case : forall term fuel, match downhill_simplex 1 (fun v => Rabs (v 0%nat - 1)) (fun v => v) term fuel (fun _ => 0) with
  | Simplex.Done p y _ => p 0%nat = 0 /\ y = 1 | Simplex.Running _ => True end.
Proof.
  intros term fuel. pose proof (simplex_zero_start_refuted 1 (fun v => Rabs (v 0%nat - 1)) term fuel (fun _ => 0) 0 ltac:(lia) ltac:(lia) eq_refl) as Z.
  destruct (downhill_simplex _ _ _ _ _ _) as [p y s|s] eqn:E; [|exact I]. split; [exact Z|].
  rewrite (proj1 (simplex_returns_best_seen _ _ _ _ _ _ _ _ _ (le_n 1) E)), Z, Rabs_left; lra.
Qed.
(** the contraction halves the distance of every vertex from the best one, which stays *)
Theorem simplex_contraction : forall n f s lo i j,
  vertex (contract n f (fun v => v) s lo) i j - vertex s lo j = (vertex s i j - vertex s lo j) / 2.
Proof.
  intros n f s lo i j. cbn [contract vertex]. unfold contract_vertex. destruct (Nat.eqb_spec i lo) as [->|]; lra.
Qed.
Print Assumptions simplex_contraction.

(** a search that stops: one dimension, f x = |x|, at most one pass *)
Example simplex_case :
  exists p y s, downhill_simplex 1 (fun v => Rabs (v 0%nat)) (fun v => v)
    (fun it lo hi => opt_terminate 1 0 it (Some lo) (Some hi)) 2 (fun _ => 1) = Simplex.Done p y s.
Proof.
  destruct (downhill_simplex 1 (fun v => Rabs (v 0%nat)) (fun v => v)
    (fun it lo hi => opt_terminate 1 0 it (Some lo) (Some hi)) 2 (fun _ => 1)) as [p y s|s] eqn:E.
  - eauto.
  - exfalso. revert E. apply simplex_terminates_within_limit; lia.
Qed.

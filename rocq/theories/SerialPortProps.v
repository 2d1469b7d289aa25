(** C40: life cycle of the serial port's descriptor. *)
Require Import List ZArith Bool Lia.
From Verif Require Import SerialPort.
Import ListNotations.
Open Scope Z_scope.

Lemma lookup_cons d p t :
  lookup d (p :: t) = if fst p =? d then Some (snd p) else lookup d t.
Proof. unfold lookup. simpl. destruct (fst p =? d); reflexivity. Qed.

Lemma lookup_remove d e t :
  lookup d (remove e t) = if e =? d then None else lookup d t.
Proof.
  induction t as [|[x o] t IH].
  - simpl. destruct (e =? d); reflexivity.
  - unfold remove. simpl filter. fold (remove e t).
    destruct (Z.eqb_spec x e) as [E|E]; cbn [negb].
    + rewrite IH, lookup_cons. cbn [fst snd]. subst x.
      destruct (e =? d); reflexivity.
    + rewrite !lookup_cons, IH. cbn [fst snd].
      destruct (Z.eqb_spec x d); destruct (Z.eqb_spec e d); try reflexivity. congruence.
Qed.

Lemma in_held d s : In d (held s) <-> In (d, Port) (table s).
Proof.
  unfold held. rewrite in_map_iff. split.
  - intros ((x & o) & <- & H). apply filter_In in H. destruct H as [H E].
    destruct o; [exact H|discriminate].
  - intros H. exists (d, Port). split; [reflexivity|]. apply filter_In. auto.
Qed.

Lemma run_app s a b :
  run s (a ++ b) = let (s1, e1) := run s a in let (s2, e2) := run s1 b in (s2, e1 ++ e2).
Proof.
  revert s. induction a as [|o a IH]; intros s.
  - simpl. destruct (run s b). reflexivity.
  - simpl. destruct (step s o) as [s1 e1]. rewrite IH.
    destruct (run s1 a) as [s2 e2]. destruct (run s2 b) as [s3 e3].
    rewrite app_assoc. reflexivity.
Qed.

(** Invariant while close has not been called and every open that obtained a
    descriptor finished: the table has no duplicates, an open port's descriptor
    is in the table and its own, and it holds no other. *)
Definition good (s : state) : Prop :=
  NoDup (map fst (table s)) /\
  if port_open s
  then exists d, fd s = Some d /\ forall e, In (e, Port) (table s) <-> e = d
  else forall e, ~ In (e, Port) (table s).

Lemma lookup_in d o t : NoDup (map fst t) -> (lookup d t = Some o <-> In (d, o) t).
Proof.
  induction t as [|[x q] t IH]; intros Hn.
  - simpl. split; [discriminate|tauto].
  - rewrite lookup_cons. cbn [fst snd]. inversion Hn as [|? ? Hx Ht]; subst.
    destruct (Z.eqb_spec x d) as [->|E].
    + split.
      * intros H. injection H as ->. left. reflexivity.
      * intros [H|H]; [congruence|]. exfalso. apply Hx.
        change d with (fst (d, o)). apply in_map, H.
    + rewrite IH by exact Ht. split; [right; assumption|].
      intros [H|H]; [congruence|exact H].
Qed.

Lemma lookup_none d t : lookup d t = None -> ~ In d (map fst t).
Proof.
  intros H Hin. apply in_map_iff in Hin. destruct Hin as ((x & o) & <- & Hin).
  unfold lookup in H. cbn [fst] in H.
  destruct (find (fun p => fst p =? x) t) as [p|] eqn:E; [discriminate|].
  apply (find_none _ _ E) in Hin. cbn [fst] in Hin. rewrite Z.eqb_refl in Hin. discriminate.
Qed.

Lemma nodup_remove d t : NoDup (map fst t) -> NoDup (map fst (remove d t)).
Proof.
  induction t as [|[x o] t IH]; intros H; [constructor|].
  cbn [map fst] in H. inversion H as [|? ? Hx Ht]; subst. unfold remove. simpl filter.
  fold (remove d t). destruct (x =? d); cbn [negb]; [apply IH, Ht|].
  cbn [map fst]. constructor; [|apply IH, Ht].
  intros Hin. apply Hx. apply in_map_iff in Hin. destruct Hin as (p & E & Hin).
  unfold remove in Hin. apply filter_In in Hin. apply in_map_iff. exists p. tauto.
Qed.

Lemma in_remove d p t : In p (remove d t) <-> In p t /\ fst p <> d.
Proof.
  unfold remove. rewrite filter_In. split.
  - intros [H E]. split; [exact H|]. intros He. apply Z.eqb_eq in He. rewrite He in E. discriminate.
  - intros [H E]. split; [exact H|]. apply Z.eqb_neq in E. rewrite E. reflexivity.
Qed.

Definition no_close (e : event) : Prop := match e with Closed _ _ => False | _ => True end.

Lemma step_good s o :
  good s -> o <> Close -> configured o ->
  (match o with
   | Open _ (Some d) _ _ => port_open s = true \/ lookup d (table s) = None
   | OtherOpens d => lookup d (table s) = None
   | OtherCloses d => lookup d (table s) = Some Other
   | _ => True
   end) ->
  good (fst (step s o)) /\ Forall no_close (snd (step s o)).
Proof.
  intros [Hn Hg] Hc Hf Hs.
  destruct o as [baud result g st| | | | | | |d|d]; try contradiction;
    try (cbn [step]; unfold checked; destruct (port_open s) eqn:E;
         cbn [fst snd]; (split; [split; [exact Hn|rewrite E; exact Hg]|repeat constructor]); fail).
  - cbn [step]. destruct (port_open s) eqn:E.
    { cbn [fst snd]. split; [split; [exact Hn|rewrite E; exact Hg]|constructor]. }
    destruct baud; cbn [negb].
    2:{ cbn [fst snd]. split; [split; [exact Hn|rewrite E; exact Hg]|repeat constructor]. }
    destruct result as [d|].
    2:{ cbn [fst snd]. split; [split; [exact Hn|exact Hg]|repeat constructor]. }
    cbn [configured] in Hf. rewrite Hf. cbn [fst snd].
    destruct Hs as [Hs|Hs]; [discriminate|].
    split; [|constructor]. split; cbn [table port_open].
    + cbn [map fst]. constructor; [apply lookup_none, Hs|exact Hn].
    + exists d. split; [reflexivity|]. intros e. split.
      * intros [H|H]; [congruence|]. exfalso. apply (Hg e H).
      * intros ->. left. reflexivity.
  - cbn [step fst snd]. split; [|constructor]. split; cbn [table port_open fd].
    + cbn [map fst]. constructor; [apply lookup_none, Hs|exact Hn].
    + destruct (port_open s).
      * destruct Hg as (x & Hx & Hg). exists x. split; [exact Hx|]. intros e. rewrite <- Hg.
        split; [intros [H|H]; [congruence|exact H]|right; assumption].
      * intros e [H|H]; [congruence|]. apply (Hg e H).
  - cbn [step fst snd]. split; [|constructor]. apply lookup_in in Hs; [|exact Hn].
    split; cbn [table port_open fd].
    + apply nodup_remove, Hn.
    + destruct (port_open s).
      * destruct Hg as (x & Hx & Hg). exists x. split; [exact Hx|]. intros e.
        rewrite in_remove. cbn [fst]. rewrite Hg. split; [tauto|].
        intros ->. split; [reflexivity|]. intros ->.
        assert (Hp : In (d, Port) (table s)) by (apply Hg; reflexivity).
        apply lookup_in in Hs; [|exact Hn]. apply lookup_in in Hp; [|exact Hn]. congruence.
      * intros e H. apply in_remove in H. apply (Hg e), H.
Qed.

Lemma run_good l : forall s,
  good s -> ~ In Close l -> Forall configured l -> sane s l ->
  good (fst (run s l)) /\ Forall no_close (snd (run s l)).
Proof.
  induction l as [|o l IH]; intros s Hg Hc Hf Hs; [split; [exact Hg|constructor]|].
  cbn [run]. cbn [sane] in Hs. destruct Hs as [Hs1 Hs2].
  inversion Hf as [|? ? Hf1 Hf2]; subst.
  assert (Ho : o <> Close) by (intros ->; apply Hc; left; reflexivity).
  destruct (step_good s o Hg Ho Hf1 Hs1) as [Hg1 He1].
  destruct (step s o) as [s1 e1] eqn:E1. cbn [fst snd] in *.
  assert (Hc2 : ~ In Close l) by (intros H; apply Hc; right; exact H).
  destruct (IH s1 Hg1 Hc2 Hf2 Hs2) as [Hg2 He2].
  destruct (run s1 l) as [s2 e2]. cbn [fst snd] in *.
  split; [exact Hg2|]. apply Forall_app. auto.
Qed.

Lemma start_good others : NoDup others -> good (start others).
Proof.
  intros H. split.
  - cbn. rewrite map_map. cbn. rewrite map_id. exact H.
  - cbn. intros e Hin. apply in_map_iff in Hin. destruct Hin as (x & E & _). discriminate.
Qed.

(** As long as [close] is called only by the destructor and no [open] fails
    half-way, an object closes exactly the descriptor it opened, once, never a
    descriptor of anybody else, and leaves none behind. *)
Theorem serial_one_session others l :
  NoDup others -> ~ In Close l -> Forall configured l -> sane (start others) l ->
  let (s, ev) := life others l in
  held s = [] /\
  (forall d o, In (Closed d o) ev -> o = Some Port) /\
  (length (filter (fun e => match e with Closed _ _ => true | _ => false end) ev) <= 1)%nat.
Proof.
  intros Hn Hc Hf Hs. unfold life. rewrite run_app.
  destruct (run_good l _ (start_good others Hn) Hc Hf Hs) as [[Hg1 Hg2] He].
  destruct (run (start others) l) as [s ev]. cbn [fst snd] in *.
  assert (F : filter (fun e => match e with Closed _ _ => true | _ => false end) ev = []).
  { clear - He. induction He as [|e ev H _ IH]; [reflexivity|].
    simpl. destruct e; [contradiction|exact IH|exact IH]. }
  assert (NC : forall d o, ~ In (Closed d o) ev).
  { intros d o Hin. rewrite Forall_forall in He. apply (He _ Hin). }
  cbn [run step]. destruct (port_open s).
  - destruct Hg2 as (x & Hx & Hg2). rewrite Hx. cbn [app].
    split; [|split].
    + destruct (held _) as [|d r] eqn:E; [reflexivity|].
      assert (Hin : In d (held (St true (Some x) (remove x (table s))))) by (rewrite E; left; reflexivity).
      apply in_held in Hin. cbn [table] in Hin. apply in_remove in Hin. cbn [fst] in Hin.
      destruct Hin as [Hin Hne]. apply Hg2 in Hin. contradiction.
    + intros d o Hin. apply in_app_or in Hin. destruct Hin as [Hin|Hin]; [exfalso; apply (NC _ _ Hin)|].
      destruct Hin as [Hin|[]]. injection Hin as <- <-.
      apply lookup_in; [exact Hg1|]. apply Hg2. reflexivity.
    + rewrite filter_app, F. simpl. lia.
  - cbn [app]. rewrite app_nil_r. split; [|split].
    + destruct (held s) as [|d r] eqn:E; [reflexivity|].
      exfalso. apply (Hg2 d). apply in_held. rewrite E. left. reflexivity.
    + intros d o Hin. exfalso. apply (NC _ _ Hin).
    + rewrite F. simpl. lia.
Qed.

Example serial_one_session_case :
  let l := [OtherOpens 5; Open true (Some 3) true true; Send; OtherCloses 5; Read] in
  sane (start [0; 1; 2]) l /\ snd (life [0; 1; 2] l) = [Used (Some 3); Used (Some 3); Closed 3 (Some Port)].
Proof. vm_compute. repeat split; auto. Qed.

(** Reading and sending are refused unless the port has been opened. *)
Theorem serial_refused_unless_open s o :
  In o [Send; Read; BytesOnRead] ->
  snd (step s o) = [Threw] <-> port_open s = false.
Proof.
  intros H. assert (E : step s o = checked s) by (destruct H as [<-|[<-|[<-|[]]]]; reflexivity).
  rewrite E. unfold checked. destruct (port_open s); split; intros; try discriminate; reflexivity.
Qed.

(** Calling [close] is enough to break it, because the destructor closes
    again: whatever else got the freed descriptor in between loses it. *)
Theorem serial_double_close_refuted d others :
  NoDup others -> ~ In d others ->
  let l := [Open true (Some d) true true; Close; OtherOpens d] in
  sane (start others) l /\ In (Closed d (Some Other)) (snd (life others l)).
Proof.
  intros Hn Hd l.
  assert (L : lookup d (map (fun e => (e, Other)) others) = None).
  { unfold lookup. destruct (find _ _) as [p|] eqn:E; [|reflexivity].
    apply find_some in E. destruct E as [E1 E2]. apply Z.eqb_eq in E2.
    apply in_map_iff in E1. destruct E1 as (x & <- & Hx). cbn [fst] in E2. congruence. }
  assert (R : lookup d (remove d ((d, Port) :: map (fun e => (e, Other)) others)) = None).
  { rewrite lookup_remove, Z.eqb_refl. reflexivity. }
  split.
  - cbn [l sane step fst start port_open table fd negb andb]. repeat split; auto.
  - unfold life. cbn [l run app start step port_open negb andb table fd].
    cbn [snd app]. right. left. f_equal. rewrite lookup_cons. cbn [fst snd].
    rewrite Z.eqb_refl. reflexivity.
Qed.

(** After [close] the port cannot be reopened: [open] returns at once, and data
    go to a descriptor that is closed. *)
Theorem serial_reopen_refuted d e others :
  ~ In d others ->
  let (s, ev) := run (start others)
     [Open true (Some d) true true; Close; Open true (Some e) true true; Send] in
  lookup d (table s) = None /\ held s = [] /\ In (Used (Some d)) ev /\
  port_open s = true.
Proof.
  intros Hd. cbn [run app start step port_open negb andb table fd checked].
  split; [|split; [|split; [right; left; reflexivity|reflexivity]]].
  - rewrite lookup_remove, Z.eqb_refl. reflexivity.
  - destruct (held _) as [|x r] eqn:E; [reflexivity|]. exfalso.
    assert (Hin : In x (held (St true (Some d) (remove d ((d, Port) :: map (fun z => (z, Other)) others)))))
      by (rewrite E; left; reflexivity).
    apply in_held in Hin. cbn [table] in Hin. apply in_remove in Hin. cbn [fst] in Hin.
    destruct Hin as [[Hin|Hin] Hne]; [congruence|].
    apply in_map_iff in Hin. destruct Hin as (z & Hz & _). discriminate.
Qed.

(** An [open] that fails to configure the line leaks its descriptor: the
    destructor does not close it. *)
Theorem serial_failed_open_leaks_refuted d others :
  In d (held (fst (life others [Open true (Some d) false true]))).
Proof. apply in_held. cbn. left. reflexivity. Qed.

(** [flush] and [sendBreak] on a port that was never opened use an
    uninitialised descriptor. *)
Theorem serial_flush_unchecked_refuted others :
  snd (run (start others) [Flush; SendBreak]) = [Used None; Used None].
Proof. reflexivity. Qed.

(** After an [open] for which the system handed out no descriptor they use the -1 it returned; the
    checked operations throw. *)
Theorem serial_flush_after_failed_open_refuted others g s :
  snd (run (start others) [Open true None g s; Flush; SendBreak; Send; Read; BytesOnRead]) =
    [Threw; Used (Some (-1)); Used (Some (-1)); Threw; Threw; Threw] /\
  table (fst (run (start others) [Open true None g s; Flush; SendBreak; Send; Read; BytesOnRead])) = table (start others).
Proof. split; reflexivity. Qed.

Print Assumptions serial_one_session.
Print Assumptions serial_double_close_refuted.
Print Assumptions serial_reopen_refuted.
Print Assumptions serial_failed_open_leaks_refuted.

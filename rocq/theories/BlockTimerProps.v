(** What a block timer measures (C159). *)
From Coq Require Import ZArith NArith List Reals Lia Lra.
Import ListNotations.
From Verif Require Import BlockTimer.
Open Scope Z_scope.

(** the counters at the ends minus the counters at the beginnings, and the number of ends *)
Definition balance (e : event) : Z := match e with Begin c _ => - c | End c => c end.
Definition measured (es : list event) : Z := fold_right (fun e z => balance e + z) 0 es.
Definition ended (es : list event) : Z := fold_right (fun e z => match e with End _ => 1 + z | _ => z end) 0 es.
(** every end belongs to a beginning: [depth] blocks are open at the start and none at the end *)
Fixpoint nested (depth : nat) (es : list event) : Prop :=
  match es with
  | [] => depth = 0%nat
  | Begin _ _ :: es => nested (S depth) es
  | End _ :: es => match depth with O => False | S d => nested d es end
  end.
Definition zsum (l : list Z) : Z := fold_right Z.add 0 l.
Lemma u64_idem z : u64 (u64 z) = u64 z. Proof. unfold u64. apply Z.mod_mod. lia. Qed.
Lemma u64_add a b : u64 (a + u64 b) = u64 (a + b). Proof. unfold u64. apply Zplus_mod_idemp_r. Qed.
Lemma u64_add' a b : u64 (u64 a + b) = u64 (a + b). Proof. unfold u64. apply Zplus_mod_idemp_l. Qed.
Lemma run_account es : forall t, nested (length (open t)) es -> ticks t = u64 (ticks t) -> runs t = u64 (runs t) ->
  ticks (run es t) = u64 (ticks t + measured es - zsum (open t)) /\ runs (run es t) = u64 (runs t + ended es) /\ open (run es t) = [].
Proof.
  induction es as [|e es IH]; intros t N T R.
  - cbn in N. destruct (open t) as [|? ?] eqn:O; [|discriminate]. cbn. rewrite O. split; [rewrite T at 1; f_equal; lia|]. split; [rewrite R at 1; f_equal; lia|reflexivity].
  - cbn [run fold_left]. fold (run es (step t e)). destruct e as [c l|c].
    + cbn [step] in *. destruct (IH (Timer (runs t) (ticks t) (initialized t) (match l with Some _ => if initialized t then location t else l | None => location t end) (c :: open t))) as (A & B & C).
      * cbn [open length]. exact N.
      * exact T.
      * exact R.
      * cbn [ticks runs open initialized] in A, B. split; [rewrite A; f_equal; cbn [measured fold_right balance zsum]; unfold measured, zsum; lia|]. split; [exact B|exact C].
    + cbn [step]. destruct (open t) as [|s rest] eqn:O; [contradiction|]. cbn [add_measurement runs ticks initialized location open].
      destruct (IH (Timer (u64 (runs t + 1)) (u64 (ticks t + u64 (c - s))) true (location t) rest)) as (A & B & C).
      * exact N.
      * cbn [ticks]. rewrite u64_idem. reflexivity.
      * cbn [runs]. rewrite u64_idem. reflexivity.
      * cbn [ticks runs open] in A, B. split; [|split; [|exact C]].
        -- rewrite A. rewrite u64_add. replace (u64 (ticks t + (c - s)) + measured es - zsum rest) with (u64 (ticks t + (c - s)) + (measured es - zsum rest)) by lia. rewrite u64_add'. f_equal. cbn [measured fold_right balance zsum]. unfold measured, zsum. lia.
        -- rewrite B. rewrite u64_add'. f_equal. cbn [ended fold_right]. unfold ended. lia.
Qed.
(** For every properly nested sequence of blocks: the ticks are the time between the beginnings and
    the ends, the runs the number of blocks. *)
Theorem timer_accounting es : nested 0 es -> ticks (run es new) = u64 (measured es) /\ runs (run es new) = u64 (ended es) /\ open (run es new) = [].
Proof. intros N. destruct (run_account es new N eq_refl eq_refl) as (A & B & C). cbn in A, B. split; [rewrite A; f_equal; lia|auto]. Qed.
(** without overlap and with a clock that is not set back, the sum is exact and no longer than the elapsed time *)
Fixpoint sequential (now : Z) (es : list event) : Prop :=
  match es with
  | [] => True
  | Begin s _ :: End e :: es => now <= s /\ s <= e /\ sequential e es
  | _ => False
  end.
Fixpoint last_end (now : Z) (es : list event) : Z := match es with [] => now | End e :: es => last_end e es | _ :: es => last_end now es end.
Lemma sequential_nested es : forall now, sequential now es -> nested 0 es /\ 0 <= measured es <= last_end now es - now.
Proof.
  assert (G : forall n es now, (length es <= n)%nat -> sequential now es -> nested 0 es /\ 0 <= measured es <= last_end now es - now).
  { induction n as [|n IH]; intros [|[s l|e] es'] now L S; cbn [length] in L; try lia; try contradiction.
    - split; [reflexivity|cbn; lia].
    - split; [reflexivity|cbn; lia].
    - destruct es' as [|[|e] es']; cbn [sequential] in S; try contradiction. destruct S as (A & B & S). destruct (IH es' e ltac:(cbn in L; lia) S) as [N M].
      split; [exact N|]. unfold measured in *. cbn [fold_right balance last_end] in *. lia. }
  intros now. exact (G (length es) es now (le_n _)).
Qed.
Theorem timer_sequential es now : sequential now es -> last_end now es - now < 2 ^ 64 -> ticks (run es new) = measured es /\ ticks (run es new) <= last_end now es - now.
Proof.
  intros S B. destruct (sequential_nested es now S) as [N M]. destruct (timer_accounting es N) as (A & _ & _). rewrite A. unfold u64. rewrite Z.mod_small by lia. lia.
Qed.
(** nested blocks of one timer count twice *)
Theorem timer_nested_refuted : let es := [Begin 0 None; Begin 0 None; End 10; End 10] in nested 0 es /\ ticks (run es new) = 20 /\ last_end 0 es = 10.
Proof. cbv zeta. split; [reflexivity|]. split; vm_compute; reflexivity. Qed.
(** a clock set back during the only block gives an astronomical time *)
Theorem timer_set_back_refuted : ticks (run [Begin 10 None; End 9] new) = 2 ^ 64 - 1.
Proof. vm_compute. reflexivity. Qed.
(** once a block has ended, the code location stays *)
Theorem timer_location_fixed es t : initialized t = true -> location (run es t) = location t.
Proof.
  revert t. induction es as [|e es IH]; intros t I; [reflexivity|]. cbn [run fold_left]. fold (run es (step t e)).
  destruct e as [c [l|]|c]; cbn [step]; [|apply (IH (Timer (runs t) (ticks t) (initialized t) (location t) (c :: open t))); exact I|].
  - rewrite I. apply (IH (Timer (runs t) (ticks t) true (location t) (c :: open t))). reflexivity.
  - destruct (open t) as [|s r]; [apply IH; exact I|]. apply (IH (Timer _ _ true (location t) r)). reflexivity.
Qed.
Theorem timer_location_first c e l es : location (run (Begin c (Some l) :: End e :: es) new) = Some l.
Proof. cbn [run fold_left]. fold (run es (step (step new (Begin c (Some l))) (End e))). rewrite timer_location_fixed; reflexivity. Qed.
(** but a block begun inside the first one replaces it *)
Theorem timer_location_refuted : location (run [Begin 0 (Some (1, 10)); Begin 1 (Some (2, 20)); End 2; End 3]%nat new) = Some (2, 20)%nat.
Proof. reflexivity. Qed.
(** the average is the total over the number of runs; before the first run there is none *)
Open Scope R_scope.
Theorem timer_average freq t : 0 < freq -> (runs t <> 0)%Z -> exists a s, avg_time freq t = Some a /\ total_time freq t = Some s /\ a * IZR (runs t) = s.
Proof.
  intros F N. assert (NR : IZR (runs t) <> 0) by (apply not_0_IZR; exact N). unfold avg_time, total_time.
  destruct (Req_EM_T (freq * IZR (runs t)) 0) as [E|_]; [apply Rmult_integral in E; destruct E; [lra|contradiction]|]. destruct (Req_EM_T freq 0); [lra|].
  eexists. eexists. split; [reflexivity|]. split; [reflexivity|]. field. split; assumption.
Qed.
Theorem timer_average_refuted freq : avg_time freq new = None.
Proof. unfold avg_time. cbn. rewrite Rmult_0_r. destruct (Req_EM_T 0 0); [reflexivity|congruence]. Qed.
(** two blocks of 5 and 7 microseconds *)
Example timer_case : let es := [Begin 100 (Some (1, 10)%nat); End 105; Begin 120 None; End 127] in
  nested 0 es /\ sequential 100 es /\ run es new = Timer 2 12 true (Some (1, 10)%nat) [].
Proof. cbv zeta. split; [reflexivity|]. split; [cbn; lia|]. vm_compute. reflexivity. Qed.
Print Assumptions timer_accounting. Print Assumptions timer_sequential. Print Assumptions timer_location_first. Print Assumptions timer_average.

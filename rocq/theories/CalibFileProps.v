(** Calibration files (C168): what is written is read back, and what a failure leaves behind. *)
From Coq Require Import List String Ascii Bool ZArith Arith Lia.
Import ListNotations.
From Verif Require Import CalibFile.

Definition archive_ok (ar : archive) : Prop := forall s, strip ar (header ar ++ s) = Some s.
Definition codec_ok {A} (c : codec A) : Prop := forall a old, dec c (enc c a) old = (a, true).
(** a sequence of writes (their outcomes are looked at elsewhere) *)
Inductive op (A : Type) := Write (f : string) (a : A).
Arguments Write {A}.
Definition target {A} (o : op A) := let (f, _) := o in f.
Definition exec {A} ar noticed (c : codec A) (d : disk) (ops : list (op A)) : disk := fold_left (fun d (o : op A) => let (f, a) := o in fst (write_calib ar noticed c d f a)) ops d.

Lemma write_other {A} ar noticed (c : codec A) d f a g : g <> f -> content (fst (write_calib ar noticed c d f a)) g = content d g.
Proof.
  intros N. unfold write_calib. destruct (may_write d f); [|reflexivity]. cbv zeta. destruct (_ <=? _); cbn; destruct (String.eqb_spec g f); congruence || reflexivity.
Qed.
Lemma write_frame {A} ar noticed (c : codec A) d f a : let d' := fst (write_calib ar noticed c d f a) in
  may_read d' = may_read d /\ may_write d' = may_write d /\ room d' = room d.
Proof. unfold write_calib. destruct (may_write d f); [cbv zeta; destruct (_ <=? _)|]; repeat split. Qed.
Lemma exec_frame {A} ar noticed (c : codec A) ops : forall d, let d' := exec ar noticed c d ops in
  may_read d' = may_read d /\ may_write d' = may_write d /\ room d' = room d.
Proof.
  induction ops as [|[f a] ops IH]; intros d; [repeat split|]. cbn. destruct (IH (fst (write_calib ar noticed c d f a))) as (H1 & H2 & H3). destruct (write_frame ar noticed c d f a) as (K1 & K2 & K3).
  unfold exec in *. cbn zeta in *. repeat split; congruence.
Qed.
Lemma exec_other {A} ar noticed (c : codec A) g ops : (forall o, In o ops -> target o <> g) -> forall d, content (exec ar noticed c d ops) g = content d g.
Proof.
  induction ops as [|[f a] ops IH]; intros N d; [reflexivity|]. cbn. unfold exec in IH. rewrite IH by (intros o Ho; apply N; right; exact Ho). apply write_other. specialize (N (Write f a) (or_introl eq_refl)). cbn in N. congruence.
Qed.

(** C168: after any sequence of writes, to any files, reading gives the value written last to that file, in whatever state the
    variable was before - as long as that file could be opened and there was room for it *)
Theorem calib_last_write {A} ar noticed (c : codec A) d before f a after var : archive_ok ar -> codec_ok c ->
  may_read d f = true -> may_write d f = true -> List.length (header ar ++ enc c a) <= room d -> (forall o, In o after -> target o <> f) ->
  read_calib ar c (exec ar noticed c d (before ++ Write f a :: after)) f var = (a, Done).
Proof.
  intros HA HC MR MW RM N. unfold exec. rewrite fold_left_app. cbn [fold_left]. change (fold_left _ before d) with (exec ar noticed c d before). set (d1 := exec ar noticed c d before).
  destruct (exec_frame ar noticed c before d) as (F1 & F2 & F3). fold d1 in F1, F2, F3. cbn zeta in *.
  set (d2 := fst (write_calib ar noticed c d1 f a)). change (read_calib ar c (exec ar noticed c d2 after) f var = (a, Done)).
  assert (E2 : content d2 f = Some (header ar ++ enc c a)).
  { unfold d2, write_calib. rewrite F2, MW. cbv zeta. rewrite F3. apply Nat.leb_le in RM. rewrite RM. cbn. rewrite String.eqb_refl. reflexivity. }
  destruct (exec_frame ar noticed c after d2) as (G1 & _ & _). destruct (write_frame ar noticed c d1 f a) as (K1 & _ & _). fold d2 in K1. cbn zeta in *.
  unfold read_calib. rewrite (exec_other ar noticed c f after N d2), E2. rewrite G1, K1, F1, MR. rewrite HA, HC. reflexivity.
Qed.
(** C168: other files are never touched, and a file that cannot be opened for writing keeps its contents *)
Theorem calib_write_frame {A} ar noticed (c : codec A) d f a : 
  (forall g, g <> f -> content (fst (write_calib ar noticed c d f a)) g = content d g) /\
  (snd (write_calib ar noticed c d f a) = Throws Ubitrack <-> may_write d f = false) /\
  (may_write d f = false -> fst (write_calib ar noticed c d f a) = d).
Proof.
  split; [intros g; apply write_other|]. unfold write_calib. destruct (may_write d f); [|repeat split; reflexivity]. split; [|discriminate]. cbv zeta. split; [|discriminate].
  destruct (_ <=? _); [discriminate|]. cbn. destruct (noticed _ _); discriminate.
Qed.
(** C168: if the text does not fit, the file holds the beginning of it, as much as there is room for; what was there before is gone *)
Theorem calib_full_disk {A} ar noticed (c : codec A) d f a : may_write d f = true -> room d < List.length (header ar ++ enc c a) ->
  exists t rest, content (fst (write_calib ar noticed c d f a)) f = Some t /\ header ar ++ enc c a = t ++ rest /\ List.length t = room d /\ rest <> [].
Proof.
  intros W L. unfold write_calib. rewrite W. cbv zeta. rewrite (proj2 (Nat.leb_gt _ _)) by exact L. cbn [fst put content]. rewrite String.eqb_refl.
  exists (firstn (room d) (header ar ++ enc c a)), (skipn (room d) (header ar ++ enc c a)). split; [reflexivity|]. split; [symmetry; apply firstn_skipn|].
  split; [apply firstn_length_le; lia|]. intros E. apply (f_equal (@List.length _)) in E. rewrite skipn_length in E. cbn in E. lia.
Qed.
(** C168: the readers for plain data only throw exceptions of this library, and if the file is missing or is not an archive the
    variable is as before *)
Theorem calib_read_failure {A} ar (c : codec A) d f var : 
  (snd (read_calib ar c d f var) <> Throws Foreign) /\
  (content d f = None \/ may_read d f = false \/ (exists s, content d f = Some s /\ strip ar s = None) -> read_calib ar c d f var = (var, Throws Ubitrack)).
Proof.
  unfold read_calib. split.
  - destruct (if may_read d f then content d f else None) as [s|]; [|discriminate]. destruct (strip ar s) as [s'|]; [|discriminate]. destruct (dec c s' var) as [a []]; discriminate.
  - intros [E|[E|(s & E & S)]]; rewrite E; [destruct (may_read d f); reflexivity|reflexivity|]. destruct (may_read d f); [rewrite S|]; reflexivity.
Qed.
(** C168: a measurement is read into a new object: whoever shares the old one sees no change, whatever happens; and what was
    written - time and value - is read back *)
Theorem calib_measurement_fresh {T} ar (c : codec (Z * T)) fresh d f h : 
  let '(h', m, r) := read_measurement ar c fresh d f h in
  pointer m = List.length h /\ (forall p, p < List.length h -> nth_error h' p = nth_error h p) /\ exists v, nth_error h' (pointer m) = Some v.
Proof.
  assert (G : forall t v r, let '(h', m, _) := (h ++ [v], M t (List.length h), r : result) in pointer m = List.length h /\ (forall p, p < List.length h -> nth_error h' p = nth_error h p) /\ exists v : T, nth_error h' (pointer m) = Some v).
  { intros t v r. cbn. split; [reflexivity|]. split; [intros p Hp; apply nth_error_app1, Hp|]. exists v. rewrite nth_error_app2, Nat.sub_diag by lia. reflexivity. }
  unfold read_measurement. destruct (if may_read d f then content d f else None) as [s|]; [|exact (G 0%Z fresh (Throws Ubitrack))]. destruct (strip ar s) as [s'|]; [|exact (G 0%Z fresh (Throws Foreign))]. destruct (dec c s' (0%Z, fresh)) as [[t v] ok]. exact (G t v (if ok then Done else Throws Ubitrack)).
Qed.
Theorem calib_measurement_round_trip {T} ar noticed (c : codec (Z * T)) fresh d f h h2 m v d' r : archive_ok ar -> codec_ok c -> may_read d f = true ->
  nth_error h (pointer m) = Some v -> List.length (header ar ++ enc c (time m, v)) <= room d -> write_measurement ar noticed c d f h m = Some (d', r) -> r = Done ->
  read_measurement ar c fresh d' f h2 = (h2 ++ [v], M (time m) (List.length h2), Done) /\ forall var, read_drop ar c fresh d' f var = (v, Done).
Proof.
  intros HA HC MR HV RM W ->. unfold write_measurement in W. rewrite HV in W. cbn [option_map] in W. injection W as W. unfold write_calib in W. destruct (may_write d f); [|discriminate]. cbv zeta in W.
  apply Nat.leb_le in RM. rewrite RM in W. injection W as <-. unfold read_measurement, read_drop. cbn [may_read content put]. rewrite MR, String.eqb_refl, HA. split; [|intros var]; rewrite HC; reflexivity.
Qed.
(** C168: reading without the time changes the variable only when it succeeds *)
Theorem calib_drop_all_or_nothing {T} ar (c : codec (Z * T)) fresh d f var : snd (read_drop ar c fresh d f var) <> Done -> fst (read_drop ar c fresh d f var) = var.
Proof.
  unfold read_drop. destruct (if may_read d f then content d f else None) as [s|]; [|reflexivity]. destruct (strip ar s) as [s'|]; [|reflexivity]. destruct (dec c s' (0%Z, fresh)) as [[t w] []]; [|reflexivity].
  intros H. exfalso. apply H. reflexivity.
Qed.
(** C168 (refuted for measurements): a failure replaces the measurement in the variable by one with time zero and a new object, and for a
    file that is no archive the exception is not one of this library *)
Theorem calib_measurement_failure_refuted {T} ar (c : codec (Z * T)) fresh d f h : 
  (content d f = None -> read_measurement ar c fresh d f h = (h ++ [fresh], M 0 (List.length h), Throws Ubitrack)) /\
  (forall s, may_read d f = true -> content d f = Some s -> strip ar s = None ->
     read_measurement ar c fresh d f h = (h ++ [fresh], M 0 (List.length h), Throws Foreign) /\ forall var, read_drop ar c fresh d f var = (var, Throws Foreign)).
Proof.
  unfold read_measurement, read_drop. split; [intros ->; destruct (may_read d f); reflexivity|]. intros s -> -> ->. split; [|intros var]; reflexivity.
Qed.

(** a small archive: "!" and one digit *)
Definition bang : archive := Archive ["!"%char] (fun s : bytes => match s with "!"%char :: s => Some s | _ => None end).
Definition bit : codec bool := Codec (fun b : bool => [if b then "1"%char else "0"%char]) (fun (s : bytes) old => match s with "1"%char :: _ => (true, true) | "0"%char :: _ => (false, true) | _ => (old, false) end).
Lemma bang_ok : archive_ok bang. Proof. intros s. reflexivity. Qed.
Lemma bit_ok : codec_ok bit. Proof. intros [] old; reflexivity. Qed.
Definition full (r : nat) : disk := Disk (fun g => if String.eqb g "cal"%string then Some ["!"%char; "1"%char] else None) (fun _ => true) (fun _ => true) r.
(** C168 (refuted): a write that reports no failure may leave a file that cannot be read - the old calibration is lost as well *)
Theorem calib_truncated_refuted : let ar := bang in let c := bit in let d := full 1 in let w := write_calib ar (fun _ _ => false) c d "cal"%string false in
  archive_ok ar /\ codec_ok c /\ read_calib ar c d "cal"%string false = (true, Done) /\ snd w = Done /\ forall var, read_calib ar c (fst w) "cal"%string var = (var, Throws Ubitrack).
Proof. cbv zeta. split; [exact bang_ok|]. split; [exact bit_ok|]. split; [reflexivity|]. split; [reflexivity|]. intros var. reflexivity. Qed.
(** with enough room it is the value written last *)
Example calib_case : read_calib bang bit (exec bang (fun _ _ => false) bit (full 2) ([Write "cal"%string true; Write "other"%string true] ++ Write "cal"%string false :: [Write "other"%string true])) "cal"%string true = (false, Done).
Proof. apply (calib_last_write bang (fun _ _ => false) bit (full 2)); [exact bang_ok|exact bit_ok|reflexivity|reflexivity|cbn; lia|]. intros o [<-|[]]. discriminate. Qed.
Definition timed : codec (Z * bool) := Codec (fun p : Z * bool => (if snd p then "1"%char else "0"%char) :: (if (fst p <? 0)%Z then "-"%char else "+"%char) :: repeat "i"%char (Z.abs_nat (fst p)))
  (fun (s : bytes) old => match s with b :: sg :: l => (((if Ascii.eqb sg "-" then -1 else 1) * Z.of_nat (List.length l), Ascii.eqb b "1")%Z, true) | _ => (old, false) end).
Lemma timed_ok : codec_ok timed.
Proof. intros [z b] old. cbn. rewrite repeat_length, Zabs2Nat.id_abs. f_equal. f_equal; [|destruct b; reflexivity]. destruct (Z.ltb_spec z 0); cbn [Ascii.eqb]; cbn -[Z.mul]; lia. Qed.
Example calib_measurement_case : exists d', write_measurement bang (fun _ _ => false) timed (full 9) "cal"%string [true; false] (M 5 1) = Some (d', Done) /\
  read_measurement bang timed true d' "cal"%string [true] = ([true; false], M 5 1, Done) /\ read_drop bang timed true d' "cal"%string true = (false, Done).
Proof.
  eexists. split; [reflexivity|]. refine (let X := calib_measurement_round_trip bang (fun _ _ => false) timed true (full 9) "cal"%string [true; false] [true] (M 5 1) false _ Done bang_ok timed_ok eq_refl eq_refl _ eq_refl eq_refl in conj (proj1 X) (proj2 X true)).
  apply Nat.leb_le. reflexivity.
Qed.
Print Assumptions calib_last_write.
Print Assumptions calib_write_frame.
Print Assumptions calib_read_failure.
Print Assumptions calib_measurement_fresh.
Print Assumptions calib_measurement_round_trip.
Print Assumptions calib_drop_all_or_nothing.
Print Assumptions calib_measurement_failure_refuted.
Print Assumptions calib_truncated_refuted.

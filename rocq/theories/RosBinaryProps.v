(** C35, C36: the binary serialiser round-trips, predicts its length exactly,
    and never leaves its buffer. *)
Require Import List ZArith Bool Lia.
From Verif Require Import RosBinary RosBinaryProofs.
Import ListNotations.
Open Scope Z_scope.

(** *** C35 *)

Lemma fold_sum (f : val -> Z) (e : val -> list Z) l : forall acc,
  0 <= acc -> (forall x, In x l -> f x = len (e x)) ->
  acc + len (concat (map e l)) < two32 ->
  fold_left (fun size x => u32 (size + f x)) l acc = acc + len (concat (map e l)).
Proof.
  induction l as [|x l IH]; intros acc H0 Hf Hs.
  - simpl. unfold len. simpl. lia.
  - cbn [fold_left map concat] in *. rewrite len_app in *.
    pose proof (len_nonneg _ (e x)). pose proof (len_nonneg _ (concat (map e l))).
    rewrite (Hf x) by (left; reflexivity).
    rewrite u32_small by lia. rewrite IH; try lia.
    intros y Hy. apply Hf. right. exact Hy.
Qed.

Lemma concat_const (e : val -> list Z) l k :
  (forall x, In x l -> len (e x) = k) -> len (concat (map e l)) = len l * k.
Proof.
  induction l as [|x l IH]; intros H; [reflexivity|].
  cbn [map concat]. rewrite len_app, len_cons, (H x), IH; try lia.
  - intros y Hy. apply H. right. exact Hy.
  - left. reflexivity.
Qed.

(** The predicted length is the length of the encoding. *)
Theorem ros_length_exact t v :
  of_type t v -> len (encode t v) < two32 -> max_len t v = len (encode t v).
Proof.
  revert v. induction t as [w| | |t IH|n t IH]; intros v Ht Hf;
    destruct v as [z|b|s|l]; try contradiction.
  - cbn [max_len encode]. unfold len. rewrite le_length. reflexivity.
  - reflexivity.
  - cbn [max_len encode] in *. destruct Ht as [_ Hl]. rewrite len_app in *.
    change (len (le 4 (len s))) with 4 in *. pose proof (len_nonneg _ s).
    rewrite (u32_small (len s)) by lia. apply u32_small. lia.
  - cbn [max_len encode] in *. destruct Ht as [Hl Ht]. rewrite len_app in *.
    change (len (le 4 (len l))) with 4 in *. rewrite Forall_forall in Ht.
    pose proof (len_nonneg _ (concat (map (encode t) l))). pose proof (len_nonneg _ l).
    assert (HI : forall x, In x l -> max_len t x = len (encode t x)).
    { intros x Hx. apply IH; [apply Ht, Hx|].
      pose proof (len_concat_in _ (encode t) l x Hx). lia. }
    destruct t as [w| | |t'|m t'].
    + assert (Hc : len (concat (map (encode (Num w)) l)) = len l * Z.of_nat w).
      { apply concat_const. intros x Hx. specialize (Ht x Hx). destruct x; try contradiction.
        cbn [encode]. unfold len. rewrite le_length. reflexivity. }
      rewrite Hc in *. apply u32_small. lia.
    + assert (Hc : len (concat (map (encode Bool) l)) = len l * 1).
      { apply concat_const. intros x Hx. specialize (Ht x Hx). destruct x; try contradiction.
        reflexivity. }
      rewrite Hc in *. destruct l as [|x l]; [reflexivity|]. cbn [max_len].
      rewrite (u32_small (len (x :: l))) by lia.
      rewrite (u32_small (1 * len (x :: l))) by lia. rewrite u32_small by lia. lia.
    + apply (fold_sum _ (encode Str)); [lia|exact HI|exact Hf].
    + apply (fold_sum _ (encode (Vec t'))); [lia|exact HI|exact Hf].
    + apply (fold_sum _ (encode (Arr m t'))); [lia|exact HI|exact Hf].
  - cbn [max_len encode] in *. destruct Ht as [Hl Ht]. rewrite Forall_forall in Ht.
    assert (Hn : len l = Z.of_nat n) by (unfold len; lia).
    pose proof (len_nonneg _ (concat (map (encode t) l))). pose proof (len_nonneg _ l).
    assert (HI : forall x, In x l -> max_len t x = len (encode t x)).
    { intros x Hx. apply IH; [apply Ht, Hx|].
      pose proof (len_concat_in _ (encode t) l x Hx). lia. }
    destruct t as [w| | |t'|m t'].
    + assert (Hc : len (concat (map (encode (Num w)) l)) = len l * Z.of_nat w).
      { apply concat_const. intros x Hx. specialize (Ht x Hx). destruct x; try contradiction.
        cbn [encode]. unfold len. rewrite le_length. reflexivity. }
      rewrite Hc in *. rewrite <- Hn. apply u32_small. lia.
    + assert (Hc : len (concat (map (encode Bool) l)) = len l * 1).
      { apply concat_const. intros x Hx. specialize (Ht x Hx). destruct x; try contradiction.
        reflexivity. }
      rewrite Hc in *. rewrite <- Hn. destruct l as [|x l]; [reflexivity|].
      cbn [max_len]. rewrite u32_small by lia. lia.
    + apply (fold_sum _ (encode Str)); [lia|exact HI|exact Hf].
    + apply (fold_sum _ (encode (Vec t'))); [lia|exact HI|exact Hf].
    + apply (fold_sum _ (encode (Arr m t'))); [lia|exact HI|exact Hf].
Qed.

(** Serialising at any place of a buffer with exactly the predicted room
    replaces just those bytes by the encoding and leaves the cursor behind it;
    deserialising from there returns the value and consumes exactly the
    predicted number of bytes. *)
Theorem ros_round_trip W t v b pre room rest :
  of_type t v -> len (encode t v) < two32 ->
  len room = max_len t v ->
  placed W (Stm b (pre ++ room ++ rest) (len pre)) ->
  let written := Stm b (pre ++ encode t v ++ rest) (len pre + max_len t v) in
  write W t v (Stm b (pre ++ room ++ rest) (len pre)) = (Ok tt, written) /\
  read W t (Stm b (buf written) (len pre)) = (Ok v, written).
Proof.
  intros Ht Hf Hr Hp written. unfold written. cbn [buf].
  pose proof (ros_length_exact t v Ht Hf) as E. rewrite E in *.
  split.
  - apply write_appends; auto. unfold len in Hr. lia.
  - apply read_yields; auto.
    destruct Hp as (A & B & C). split; [exact A|]. split; [exact B|].
    cbn [base buf] in *. rewrite !len_app in *. lia.
Qed.

(** getLength is the number of bytes left, and shrinks by what was written. *)
Theorem ros_get_length W t v b pre room rest :
  of_type t v -> len (encode t v) < two32 ->
  len room = max_len t v ->
  placed W (Stm b (pre ++ room ++ rest) (len pre)) -> len (pre ++ room ++ rest) < two32 ->
  let s := Stm b (pre ++ room ++ rest) (len pre) in
  get_length s = len room + len rest /\ get_length (snd (write W t v s)) = len rest.
Proof.
  intros Ht Hf Hr Hp Hs s. pose proof (ros_round_trip W t v b pre room rest Ht Hf Hr Hp) as [E _]. unfold s. rewrite E.
  pose proof (ros_length_exact t v Ht Hf) as L. unfold get_length. cbn [buf pos snd].
  rewrite !len_app in *. pose proof (len_nonneg _ pre). pose proof (len_nonneg _ room). pose proof (len_nonneg _ rest).
  split; rewrite u32_small; lia.
Qed.
Print Assumptions ros_get_length.

(** Two messages written one after the other are read back in order. *)
Theorem ros_sequence W t1 v1 t2 v2 b room :
  of_type t1 v1 -> of_type t2 v2 ->
  len (encode t1 v1) < two32 -> len (encode t2 v2) < two32 ->
  len room = max_len t1 v1 + max_len t2 v2 ->
  placed W (Stm b room 0) ->
  exists bytes,
    (_ <- write W t1 v1 ;; write W t2 v2) (Stm b room 0) =
      (Ok tt, Stm b bytes (len room)) /\
    (x <- read W t1 ;; y <- read W t2 ;; ret (x, y)) (Stm b bytes 0) =
      (Ok (v1, v2), Stm b bytes (len room)).
Proof.
  intros T1 T2 F1 F2 Hr Hp. exists (encode t1 v1 ++ encode t2 v2).
  rewrite !ros_length_exact in Hr by auto.
  assert (E : len room = len (encode t1 v1 ++ encode t2 v2)) by (rewrite len_app; lia).
  split.
  - pose proof (appends_bind W _ _ _ _ (write_appends W t1 v1 T1 F1) (write_appends W t2 v2 T2 F2)) as H.
    specialize (H b [] room []). simpl app in H. rewrite !app_nil_r in H.
    change (len []) with 0 in H. rewrite H.
    + f_equal. f_equal. lia.
    + unfold len in E. lia.
    + exact Hp.
  - assert (H : yields W (x <- read W t1 ;; y <- read W t2 ;; ret (x, y))
                  (encode t1 v1 ++ encode t2 v2) (v1, v2)).
    { apply (yields_bind W _ _ _ _ _ _ v1); [apply read_yields; auto|].
      apply (yields_map W _ _ _ (fun y => (v1, y))). apply read_yields; auto. }
    specialize (H b [] []). simpl app in H. rewrite !app_nil_r in H.
    change (len []) with 0 in H. rewrite H.
    + f_equal. f_equal. lia.
    + destruct Hp as (A & B & C). split; [exact A|]. split; [exact B|].
      cbn [base buf] in *. lia.
Qed.

Example ros_example_value : val :=
  VL [VL [VS [104; 105]; VS []]; VL [VS [0]]].
Example ros_example_type : ty := Vec (Vec Str).
Example ros_example_typed : of_type ros_example_type ros_example_value.
Proof. cbn. unfold two32, len. cbn. repeat constructor; lia. Qed.
Example ros_example_run :
  let '(r, s) := write 64 ros_example_type ros_example_value (Stm 4096 (repeat 0 40) 3) in
  r = Ok tt /\ pos s = 3 + max_len ros_example_type ros_example_value /\
  read 64 ros_example_type (Stm 4096 (buf s) 3) = (Ok ros_example_value, s).
Proof. vm_compute. auto. Qed.

(** A string of [2^32] bytes has its length truncated to zero, but all its
    bytes are copied: with a buffer of the predicted length, memory behind the
    buffer is overwritten. *)
Theorem ros_long_string_refuted :
  exists s, Forall (fun b => 0 <= b < 256) s /\ len s = two32 /\
    max_len Str (VS s) = 4 /\
    fst (write 64 Str (VS s) (Stm 4096 [0; 0; 0; 0] 0)) = Bad.
Proof.
  assert (H : exists s, Forall (fun b => 0 <= b < 256) s /\ len s = two32).
  { exists (repeat 0 (Z.to_nat two32)). split.
    - apply Forall_forall. intros x Hx. apply repeat_spec in Hx. lia.
    - unfold len. rewrite repeat_length. apply Z2Nat.id. unfold two32. lia. }
  destruct H as (s & Hb & Hl). exists s. split; [exact Hb|]. split; [exact Hl|].
  cbn [max_len write]. rewrite Hl. split; [reflexivity|].
  change (u32 two32) with 0. change (0 <? two32) with true. cbv iota.
  unfold bind at 1. change (write_num 64 4 0 {| base := 4096; buf := [0; 0; 0; 0]; pos := 0 |})
    with (Ok tt, Stm 4096 [0; 0; 0; 0] 4). cbv iota beta.
  unfold bind. change (advance 64 0 {| base := 4096; buf := [0; 0; 0; 0]; pos := 4 |})
    with (Ok 4, Stm 4096 [0; 0; 0; 0] 4). cbv iota beta.
  unfold store. rewrite Hl. cbn [buf].
  change (0 <=? 4) with true. change (4 + two32 <=? len [0; 0; 0; 0]) with false.
  reflexivity.
Qed.

(** *** C36 *)

Lemma chunks_typed w n bs :
  (w <= 8)%nat -> Forall (fun b => 0 <= b < 256) bs ->
  Forall (of_type (Num w)) (chunks w n bs).
Proof.
  intros Hw. revert bs. induction n as [|n IH]; intros bs Hb; [constructor|].
  cbn [chunks]. constructor.
  - split; [exact Hw|].
    pose proof (unle_range _ (sublist_bytes 0 w bs Hb)) as H. cbn [skipn] in H.
    assert (len (firstn w bs) <= Z.of_nat w) by (unfold len; rewrite firstn_length; lia).
    pose proof (Z.pow_le_mono_r 256 (len (firstn w bs)) (Z.of_nat w) ltac:(lia) ltac:(lia)). lia.
  - apply IH. apply Forall_forall. intros x Hx. rewrite Forall_forall in Hb. apply Hb.
    rewrite <- (firstn_skipn w bs). apply in_or_app. right. exact Hx.
Qed.

Lemma bulk_safe W w n d :
  (w <= 8)%nat -> 0 <= d < two32 ->
  safe W (read_bulk W w n d) (fun l => length l = n /\ Forall (of_type (Num w)) l).
Proof.
  intros Hw Hd. unfold read_bulk. apply safe_chunk; [exact Hd|]. intros bs Hl Hb.
  apply safe_ret. split.
  - generalize (bs ++ repeat 0 (n * w - Z.to_nat d)). clear.
    induction n as [|n IH]; intros l; [reflexivity|]. cbn [chunks length]. f_equal. apply IH.
  - apply chunks_typed; [exact Hw|]. apply Forall_app. split; [exact Hb|].
    apply Forall_forall. intros x Hx. apply repeat_spec in Hx. lia.
Qed.

Lemma read_safe W t : ty_ok t -> safe W (read W t) (of_type t).
Proof.
  induction t as [w| | |t IH|n t IH]; intros Ht; cbn [read].
  - apply (safe_bind W _ _ _ _ _ _ (safe_num W w Ht)). intros z Hz. apply safe_ret.
    split; [exact Ht|exact Hz].
  - apply safe_chunk; [unfold two32; lia|]. intros bs _ _. apply safe_ret. exact I.
  - apply (safe_bind W _ _ _ _ _ _ (safe_num W 4 ltac:(lia))). intros n Hn.
    rewrite <- two32_256 in Hn.
    destruct (Z.ltb_spec 0 n).
    + apply safe_chunk; [lia|]. intros bs Hl Hb. apply safe_ret. split; [exact Hb|lia].
    + apply safe_ret. split; [constructor|reflexivity].
  - cbn [ty_ok] in Ht.
    apply (safe_bind W _ _ _ _ _ _ (safe_num W 4 ltac:(lia))). intros n Hn.
    rewrite <- two32_256 in Hn.
    destruct (simple t) as [w|] eqn:Es.
    + destruct t; try discriminate. injection Es as ->.
      destruct (Z.ltb_spec 0 n).
      * apply (safe_bind W _ _ _ _ _ _ (bulk_safe W w (Z.to_nat n) _ Ht (u32_range _))).
        intros l [Hl HF]. apply safe_ret. split; [unfold len; lia|exact HF].
      * apply safe_ret. split; [reflexivity|constructor].
    + apply (safe_bind W _ _ _ _ _ _ (safe_times W (Z.to_nat n) _ _ (IH Ht))).
      intros l [Hl HF]. apply safe_ret. split; [unfold len; lia|exact HF].
  - cbn [ty_ok] in Ht. destruct Ht as [Hn Ht].
    destruct (simple t) as [w|] eqn:Es.
    + destruct t; try discriminate. injection Es as ->.
      apply (safe_bind W _ _ _ _ _ _ (bulk_safe W w n _ Ht (u32_range _))).
      intros l [Hl HF]. apply safe_ret. split; [exact Hl|exact HF].
    + apply (safe_bind W _ _ _ _ _ _ (safe_times W n _ _ (IH Ht))).
      intros l [Hl HF]. apply safe_ret. split; [exact Hl|exact HF].
Qed.

(** Whatever the bytes, as long as no 32-bit length added to a pointer into the
    buffer wraps around the address space: deserialising touches only bytes of
    the buffer, leaves them unchanged, and if it succeeds returns a well-typed
    value with the cursor inside the buffer. *)
Theorem ros_read_safe W t s :
  ty_ok t -> inside s -> roomy W s -> bytes_ok s ->
  match read W t s with
  | (Ok v, s') => of_type t v /\ inside s' /\ pos s <= pos s' /\ buf s' = buf s
  | (Overrun, s') => buf s' = buf s
  | (Bad, _) => False
  end.
Proof.
  intros Ht Hi Hr Hb. pose proof (read_safe W t Ht s Hi Hr Hb) as (N & _ & E & H).
  destruct (read W t s) as [[v| |] s']; cbn [fst snd] in *.
  - destruct (H v eq_refl) as (A & B & C). auto.
  - exact E.
  - apply N. reflexivity.
Qed.

Example ros_read_safe_case :
  let s := Stm 4096 [255; 255; 255; 255; 1; 2] 0 in
  inside s /\ roomy 64 s /\ bytes_ok s /\ fst (read 64 Str s) = Overrun.
Proof.
  cbn. unfold inside, roomy, bytes_ok, two32, len. cbn.
  repeat split; try lia. repeat constructor; lia.
Qed.

(** Serialising into a buffer that is too small raises the exception: no byte
    outside the buffer and no byte before the cursor changes. *)
Theorem ros_write_safe W t v s :
  of_type t v -> inside s -> roomy W s ->
  match write W t v s with
  | (Ok _, s') => inside s' /\ pos s <= pos s' /\ len (buf s') = len (buf s) /\
                  firstn (Z.to_nat (pos s)) (buf s') = firstn (Z.to_nat (pos s)) (buf s)
  | (Overrun, s') => len (buf s') = len (buf s) /\
                  firstn (Z.to_nat (pos s)) (buf s') = firstn (Z.to_nat (pos s)) (buf s)
  | (Bad, _) => False
  end.
Proof.
  intros Ht Hi Hr.
  assert (G : guarded W (write W t v)).
  { clear s Hi Hr. revert v Ht.
    induction t as [w| | |t IH|n t IH]; intros v Ht;
      destruct v as [z|b|q|l]; try contradiction; cbn [write].
    - apply guarded_num. apply Ht.
    - apply guarded_chunk; [reflexivity|unfold two32; lia].
    - destruct Ht as [_ Hl]. pose proof (len_nonneg _ q).
      apply guarded_bind; [apply guarded_num; lia|].
      destruct (Z.ltb_spec 0 (len q)).
      + apply guarded_chunk; rewrite u32_small by lia; [reflexivity|lia].
      + apply guarded_ret.
    - destruct Ht as [Hl Ht]. pose proof (len_nonneg _ l).
      apply guarded_bind; [apply guarded_num; lia|].
      destruct (simple t) as [w|] eqn:Es.
      + destruct t; try discriminate. injection Es as ->.
        destruct (Z.ltb_spec 0 (len l)); [|apply guarded_ret].
        apply guarded_bulk; [apply u32_range|].
        rewrite (u32_small (len l)) by lia.
        replace (len (image w l)) with (len l * Z.of_nat w)
          by (unfold len; rewrite image_length; lia).
        apply Z.mod_le; [nia|reflexivity].
      + apply guarded_iter. intros x Hx. apply IH. rewrite Forall_forall in Ht. apply Ht, Hx.
    - destruct Ht as [Hl Ht].
      destruct (simple t) as [w|] eqn:Es.
      + destruct t; try discriminate. injection Es as ->.
        apply guarded_bulk; [apply u32_range|].
        replace (len (image w l)) with (Z.of_nat n * Z.of_nat w)
          by (unfold len; rewrite image_length; lia).
        apply Z.mod_le; [nia|reflexivity].
      + apply guarded_iter. intros x Hx. apply IH. rewrite Forall_forall in Ht. apply Ht, Hx. }
  destruct (G s Hi Hr) as (N & _ & L & F & H).
  destruct (write W t v s) as [[[]| |] s']; cbn [fst snd] in *; auto.
  destruct (H eq_refl). auto.
Qed.

(** After an overrun the cursor stays behind the end and every further access
    overruns too, until the address itself would wrap. *)
Theorem ros_overrun_sticky W n m s s1 :
  placed W s -> inside s -> 0 <= n -> 0 <= m ->
  base s + pos s + n + m < 2 ^ W ->
  advance W n s = (Overrun, s1) -> fst (advance W m s1) = Overrun.
Proof.
  intros (A & B & C) Hi Hn Hm Hw H. unfold inside in Hi. unfold advance in H.
  rewrite Z.mod_small in H by lia.
  destruct (Z.ltb_spec (base s + len (buf s)) (base s + pos s + n)) as [L|L]; [|discriminate].
  injection H as <-. unfold advance. cbn [base buf pos].
  rewrite Z.mod_small by lia.
  destruct (Z.ltb_spec (base s + len (buf s)) (base s + (base s + pos s + n - base s) + m));
    [reflexivity|lia].
Qed.

Example ros_overrun_sticky_case :
  placed 64 (Stm 4096 [1] 0) /\ inside (Stm 4096 [1] 0) /\
  advance 64 8 (Stm 4096 [1] 0) = (Overrun, Stm 4096 [1] 8).
Proof. unfold placed, inside, len. cbn. repeat split; lia. Qed.

(** With 32-bit pointers the check can be defeated: a string length near
    [2^32] wraps the cursor back below the end and the copy leaves the
    buffer. *)
Theorem ros_read_32bit_refuted :
  exists s, placed 32 s /\ inside s /\ bytes_ok s /\ fst (read 32 Str s) = Bad.
Proof.
  exists (Stm 2147483648 [252; 255; 255; 255] 0).
  split; [|split; [|split; [|vm_compute; reflexivity]]].
  - unfold placed, len. cbn. lia.
  - unfold inside, len. cbn. lia.
  - unfold bytes_ok. cbn. repeat constructor; lia.
Qed.

(** The byte count of a vector of numbers is a 32-bit product: four bytes
    announcing [2^29] doubles are accepted as a vector of [2^29] elements,
    though no element is in the buffer. *)
Theorem ros_vector_phantom_refuted :
  exists s, placed 64 s /\ inside s /\ bytes_ok s /\ len (buf s) = 4 /\
    exists l s', read 64 (Vec (Num 8)) s = (Ok (VL l), s') /\ len l = 536870912.
Proof.
  exists (Stm 4096 [0; 0; 0; 32] 0).
  split; [unfold placed, len; cbn; lia|]. split; [unfold inside, len; cbn; lia|].
  split; [unfold bytes_ok; cbn; repeat constructor; lia|]. split; [reflexivity|].
  cbn [read simple].
  unfold bind at 1.
  change (read_num 64 4 {| base := 4096; buf := [0; 0; 0; 32]; pos := 0 |})
    with (Ok 536870912, Stm 4096 [0; 0; 0; 32] 4). cbv iota beta.
  change (0 <? 536870912) with true. cbv iota.
  change (u32 (Z.of_nat 8 * 536870912)) with 0.
  unfold bind at 1. unfold read_bulk. unfold bind at 1.
  change (advance 64 0 {| base := 4096; buf := [0; 0; 0; 32]; pos := 4 |})
    with (Ok 4, Stm 4096 [0; 0; 0; 32] 4). cbv iota beta.
  unfold bind at 1.
  change (load 4 0 {| base := 4096; buf := [0; 0; 0; 32]; pos := 4 |})
    with (Ok (@nil Z), Stm 4096 [0; 0; 0; 32] 4). cbv iota beta.
  assert (H : forall n, exists l,
     chunks 8 n ([] ++ repeat 0 (n * 8 - Z.to_nat 0)) = l /\ length l = n).
  { intros n. eexists. split; [reflexivity|].
    generalize ([] ++ repeat 0 (n * 8 - Z.to_nat 0)). clear.
    induction n as [|n IH]; intros l; [reflexivity|]. cbn [chunks length]. f_equal. apply IH. }
  destruct (H (Z.to_nat 536870912)) as (l & E & L). exists l, (Stm 4096 [0; 0; 0; 32] 4).
  unfold ret. rewrite E. split; [reflexivity|].
  unfold len. rewrite L. apply Z2Nat.id. lia.
Qed.

Print Assumptions ros_length_exact.
Print Assumptions ros_round_trip.
Print Assumptions ros_sequence.
Print Assumptions ros_long_string_refuted.
Print Assumptions ros_read_safe.
Print Assumptions ros_write_safe.
Print Assumptions ros_overrun_sticky.
Print Assumptions ros_read_32bit_refuted.
Print Assumptions ros_vector_phantom_refuted.

(** Lemmas about the binary serialiser (RosBinary.v). *)
Require Import List ZArith Bool Lia.
From Verif Require Import RosBinary.
Import ListNotations.
Open Scope Z_scope.

Lemma len_app A (a b : list A) : len (a ++ b) = len a + len b.
Proof. unfold len. rewrite app_length. lia. Qed.

Lemma len_nonneg A (a : list A) : 0 <= len a.
Proof. unfold len. lia. Qed.

Lemma len_cons A (x : A) a : len (x :: a) = 1 + len a.
Proof. unfold len. simpl length. lia. Qed.

Lemma len_nat A (a : list A) : Z.to_nat (len a) = length a.
Proof. unfold len. lia. Qed.

Lemma u32_small z : 0 <= z < two32 -> u32 z = z.
Proof. intros H. apply Z.mod_small. exact H. Qed.

Lemma u32_range z : 0 <= u32 z < two32.
Proof. apply Z.mod_pos_bound. reflexivity. Qed.

Lemma le_length w z : length (le w z) = w.
Proof. revert z. induction w; intros z; simpl; congruence. Qed.

Lemma unle_le w z : 0 <= z < 256 ^ Z.of_nat w -> unle (le w z) = z.
Proof.
  revert z. induction w as [|w IH]; intros z H.
  - change (256 ^ Z.of_nat 0) with 1 in H. simpl. lia.
  - cbn [le unle]. rewrite IH.
    + pose proof (Z.div_mod z 256 ltac:(lia)). lia.
    + rewrite Nat2Z.inj_succ, Z.pow_succ_r in H by lia.
      split; [apply Z.div_pos; lia|]. apply Z.div_lt_upper_bound; lia.
Qed.

Lemma le_bytes w z : Forall (fun b => 0 <= b < 256) (le w z).
Proof.
  revert z. induction w as [|w IH]; intros z; simpl; constructor; auto.
  apply Z.mod_pos_bound. lia.
Qed.

Lemma unle_range l : Forall (fun b => 0 <= b < 256) l -> 0 <= unle l < 256 ^ len l.
Proof.
  induction 1 as [|b l Hb Hl IH].
  - simpl. unfold len. simpl. lia.
  - rewrite len_cons, Z.pow_add_r by (try lia; apply len_nonneg). cbn [unle].
    change (256 ^ 1) with 256. nia.
Qed.

Section W.
Variable W : Z.

Definition appends (m : M unit) (bs : list Z) : Prop :=
  forall b pre old rest,
    length old = length bs ->
    placed W (Stm b (pre ++ old ++ rest) (len pre)) ->
    m (Stm b (pre ++ old ++ rest) (len pre)) =
    (Ok tt, Stm b (pre ++ bs ++ rest) (len pre + len bs)).

Definition yields {A} (m : M A) (bs : list Z) (a : A) : Prop :=
  forall b pre rest,
    placed W (Stm b (pre ++ bs ++ rest) (len pre)) ->
    m (Stm b (pre ++ bs ++ rest) (len pre)) =
    (Ok a, Stm b (pre ++ bs ++ rest) (len pre + len bs)).

Lemma advance_in n b bs p :
  placed W (Stm b bs p) -> 0 <= p -> 0 <= n -> p + n <= len bs ->
  advance W n (Stm b bs p) = (Ok p, Stm b bs (p + n)).
Proof.
  intros (HW & Hb & Hp) H0 Hn H. unfold advance. cbn [base buf pos] in *.
  rewrite Z.mod_small by lia.
  destruct (Z.ltb_spec (b + len bs) (b + p + n)); [lia|].
  f_equal. f_equal. lia.
Qed.

Lemma load_in b pre bs rest p q :
  p = len pre -> q = len bs ->
  load p q (Stm b (pre ++ bs ++ rest) (len pre + len bs)) =
  (Ok bs, Stm b (pre ++ bs ++ rest) (len pre + len bs)).
Proof.
  intros -> ->. unfold load. cbn [buf].
  pose proof (len_nonneg _ pre). pose proof (len_nonneg _ rest).
  rewrite !len_app.
  replace (0 <=? len pre) with true by (symmetry; apply Z.leb_le; lia).
  replace (len pre + len bs <=? len pre + (len bs + len rest)) with true
    by (symmetry; apply Z.leb_le; lia).
  cbn [andb]. rewrite !len_nat.
  replace (skipn (length pre) (pre ++ bs ++ rest)) with (bs ++ rest).
  - rewrite firstn_app, firstn_all, Nat.sub_diag. simpl. rewrite app_nil_r. reflexivity.
  - rewrite skipn_app, skipn_all, Nat.sub_diag. reflexivity.
Qed.

Lemma store_in b pre old bs rest q :
  length old = length bs ->
  store (len pre) bs (Stm b (pre ++ old ++ rest) q) =
  (Ok tt, Stm b (pre ++ bs ++ rest) q).
Proof.
  intros Hl. unfold store. cbn [buf base pos].
  assert (E : len old = len bs) by (unfold len; lia).
  pose proof (len_nonneg _ pre). pose proof (len_nonneg _ rest).
  rewrite !len_app, E.
  replace (0 <=? len pre) with true by (symmetry; apply Z.leb_le; lia).
  replace (len pre + len bs <=? len pre + (len bs + len rest)) with true
    by (symmetry; apply Z.leb_le; lia).
  cbn [andb]. rewrite len_nat. f_equal. f_equal.
  rewrite firstn_app, firstn_all, Nat.sub_diag. simpl firstn. rewrite app_nil_r.
  f_equal. f_equal.
  rewrite skipn_app. rewrite skipn_all2 by lia.
  replace (length pre + length bs - length pre)%nat with (length bs) by lia.
  rewrite skipn_app. rewrite <- Hl, skipn_all, Nat.sub_diag. reflexivity.
Qed.

Lemma appends_chunk n bs :
  n = len bs -> appends (p <- advance W n ;; store p bs) bs.
Proof.
  intros -> b pre old rest Hl Hp. unfold bind.
  assert (E : len old = len bs) by (unfold len; lia).
  pose proof (len_nonneg _ pre). pose proof (len_nonneg _ rest). pose proof (len_nonneg _ bs).
  rewrite advance_in; auto; try (rewrite !len_app; lia).
  rewrite store_in by exact Hl. reflexivity.
Qed.

Lemma yields_chunk n bs :
  n = len bs -> yields (p <- advance W n ;; load p n) bs bs.
Proof.
  intros -> b pre rest Hp. unfold bind.
  pose proof (len_nonneg _ pre). pose proof (len_nonneg _ rest). pose proof (len_nonneg _ bs).
  rewrite advance_in; auto; try (rewrite !len_app; lia).
  apply load_in; reflexivity.
Qed.

Lemma appends_ret : appends (ret tt) [].
Proof.
  intros b pre old rest Hl Hp. destruct old; [|discriminate]. unfold ret.
  f_equal. f_equal. unfold len. simpl. lia.
Qed.

Lemma yields_ret A (a : A) : yields (ret a) [] a.
Proof.
  intros b pre rest Hp. unfold ret. f_equal. f_equal. unfold len. simpl. lia.
Qed.

Lemma appends_bind m1 m2 b1 b2 :
  appends m1 b1 -> appends m2 b2 -> appends (_ <- m1 ;; m2) (b1 ++ b2).
Proof.
  intros H1 H2 b pre old rest Hl Hp. rewrite app_length in Hl. unfold bind.
  rewrite <- (firstn_skipn (length b1) old) in Hp |- *.
  assert (L1 : length (firstn (length b1) old) = length b1) by (rewrite firstn_length; lia).
  assert (L2 : length (skipn (length b1) old) = length b2) by (rewrite skipn_length; lia).
  set (o1 := firstn (length b1) old) in *. set (o2 := skipn (length b1) old) in *.
  clearbody o1 o2. rewrite <- app_assoc in Hp |- *.
  rewrite H1 by auto.
  specialize (H2 b (pre ++ b1) o2 rest L2).
  rewrite <- !app_assoc, !len_app in H2. rewrite H2.
  - f_equal. rewrite <- app_assoc. f_equal. rewrite !len_app. lia.
  - destruct Hp as (A & B & C). split; [exact A|split; [exact B|]].
    cbn [base buf] in *. rewrite !len_app in *.
    assert (len o1 = len b1) by (unfold len; lia). lia.
Qed.

Lemma yields_bind A B (m : M A) (k : A -> M B) b1 b2 a r :
  yields m b1 a -> yields (k a) b2 r -> yields (bind m k) (b1 ++ b2) r.
Proof.
  intros H1 H2 b pre rest Hp. unfold bind.
  rewrite <- app_assoc in Hp |- *. rewrite H1 by auto.
  specialize (H2 b (pre ++ b1) rest).
  rewrite <- !app_assoc, !len_app in H2. rewrite H2 by exact Hp.
  f_equal. f_equal. rewrite !len_app. lia.
Qed.

Lemma yields_map A B (m : M A) (f : A -> B) bs a :
  yields m bs a -> yields (x <- m ;; ret (f x)) bs (f a).
Proof.
  intros H. rewrite <- (app_nil_r bs).
  apply (yields_bind _ _ _ (fun x => ret (f x)) bs [] a); [exact H|apply yields_ret].
Qed.

Lemma yields_ext A (m m' : M A) bs a :
  (forall s, m s = m' s) -> yields m bs a -> yields m' bs a.
Proof. intros E H b pre rest Hp. rewrite <- E. apply H, Hp. Qed.

Lemma bind_assoc A B C (m : M A) (k : A -> M B) (h : B -> M C) s :
  bind (bind m k) h s = bind m (fun a => bind (k a) h) s.
Proof. unfold bind. destruct (m s) as [[a| |] s']; reflexivity. Qed.

Lemma yields_num w z :
  0 <= z < 256 ^ Z.of_nat w -> yields (read_num W w) (le w z) z.
Proof.
  intros H. unfold read_num.
  eapply yields_ext. { intros s. apply bind_assoc. }
  rewrite <- (unle_le w z) at 2 by exact H.
  apply yields_map. apply yields_chunk. unfold len. rewrite le_length. reflexivity.
Qed.

Lemma appends_num w z : appends (write_num W w z) (le w z).
Proof. apply appends_chunk. unfold len. rewrite le_length. reflexivity. Qed.

Lemma image_encode w l :
  Forall (of_type (Num w)) l -> image w l = concat (map (encode (Num w)) l).
Proof.
  intros H. unfold image. f_equal. apply map_ext_in. intros v Hv.
  rewrite Forall_forall in H. specialize (H v Hv). destruct v; try contradiction. reflexivity.
Qed.

Lemma image_length w l : length (image w l) = (length l * w)%nat.
Proof.
  unfold image. induction l as [|v l IH]; [reflexivity|].
  simpl. rewrite app_length, le_length, IH. reflexivity.
Qed.

Lemma chunks_image w l :
  Forall (of_type (Num w)) l -> chunks w (length l) (image w l) = l.
Proof.
  induction 1 as [|v l Hv Hl IH]; [reflexivity|].
  destruct v as [z| | |]; try contradiction. cbn [length chunks]. destruct Hv as [_ Hz].
  unfold image. cbn [map concat num_of].
  rewrite firstn_app, le_length, Nat.sub_diag, firstn_all2 by (rewrite le_length; lia).
  cbn [firstn]. rewrite app_nil_r, unle_le by exact Hz. f_equal.
  rewrite skipn_app, le_length, Nat.sub_diag, skipn_all2 by (rewrite le_length; lia).
  exact IH.
Qed.

Lemma appends_bulk w l n :
  n = len (image w l) -> appends (write_bulk W w l n) (image w l).
Proof.
  intros ->. unfold write_bulk. rewrite len_nat, firstn_all. apply appends_chunk. reflexivity.
Qed.

Lemma yields_bulk w l n :
  Forall (of_type (Num w)) l -> n = len (image w l) ->
  yields (read_bulk W w (length l) n) (image w l) l.
Proof.
  intros H ->.
  pose (f := fun bs => chunks w (length l)
             (bs ++ repeat 0 (length l * w - Z.to_nat (len (image w l))))).
  assert (E : f (image w l) = l).
  { unfold f. rewrite len_nat, image_length, Nat.sub_diag. simpl. rewrite app_nil_r.
    apply chunks_image, H. }
  cut (yields (read_bulk W w (length l) (len (image w l))) (image w l) (f (image w l))).
  { rewrite E. exact (fun x => x). }
  unfold read_bulk. eapply yields_ext. { intros s. apply bind_assoc. }
  apply (yields_map _ _ _ f). apply yields_chunk. reflexivity.
Qed.

(** The whole encoding fits a 32-bit count. *)
Definition fits (t : ty) (v : val) : Prop := len (encode t v) < two32.

Lemma len_concat_in A (f : A -> list Z) l x :
  In x l -> len (f x) <= len (concat (map f l)).
Proof.
  induction l as [|y l IH]; [intros []|]. intros [->|H]; simpl; rewrite len_app.
  - pose proof (len_nonneg _ (concat (map f l))). lia.
  - specialize (IH H). pose proof (len_nonneg _ (f y)). lia.
Qed.

Lemma appends_iter (f : val -> M unit) e l :
  (forall x, In x l -> appends (f x) (e x)) ->
  appends (iter f l) (concat (map e l)).
Proof.
  induction l as [|x l IH]; intros H; [apply appends_ret|].
  cbn [iter map concat]. apply appends_bind; [apply H; left; reflexivity|].
  apply IH. intros y Hy. apply H. right. exact Hy.
Qed.

Lemma yields_times (f : M val) e l :
  (forall x, In x l -> yields f (e x) x) ->
  yields (times (length l) f) (concat (map e l)) l.
Proof.
  induction l as [|x l IH]; intros H; [apply yields_ret|].
  cbn [times length map concat].
  apply (yields_bind _ _ f _ (e x) _ x); [apply H; left; reflexivity|].
  apply (yields_map _ _ _ (fun r => x :: r)).
  apply IH. intros y Hy. apply H. right. exact Hy.
Qed.

Lemma two32_256 : two32 = 256 ^ Z.of_nat 4.
Proof. reflexivity. Qed.

Lemma write_appends t : forall v,
  of_type t v -> fits t v -> appends (write W t v) (encode t v).
Proof.
  induction t as [w| | |t IH|n t IH]; intros v Ht Hf;
    destruct v as [z|b|s|l]; try contradiction; unfold fits in Hf.
  - apply appends_num.
  - apply appends_chunk. reflexivity.
  - cbn [write encode] in *. destruct Ht as [Hb Hl].
    rewrite u32_small by (pose proof (len_nonneg _ s); lia).
    apply appends_bind; [apply appends_num|].
    destruct (Z.ltb_spec 0 (len s)).
    + apply appends_chunk. reflexivity.
    + destruct s; [apply appends_ret|]. rewrite len_cons in *. pose proof (len_nonneg _ s). lia.
  - cbn [write encode] in *. destruct Ht as [Hl Ht].
    rewrite u32_small by (pose proof (len_nonneg _ l); lia).
    apply appends_bind; [apply appends_num|].
    assert (Hc : len (concat (map (encode t) l)) < two32).
    { rewrite len_app in Hf. pose proof (len_nonneg _ (le 4 (len l))). lia. }
    destruct (simple t) as [w|] eqn:Es.
    + destruct t; try discriminate. injection Es as ->.
      rewrite <- image_encode in Hc |- * by exact Ht.
      assert (E : len l * Z.of_nat w = len (image w l)).
      { unfold len. rewrite image_length. lia. }
      destruct (Z.ltb_spec 0 (len l)).
      * apply appends_bulk. rewrite E. apply u32_small.
        pose proof (len_nonneg _ (image w l)). lia.
      * destruct l; [apply appends_ret|]. rewrite len_cons in *. pose proof (len_nonneg _ l). lia.
    + apply appends_iter. intros x Hx. apply IH.
      * rewrite Forall_forall in Ht. apply Ht, Hx.
      * unfold fits. pose proof (len_concat_in _ (encode t) l x Hx). lia.
  - cbn [write encode] in *. destruct Ht as [Hl Ht].
    destruct (simple t) as [w|] eqn:Es.
    + destruct t; try discriminate. injection Es as ->.
      rewrite <- image_encode in Hf |- * by exact Ht.
      apply appends_bulk. rewrite u32_small.
      * unfold len. rewrite image_length, <- Hl. lia.
      * unfold len in Hf. rewrite image_length in Hf. lia.
    + apply appends_iter. intros x Hx. apply IH.
      * rewrite Forall_forall in Ht. apply Ht, Hx.
      * unfold fits. pose proof (len_concat_in _ (encode t) l x Hx). lia.
Qed.

Lemma read_yields t : forall v,
  of_type t v -> fits t v -> yields (read W t) (encode t v) v.
Proof.
  induction t as [w| | |t IH|n t IH]; intros v Ht Hf;
    destruct v as [z|b|s|l]; try contradiction; unfold fits in Hf.
  - cbn [read encode]. apply (yields_map _ _ _ VN). apply yields_num. apply Ht.
  - cbn [read encode]. eapply yields_ext. { intros q. apply bind_assoc. }
    replace (VB b) with (VB (negb (nth 0 [if b then 1 else 0] 0 =? 0)))
      by (destruct b; reflexivity).
    apply (yields_map _ _ _ (fun bs => VB (negb (nth 0 bs 0 =? 0)))).
    apply yields_chunk. reflexivity.
  - cbn [read encode] in *. destruct Ht as [Hb Hl].
    apply (yields_bind _ _ _ _ _ _ (len s)).
    { apply yields_num. rewrite <- two32_256. pose proof (len_nonneg _ s). lia. }
    destruct (Z.ltb_spec 0 (len s)).
    + eapply yields_ext. { intros q. apply bind_assoc. }
      apply (yields_map _ _ _ VS). apply yields_chunk. reflexivity.
    + destruct s; [apply yields_ret|]. rewrite len_cons in *. pose proof (len_nonneg _ s). lia.
  - cbn [read encode] in *. destruct Ht as [Hl Ht].
    apply (yields_bind _ _ _ _ _ _ (len l)).
    { apply yields_num. rewrite <- two32_256. pose proof (len_nonneg _ l). lia. }
    assert (Hc : len (concat (map (encode t) l)) < two32).
    { rewrite len_app in Hf. pose proof (len_nonneg _ (le 4 (len l))). lia. }
    destruct (simple t) as [w|] eqn:Es.
    + destruct t; try discriminate. injection Es as ->.
      rewrite <- image_encode in Hc |- * by exact Ht.
      assert (E : len l * Z.of_nat w = len (image w l)).
      { unfold len. rewrite image_length. lia. }
      destruct (Z.ltb_spec 0 (len l)).
      * apply (yields_map _ _ _ VL). rewrite len_nat. apply yields_bulk; [exact Ht|].
        rewrite Z.mul_comm, E. apply u32_small. pose proof (len_nonneg _ (image w l)). lia.
      * destruct l; [apply yields_ret|]. rewrite len_cons in *. pose proof (len_nonneg _ l). lia.
    + apply (yields_map _ _ _ VL). rewrite len_nat. apply yields_times. intros x Hx. apply IH.
      * rewrite Forall_forall in Ht. apply Ht, Hx.
      * unfold fits. pose proof (len_concat_in _ (encode t) l x Hx). lia.
  - cbn [read encode] in *. destruct Ht as [Hl Ht]. subst n.
    destruct (simple t) as [w|] eqn:Es.
    + destruct t; try discriminate. injection Es as ->.
      rewrite <- image_encode in Hf |- * by exact Ht.
      apply (yields_map _ _ _ VL). apply yields_bulk; [exact Ht|].
      rewrite u32_small.
      * unfold len. rewrite image_length. lia.
      * unfold len in Hf. rewrite image_length in Hf. lia.
    + apply (yields_map _ _ _ VL). apply yields_times. intros x Hx. apply IH.
      * rewrite Forall_forall in Ht. apply Ht, Hx.
      * unfold fits. pose proof (len_concat_in _ (encode t) l x Hx). lia.
Qed.

(** *** Memory safety of reading arbitrary bytes *)

Definition bytes_ok (s : stream) : Prop := Forall (fun b => 0 <= b < 256) (buf s).

(** [m] never touches memory outside the buffer, leaves the bytes alone, and
    when it succeeds the result satisfies [Q] and the cursor is still inside
    and has not moved back. *)
Definition safe {A} (m : M A) (Q : A -> Prop) : Prop :=
  forall s, inside s -> roomy W s -> bytes_ok s ->
    fst (m s) <> Bad /\ base (snd (m s)) = base s /\ buf (snd (m s)) = buf s /\
    (forall a, fst (m s) = Ok a ->
       Q a /\ inside (snd (m s)) /\ pos s <= pos (snd (m s))).

Lemma safe_bind A B (m : M A) (k : A -> M B) P Q :
  safe m P -> (forall a, P a -> safe (k a) Q) -> safe (bind m k) Q.
Proof.
  intros Hm Hk s Hi Hr Hb. unfold bind.
  destruct (Hm s Hi Hr Hb) as (N & Eb & Ef & Hs).
  destruct (m s) as [[a| |] s'] eqn:E; cbn [fst snd] in *.
  - destruct (Hs a eq_refl) as (HP & Hi' & Hp).
    assert (Hr' : roomy W s') by (unfold roomy in *; rewrite Eb, Ef; exact Hr).
    assert (Hb' : bytes_ok s') by (unfold bytes_ok in *; rewrite Ef; exact Hb).
    destruct (Hk a HP s' Hi' Hr' Hb') as (N2 & Eb2 & Ef2 & Hs2).
    split; [exact N2|]. split; [congruence|]. split; [congruence|].
    intros c Hc. destruct (Hs2 c Hc) as (X & Y & V). split; [exact X|]. split; [exact Y|]. lia.
  - split; [discriminate|]. split; [exact Eb|]. split; [exact Ef|]. discriminate.
  - contradiction.
Qed.

Lemma safe_ret A (a : A) (Q : A -> Prop) : Q a -> safe (ret a) Q.
Proof.
  intros HQ s Hi Hr Hb. unfold ret. cbn [fst snd].
  split; [discriminate|]. split; [reflexivity|]. split; [reflexivity|].
  intros x Hx. inversion Hx; subst. split; [exact HQ|]. split; [exact Hi|lia].
Qed.

Lemma sublist_bytes p n l :
  Forall (fun b => 0 <= b < 256) l ->
  Forall (fun b => 0 <= b < 256) (firstn n (skipn p l)).
Proof.
  rewrite !Forall_forall. intros H x Hx. apply H.
  rewrite <- (firstn_skipn p l). apply in_or_app. right.
  rewrite <- (firstn_skipn n (skipn p l)). apply in_or_app. left. exact Hx.
Qed.

(** [advance] followed by an access of the same length. *)
Lemma safe_chunk A n (k : list Z -> M A) Q :
  0 <= n < two32 ->
  (forall bs, len bs = n -> Forall (fun b => 0 <= b < 256) bs -> safe (k bs) Q) ->
  safe (p <- advance W n ;; bs <- load p n ;; k bs) Q.
Proof.
  intros Hn Hk s Hi Hr Hb.
  destruct Hr as (H1 & H2 & H3). unfold inside in Hi.
  set (s1 := Stm (base s) (buf s) (base s + pos s + n - base s)).
  set (bs := firstn (Z.to_nat n) (skipn (Z.to_nat (pos s)) (buf s))).
  assert (E : (p <- advance W n ;; bs <- load p n ;; k bs) s =
              if base s + len (buf s) <? base s + pos s + n then (Overrun, s1) else k bs s1).
  { unfold bind, advance. rewrite Z.mod_small by lia.
    destruct (Z.ltb_spec (base s + len (buf s)) (base s + pos s + n)); [reflexivity|].
    unfold load. cbn [buf].
    replace (0 <=? pos s) with true by (symmetry; apply Z.leb_le; lia).
    replace (pos s + n <=? len (buf s)) with true by (symmetry; apply Z.leb_le; lia).
    reflexivity. }
  rewrite E. clear E.
  destruct (Z.ltb_spec (base s + len (buf s)) (base s + pos s + n)).
  - cbn [fst snd base buf]. split; [discriminate|]. split; [reflexivity|]. split; [reflexivity|].
    intros a Ha. discriminate.
  - assert (I1 : inside s1) by (unfold inside, s1; cbn [pos buf]; lia).
    assert (R1 : roomy W s1) by (unfold roomy, s1; cbn [base buf]; lia).
    assert (L1 : len bs = n).
    { unfold bs, len. rewrite firstn_length, skipn_length. unfold len in *. lia. }
    destruct (Hk bs L1 (sublist_bytes _ _ _ Hb) s1 I1 R1 Hb) as (N & Eb & Ef & Hs).
    split; [exact N|]. split; [exact Eb|]. split; [exact Ef|].
    intros a Ha. destruct (Hs a Ha) as (X & Y & V). split; [exact X|]. split; [exact Y|].
    assert (pos s <= pos s1) by (unfold s1; cbn [pos]; lia). lia.
Qed.

Lemma safe_num w : (w <= 8)%nat -> safe (read_num W w) (fun z => 0 <= z < 256 ^ Z.of_nat w).
Proof.
  intros Hw. unfold read_num. apply safe_chunk; [unfold two32; lia|].
  intros bs Hl Hb. apply safe_ret. rewrite <- Hl. apply unle_range, Hb.
Qed.

Lemma safe_bulk w n d : 0 <= d < two32 -> safe (read_bulk W w n d) (fun l => length l = n).
Proof.
  intros Hd. unfold read_bulk. apply safe_chunk; [exact Hd|]. intros bs _ _. apply safe_ret.
  generalize (bs ++ repeat 0 (n * w - Z.to_nat d)). clear.
  induction n as [|n IH]; intros l; [reflexivity|]. cbn [chunks length]. f_equal. apply IH.
Qed.

Lemma safe_times n f P : safe f P -> safe (times n f) (fun l => length l = n /\ Forall P l).
Proof.
  intros Hf. induction n as [|n IH].
  - apply safe_ret. split; [reflexivity|constructor].
  - cbn [times]. apply (safe_bind _ _ _ _ P); [exact Hf|]. intros a Ha.
    apply (safe_bind _ _ _ _ _ _ IH). intros r [Hr HF]. apply safe_ret.
    split; [simpl; congruence|constructor; assumption].
Qed.

(** *** Stores *)

(** A write that fits 32-bit counts touches nothing outside the buffer and
    nothing before the cursor, whether it succeeds or overruns. *)
Definition guarded (m : M unit) : Prop :=
  forall s, inside s -> roomy W s ->
    fst (m s) <> Bad /\ base (snd (m s)) = base s /\
    len (buf (snd (m s))) = len (buf s) /\
    firstn (Z.to_nat (pos s)) (buf (snd (m s))) = firstn (Z.to_nat (pos s)) (buf s) /\
    (fst (m s) = Ok tt -> inside (snd (m s)) /\ pos s <= pos (snd (m s))).

Lemma guarded_ret : guarded (ret tt).
Proof.
  intros s Hi Hr. unfold ret. cbn [fst snd]. split; [discriminate|].
  split; [reflexivity|]. split; [reflexivity|]. split; [reflexivity|].
  intros _. split; [exact Hi|lia].
Qed.

Lemma guarded_bind m1 m2 : guarded m1 -> guarded m2 -> guarded (_ <- m1 ;; m2).
Proof.
  intros H1 H2 s Hi Hr. unfold bind.
  destruct (H1 s Hi Hr) as (N & Eb & El & Ef & Hs).
  destruct (m1 s) as [[[]| |] s'] eqn:E; cbn [fst snd] in *.
  - destruct (Hs eq_refl) as [Hi' Hp].
    assert (Hr' : roomy W s') by (unfold roomy in *; rewrite Eb, El; exact Hr).
    destruct (H2 s' Hi' Hr') as (N2 & Eb2 & El2 & Ef2 & Hs2).
    split; [exact N2|]. split; [congruence|]. split; [congruence|]. split.
    + rewrite <- Ef. unfold inside in Hi.
      assert (Hn : (Z.to_nat (pos s) <= Z.to_nat (pos s'))%nat) by lia.
      replace (Z.to_nat (pos s)) with (Nat.min (Z.to_nat (pos s)) (Z.to_nat (pos s'))) by lia.
      rewrite <- !firstn_firstn, Ef2. reflexivity.
    + intros Hc. destruct (Hs2 Hc). split; [assumption|lia].
  - split; [discriminate|]. split; [exact Eb|]. split; [exact El|]. split; [exact Ef|]. discriminate.
  - contradiction.
Qed.

Lemma guarded_chunk n bs :
  n = len bs -> n < two32 -> guarded (p <- advance W n ;; store p bs).
Proof.
  intros -> Hn s Hi Hr. unfold bind, advance.
  destruct Hr as (H1 & H2 & H3). unfold inside in Hi. pose proof (len_nonneg _ bs).
  rewrite Z.mod_small by lia.
  destruct (Z.ltb_spec (base s + len (buf s)) (base s + pos s + len bs)).
  - cbn [fst snd base buf]. split; [discriminate|]. split; [reflexivity|]. split; [reflexivity|].
    split; [reflexivity|]. intros Ha. discriminate.
  - unfold store. cbn [buf base pos].
    replace (0 <=? pos s) with true by (symmetry; apply Z.leb_le; lia).
    replace (pos s + len bs <=? len (buf s)) with true by (symmetry; apply Z.leb_le; lia).
    cbn [andb fst snd base buf pos]. split; [discriminate|]. split; [reflexivity|].
    assert (L : len (firstn (Z.to_nat (pos s)) (buf s) ++ bs ++
                skipn (Z.to_nat (pos s) + length bs) (buf s)) = len (buf s)).
    { rewrite !len_app. unfold len in *. rewrite firstn_length, skipn_length. lia. }
    split; [exact L|]. split.
    + rewrite firstn_app, firstn_firstn, firstn_length. unfold len in *.
      rewrite !Nat.min_l by lia. rewrite Nat.sub_diag. simpl. apply app_nil_r.
    + intros _. unfold inside. cbn [pos buf]. rewrite L. lia.
Qed.

Lemma guarded_num w z : (w <= 8)%nat -> guarded (write_num W w z).
Proof.
  intros Hw. apply guarded_chunk; [unfold len; rewrite le_length; reflexivity|].
  unfold two32. lia.
Qed.

Lemma guarded_iter (f : val -> M unit) l : (forall x, In x l -> guarded (f x)) -> guarded (iter f l).
Proof.
  induction l as [|x l IH]; intros H; [apply guarded_ret|].
  cbn [iter]. apply guarded_bind; [apply H; left; reflexivity|].
  apply IH. intros y Hy. apply H. right. exact Hy.
Qed.

Lemma guarded_bulk w l d :
  0 <= d < two32 -> d <= len (image w l) -> guarded (write_bulk W w l d).
Proof.
  intros Hd Hi. unfold write_bulk. apply guarded_chunk; [|lia].
  unfold len in *. rewrite firstn_length. lia.
Qed.

End W.

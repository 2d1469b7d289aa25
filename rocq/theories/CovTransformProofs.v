From Coq Require Import Reals Lra Lia Bool Arith.
From Verif Require Import Mat CovTransform.
Open Scope R_scope.

Ltac bd := repeat match goal with
  | |- context [Nat.leb ?a ?b] => destruct (Nat.leb_spec a b); try (exfalso; lia)
  | |- context [Nat.ltb ?a ?b] => destruct (Nat.ltb_spec a b); try (exfalso; lia)
  end; cbn [andb].

(** sums over a sub-range *)
Lemma sum_range n b e f : (b <= e)%nat -> (e <= n)%nat ->
  sum n (fun l => if (b <=? l) && (l <? e) then f (l - b)%nat else 0) = sum (e - b) f.
Proof.
  intros Hb He.
  replace n with (b + ((e - b) + (n - e)))%nat by lia.
  rewrite sum_split, sum_split.
  rewrite (sum_zero b) by (intros i Hi; bd; reflexivity).
  rewrite (sum_zero (n - e)) by (intros i Hi; bd; reflexivity).
  rewrite (sum_ext (e - b) _ f).
  - lra.
  - intros i Hi. bd. f_equal. lia.
Qed.

(** a row of the block map inside the output range *)
Lemma block_map_row n J ob oe ib ie C i j :
  (ib <= ie)%nat -> (ie <= n)%nat -> (ob <= i)%nat -> (i < oe)%nat ->
  mmul n (block_map J ob oe ib ie) C i j
  = mmul (ie - ib) J (sub C ib 0) (i - ob)%nat j.
Proof.
  intros H1 H2 H3 H4. unfold mmul.
  rewrite (sum_ext n _ (fun l => if (ib <=? l) && (l <? ie)
             then (fun l' => J (i - ob)%nat l' * sub C ib 0 l' j) (l - ib)%nat else 0)).
  - apply (sum_range n ib ie (fun l' => J (i - ob)%nat l' * sub C ib 0 l' j)); assumption.
  - intros l Hl. unfold block_map, sub. bd; cbn [Nat.add]; try ring.
    replace (ib + (l - ib))%nat with l by lia. ring.
Qed.

Lemma block_map_row_out n J ob oe ib ie C i j :
  ~ ((ob <= i)%nat /\ (i < oe)%nat) -> (i < n)%nat ->
  mmul n (block_map J ob oe ib ie) C i j = C i j.
Proof.
  intros H Hi. rewrite <- (mmul_eye_l n C i j Hi). apply sum_ext. intros l Hl.
  unfold block_map. destruct (Nat.leb_spec ob i), (Nat.ltb_spec i oe); cbn; try reflexivity.
  exfalso; lia.
Qed.

Lemma tr_mmul_block n J ob oe ib ie A i j :
  mmul n A (tr (block_map J ob oe ib ie)) i j = mmul n (block_map J ob oe ib ie) (tr A) j i.
Proof. unfold mmul, tr. apply sum_ext. intros. ring. Qed.

Lemma transform_range_cov n f ob oe ib ie x :
  (ob <= oe)%nat -> (oe <= n)%nat -> (ib <= ie)%nat -> (ie <= n)%nat ->
  symm n (covariance x) ->
  meq n n (covariance (transform_range n f ob oe ib ie x))
    (sandwich n (block_map (snd (f (vsub_range (value x) ib))) ob oe ib ie) (covariance x)).
Proof.
  intros H1 H2 H3 H4 HS i j Hi Hj. unfold transform_range.
  destruct (f (vsub_range (value x) ib)) as [r J] eqn:E. cbn [snd covariance].
  set (C := covariance x) in *.
  unfold sandwich. rewrite tr_mmul_block.
  assert (Hin : forall a b, (ob <= a < oe)%nat ->
            mmul n (block_map J ob oe ib ie) C a b = mmul (ie - ib) J (sub C ib 0) (a - ob)%nat b).
  { intros a b Ha. apply block_map_row; lia. }
  assert (Hout : forall a b, ~ (ob <= a < oe)%nat -> (a < n)%nat ->
            mmul n (block_map J ob oe ib ie) C a b = C a b).
  { intros a b Ha Han. apply block_map_row_out; [lia|exact Han]. }
  assert (Hi' : (ob <= i < oe)%nat \/ ~ (ob <= i < oe)%nat) by lia.
  assert (Hj' : (ob <= j < oe)%nat \/ ~ (ob <= j < oe)%nat) by lia.
  destruct Hj' as [Hjb|Hjb].
  - rewrite block_map_row by lia.
    destruct Hi' as [Hib|Hib].
    + (* both inside *)
      transitivity (mmul (ie - ib) (sub (mmul (ie - ib) J (sub C ib 0)) 0 ib) (tr J) (i - ob)%nat (j - ob)%nat).
      { destruct (Nat.ltb_spec 0 ob), (Nat.ltb_spec oe n); unfold set_sub; bd; reflexivity. }
      unfold mmul at 1. unfold mmul at 2. apply sum_ext. intros l Hl.
      unfold sub at 3. unfold tr. rewrite (Hin i) by lia. unfold sub at 1. cbn [Nat.add].
      rewrite Rmult_comm. reflexivity.
    + (* row outside, column inside *)
      transitivity (mmul (ie - ib) J (sub C ib 0) (j - ob)%nat i).
      { destruct (Nat.ltb_spec 0 ob), (Nat.ltb_spec oe n); unfold set_sub, tr, sub; bd; cbn [Nat.add];
          f_equal; lia. }
      apply sum_ext. intros l Hl. unfold sub, tr. cbn [Nat.add].
      rewrite (Hout i) by assumption. f_equal. apply HS; lia.
  - rewrite block_map_row_out by lia. unfold tr.
    destruct Hi' as [Hib|Hib].
    + rewrite (Hin i) by lia.
      destruct (Nat.ltb_spec 0 ob), (Nat.ltb_spec oe n); unfold set_sub, tr, sub; bd; cbn [Nat.add];
          f_equal; lia.
    + rewrite (Hout i) by assumption.
      destruct (Nat.ltb_spec 0 ob), (Nat.ltb_spec oe n); unfold set_sub; bd; reflexivity.
Qed.

Lemma transform_range_value n f ob oe ib ie x i :
  value (transform_range n f ob oe ib ie x) i =
  if (ob <=? i) && (i <? oe) then fst (f (vsub_range (value x) ib)) (i - ob)%nat else value x i.
Proof.
  unfold transform_range. destruct (f (vsub_range (value x) ib)) as [r J]. reflexivity.
Qed.

Lemma transform_cov_spec n f x :
  covariance (transform_cov n f x) = sandwich n (snd (f (value x))) (covariance x).
Proof. unfold transform_cov. destruct (f (value x)) as [r J]. reflexivity. Qed.

Lemma stack_sandwich n1 n2 J1 J2 C1 C2 i j :
  sandwich (n1 + n2) (beside n1 J1 J2) (stack n1 C1 C2) i j
  = sandwich n1 J1 C1 i j + sandwich n2 J2 C2 i j.
Proof.
  unfold sandwich, mmul. rewrite sum_split. f_equal; apply sum_ext; intros l Hl.
  - rewrite sum_split. rewrite (sum_zero n2).
    + rewrite Rplus_0_r. unfold tr, beside. bd. f_equal. apply sum_ext. intros k Hk.
      unfold stack. bd. reflexivity.
    + intros k Hk. unfold stack. bd. ring.
  - rewrite sum_split. rewrite (sum_zero n1).
    + rewrite Rplus_0_l. unfold tr, beside. bd.
      replace (n1 + l - n1)%nat with l by lia. f_equal. apply sum_ext. intros k Hk.
      unfold stack. bd. f_equal; f_equal; lia.
    + intros k Hk. unfold stack. bd. ring.
Qed.

Lemma binary_transform_cov n1 n2 f x y i j :
  covariance (binary_transform n1 n2 f x y) i j =
  sandwich (n1 + n2) (beside n1 (snd (fst (f (value x) (value y)))) (snd (f (value x) (value y))))
     (stack n1 (covariance x) (covariance y)) i j.
Proof.
  rewrite stack_sandwich. unfold binary_transform.
  destruct (f (value x) (value y)) as [[r J1] J2]. reflexivity.
Qed.

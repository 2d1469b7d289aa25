(** Properties of covariance propagation (C27). *)
From Coq Require Import Reals Lra Lia Bool Arith List.
Import ListNotations.
From Verif Require Import Mat CovTransform CovTransformProofs.
Open Scope R_scope.

(** The updated covariance is the covariance of the whole state under the map that
    applies the Jacobian to the block and leaves every other entry alone; the two
    ranges may be anywhere and may overlap. *)
Theorem transform_range_joint_covariance n f ob oe ib ie x :
  (ob <= oe)%nat -> (oe <= n)%nat -> (ib <= ie)%nat -> (ie <= n)%nat ->
  symm n (covariance x) ->
  meq n n (covariance (transform_range n f ob oe ib ie x))
    (sandwich n (block_map (snd (f (vsub_range (value x) ib))) ob oe ib ie) (covariance x)).
Proof. apply transform_range_cov. Qed.

(** ... and that map is the one the state itself goes through when the function is linear *)
Theorem transform_range_linear n J ob oe ib ie x :
  (ob <= oe)%nat -> (oe <= n)%nat -> (ib <= ie)%nat -> (ie <= n)%nat ->
  veq n (value (transform_range n (fun v => (mvec (ie - ib) J v, J)) ob oe ib ie x))
        (mvec n (block_map J ob oe ib ie) (value x)).
Proof.
  intros H1 H2 H3 H4 i Hi. rewrite transform_range_value. cbn [fst].
  change (mvec n (block_map J ob oe ib ie) (value x) i)
    with (mmul n (block_map J ob oe ib ie) (fun l _ => value x l) i 0%nat).
  destruct (Nat.leb_spec ob i), (Nat.ltb_spec i oe); cbn [andb].
  - rewrite block_map_row by lia. reflexivity.
  - rewrite block_map_row_out by lia. reflexivity.
  - rewrite block_map_row_out by lia. reflexivity.
  - rewrite block_map_row_out by lia. reflexivity.
Qed.

(** entries outside the output range keep their value and their covariance *)
Theorem transform_range_frame n f ob oe ib ie x i j :
  (ob <= oe)%nat -> (oe <= n)%nat -> (i < n)%nat -> (j < n)%nat ->
  (i < ob \/ oe <= i)%nat -> (j < ob \/ oe <= j)%nat ->
  value (transform_range n f ob oe ib ie x) i = value x i /\
  covariance (transform_range n f ob oe ib ie x) i j = covariance x i j.
Proof.
  intros H1 H2 Hi Hj Hio Hjo. split.
  - rewrite transform_range_value. bd; reflexivity.
  - unfold transform_range. destruct (f (vsub_range (value x) ib)) as [r J]. cbn [covariance].
    destruct (Nat.ltb_spec 0 ob), (Nat.ltb_spec oe n); unfold set_sub; bd; reflexivity.
Qed.

Theorem transform_range_valid n f ob oe ib ie x :
  (ob <= oe)%nat -> (oe <= n)%nat -> (ib <= ie)%nat -> (ie <= n)%nat ->
  symm n (covariance x) -> psd n (covariance x) ->
  symm n (covariance (transform_range n f ob oe ib ie x)) /\
  psd n (covariance (transform_range n f ob oe ib ie x)).
Proof.
  intros H1 H2 H3 H4 HS HP.
  pose proof (transform_range_cov n f ob oe ib ie x H1 H2 H3 H4 HS) as H. split.
  - apply (symm_ext n _ _ (meq_sym _ _ _ _ H)), symm_sandwich, HS.
  - apply (psd_ext n _ _ (meq_sym _ _ _ _ H)), psd_sandwich, HP.
Qed.

(** the asymmetric case: without symmetry the code mirrors the rows, so the result is
    symmetric across the block boundary whatever the input *)
Theorem transform_range_symmetry_needed :
  exists f x, ~ meq 2 2 (covariance (transform_range 2 f 1 2 1 2 x))
     (sandwich 2 (block_map (snd (f (vsub_range (value x) 1))) 1 2 1 2) (covariance x)).
Proof.
  exists (fun v => (v, eye)), (EV (fun _ => 0) (mlist [[1; 1]; [0; 1]])). intros H.
  specialize (H 0%nat 1%nat ltac:(lia) ltac:(lia)).
  unfold transform_range, sandwich, mmul, block_map, tr, set_sub, sub, mlist, eye in H. cbn in H. lra.
Qed.

Theorem transform_cov_valid m n f x :
  covariance (transform_cov n f x) = sandwich n (snd (f (value x))) (covariance x) /\
  value (transform_cov n f x) = fst (f (value x)) /\
  (symm n (covariance x) -> symm m (covariance (transform_cov n f x))) /\
  (psd n (covariance x) -> psd m (covariance (transform_cov n f x))).
Proof.
  rewrite transform_cov_spec. repeat split.
  - unfold transform_cov. destruct (f (value x)); reflexivity.
  - apply symm_sandwich.
  - apply psd_sandwich.
Qed.

(** two independent arguments: the covariance is that of the stacked vector under the
    stacked Jacobian *)
Theorem binary_transform_joint n1 n2 m f x y :
  meq m m (covariance (binary_transform n1 n2 f x y))
   (sandwich (n1 + n2) (beside n1 (snd (fst (f (value x) (value y)))) (snd (f (value x) (value y))))
     (stack n1 (covariance x) (covariance y))).
Proof. intros i j _ _. apply binary_transform_cov. Qed.

Theorem binary_transform_valid m n1 n2 f x y :
  symm n1 (covariance x) -> symm n2 (covariance y) -> psd n1 (covariance x) -> psd n2 (covariance y) ->
  symm m (covariance (binary_transform n1 n2 f x y)) /\ psd m (covariance (binary_transform n1 n2 f x y)).
Proof.
  intros HS1 HS2 HP1 HP2. unfold binary_transform.
  destruct (f (value x) (value y)) as [[r J1] J2]. cbn [covariance]. split.
  - intros i j Hi Hj. unfold madd.
    rewrite (symm_sandwich m n1 J1 _ HS1 i j Hi Hj : mmul n1 (mmul n1 J1 (covariance x)) (tr J1) i j = _).
    rewrite (symm_sandwich m n2 J2 _ HS2 i j Hi Hj : mmul n2 (mmul n2 J2 (covariance y)) (tr J2) i j = _).
    reflexivity.
  - apply psd_add; apply psd_sandwich; assumption.
Qed.

(** a state of three entries; the last entry becomes the sum of the first two *)
Example transform_range_ex :
  let f : cfun := fun v => (fun i => v 0%nat + v 1%nat, mlist [[1; 1]]) in
  let x := EV (vlist [2; 3; 5]) (mlist [[2; 1; 0]; [1; 3; 0]; [0; 0; 1]]) in
  symm 3 (covariance x) /\
  value (transform_range 3 f 2 3 0 2 x) 2%nat = 5 /\
  covariance (transform_range 3 f 2 3 0 2 x) 2%nat 2%nat = 7 /\
  covariance (transform_range 3 f 2 3 0 2 x) 2%nat 0%nat = 3 /\
  covariance (transform_range 3 f 2 3 0 2 x) 0%nat 2%nat = 3.
Proof.
  cbn zeta. split.
  - intros i j Hi Hj. cbn in *. idx i Hi; idx j Hj; reflexivity.
  - unfold transform_range, vset_range, vsub_range, set_sub, sub, mmul, tr, vlist, mlist. cbn.
    repeat split; lra.
Qed.

Print Assumptions transform_range_joint_covariance.
Print Assumptions transform_range_linear.
Print Assumptions transform_range_frame.
Print Assumptions transform_range_valid.
Print Assumptions transform_range_symmetry_needed.
Print Assumptions transform_cov_valid.
Print Assumptions binary_transform_joint.
Print Assumptions binary_transform_valid.

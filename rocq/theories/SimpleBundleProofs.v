(** Lemmas about the model of simpleBundleAdjustment. *)
From Coq Require Import Reals List Arith Bool Lra Lia Psatz.
Import ListNotations.
From Coquelicot Require Import Coquelicot.
From Verif Require Import Mat Quat QuatProofs Jacobians JacobiansProofs LevMarq LevMarqProofs SimpleBundle.
Open Scope R_scope.

(** ** Lists of pairs and blocks *)
Lemma nth_blocks {A} (f : A -> list R) b l c i dl d : (forall a, length (f a) = b) ->
  (i < b)%nat -> (c < length l)%nat -> nth (c * b + i) (flat_map f l) d = nth i (f (nth c l dl)) d.
Proof.
  intros Hf Hi. revert c. induction l as [|a l IH]; intros c Hc; cbn [length] in Hc; [lia|].
  cbn [flat_map]. destruct c as [|c].
  - cbn [Nat.mul Nat.add nth]. apply app_nth1. rewrite Hf. exact Hi.
  - rewrite app_nth2 by (rewrite Hf; nia). rewrite Hf.
    replace (S c * b + i - b)%nat with (c * b + i)%nat by nia. apply IH. lia.
Qed.
Lemma length_blocks {A} (f : A -> list R) b l : (forall a, length (f a) = b) -> length (flat_map f l) = (length l * b)%nat.
Proof. intros Hf. induction l as [|a l IH]; [reflexivity|]. cbn [flat_map length]. rewrite app_length, Hf, IH. lia. Qed.

Lemma nth_pairs {A B} (l : list A) (m : list B) c p da db : (c < length l)%nat -> (p < length m)%nat ->
  nth (c * length m + p) (list_prod l m) (da, db) = (nth c l da, nth p m db).
Proof.
  revert c. induction l as [|a l IH]; intros c Hc Hp; cbn [length] in Hc; [lia|]. cbn [list_prod]. destruct c as [|c].
  - rewrite app_nth1 by (rewrite map_length; cbn; lia). cbn [Nat.mul Nat.add nth].
    rewrite (nth_indep _ (da, db) (a, db)) by (rewrite map_length; exact Hp). apply (map_nth (fun y => (a, y))).
  - rewrite app_nth2 by (rewrite map_length; nia). rewrite map_length.
    replace (S c * length m + p - length m)%nat with (c * length m + p)%nat by nia. apply IH; lia.
Qed.
Lemma nth_seq_pairs nc np c p : (c < nc)%nat -> (p < np)%nat ->
  nth (c * np + p) (list_prod (seq 0 nc) (seq 0 np)) (0%nat, 0%nat) = (c, p).
Proof.
  intros Hc Hp. pose proof (nth_pairs (seq 0 nc) (seq 0 np) c p 0%nat 0%nat) as H. rewrite !seq_length in H.
  rewrite H by assumption. rewrite !seq_nth by assumption. reflexivity.
Qed.
Lemma length_seq_pairs nc np : length (list_prod (seq 0 nc) (seq 0 np)) = (nc * np)%nat.
Proof. rewrite prod_length, !seq_length. reflexivity. Qed.

Lemma nth_concat_equal {A} (obs : list (list A)) np c p d : (forall o, In o obs -> length o = np) ->
  (c < length obs)%nat -> (p < np)%nat -> nth (c * np + p) (concat obs) d = nth p (nth c obs []) d.
Proof.
  revert c. induction obs as [|o obs IH]; intros c Ho Hc Hp; cbn [length] in Hc; [lia|]. cbn [concat].
  assert (Lo := Ho o (or_introl eq_refl)). destruct c as [|c].
  - cbn [Nat.mul Nat.add nth]. apply app_nth1. lia.
  - rewrite app_nth2 by nia. replace (S c * np + p - length o)%nat with (c * np + p)%nat by nia.
    apply IH; [intros; apply Ho; right; assumption|lia|lia].
Qed.
Lemma length_concat_equal {A} (obs : list (list A)) np : (forall o, In o obs -> length o = np) ->
  length (concat obs) = (length obs * np)%nat.
Proof.
  induction obs as [|o obs IH]; intros Ho; [reflexivity|]. cbn [concat length]. rewrite app_length.
  rewrite (Ho o (or_introl eq_refl)), IH; [lia|intros; apply Ho; right; assumption].
Qed.

(** ** What the loops write *)
Lemma loops_write nc input L r0 res J : forall r1 res' J',
  fold_left (bundle_step nc input) L (r0, res, J) = (r1, res', J') ->
  (forall i, (i < r0)%nat -> res' i = res i /\ J' i = J i) /\
  (forall k c p, (k < length L)%nat -> nth k L (0%nat, 0%nat) = (c, p) ->
     (forall i, (r0 <= i)%nat -> J i = fun _ => 0) ->
     res' (r0 + 2 * k)%nat = image_x (bundle_camera input c) (bundle_point nc input p) /\
     res' (r0 + 2 * k + 1)%nat = image_y (bundle_camera input c) (bundle_point nc input p) /\
     J' (r0 + 2 * k)%nat = fold_left write1 (fst (bundle_rows (c * 7) (nc * 7 + p * 3) (bundle_camera input c) (bundle_point nc input p))) (fun _ => 0) /\
     J' (r0 + 2 * k + 1)%nat = fold_left write1 (snd (bundle_rows (c * 7) (nc * 7 + p * 3) (bundle_camera input c) (bundle_point nc input p))) (fun _ => 0)).
Proof.
  revert r0 res J. induction L as [|[c0 p0] L IH]; intros r0 res J r1 res' J' H; cbn [fold_left] in H.
  - injection H as <- <- <-. split; [auto|]. intros k c p Hk. cbn in Hk. lia.
  - unfold bundle_step at 2 in H. set (rows := bundle_rows _ _ _ _) in H. apply IH in H. destruct H as [H1 H2]. split.
    + intros i Hi. destruct (H1 i ltac:(lia)) as [-> ->]. unfold set_entry, set_row.
      assert (E1 : (i =? r0 + 1)%nat = false) by (apply Nat.eqb_neq; lia).
      assert (E2 : (i =? r0)%nat = false) by (apply Nat.eqb_neq; lia). rewrite E1, E2. auto.
    + intros k c p Hk Hn HJ. destruct k as [|k].
      * cbn [nth] in Hn. injection Hn as <- <-. fold rows. rewrite Nat.mul_0_r, Nat.add_0_r.
        destruct (H1 r0 ltac:(lia)) as [A1 A2]. destruct (H1 (r0 + 1)%nat ltac:(lia)) as [B1 B2].
        rewrite A1, A2, B1, B2. unfold set_entry, set_row.
        assert (E1 : (r0 =? r0 + 1)%nat = false) by (apply Nat.eqb_neq; lia).
        assert (E2 : (r0 + 1 =? r0)%nat = false) by (apply Nat.eqb_neq; lia).
        rewrite E1, E2, !Nat.eqb_refl, !HJ by lia. auto.
      * cbn [nth length] in Hn, Hk. replace (r0 + 2 * S k)%nat with (r0 + 2 + 2 * k)%nat by lia.
        apply H2; [lia|exact Hn|]. intros i Hi. unfold set_row.
        assert (E1 : (i =? r0 + 1)%nat = false) by (apply Nat.eqb_neq; lia).
        assert (E2 : (i =? r0)%nat = false) by (apply Nat.eqb_neq; lia). rewrite E1, E2. apply HJ. lia.
Qed.

(** index of camera [c], point [p] *)
Definition image (nc : nat) (input : vect) (c p i : nat) : R :=
  if (i =? 0)%nat then image_x (bundle_camera input c) (bundle_point nc input p)
  else image_y (bundle_camera input c) (bundle_point nc input p).
Definition entries (nc : nat) (input : vect) (c p i : nat) : list (nat * R) :=
  let rows := bundle_rows (c * 7) (nc * 7 + p * 3) (bundle_camera input c) (bundle_point nc input p) in
  if (i =? 0)%nat then fst rows else snd rows.

Lemma loops_at nc np res input c p i : (c < nc)%nat -> (p < np)%nat -> (i < 2)%nat ->
  fst (bundle_loops nc np res input) (2 * (c * np + p) + i)%nat = image nc input c p i /\
  snd (bundle_loops nc np res input) (2 * (c * np + p) + i)%nat = fold_left write1 (entries nc input c p i) (fun _ => 0).
Proof.
  intros Hc Hp Hi. unfold bundle_loops.
  destruct (fold_left _ _ _) as [[r1 res'] J'] eqn:E. apply loops_write in E. destruct E as [_ E].
  destruct (E (c * np + p)%nat c p) as (E1 & E2 & E3 & E4).
  - rewrite length_seq_pairs. nia.
  - apply nth_seq_pairs; assumption.
  - intros; reflexivity.
  - cbn [fst snd]. unfold image, entries. idx i Hi; cbn [Nat.eqb]; rewrite ?Nat.add_0_r; cbn [Nat.add] in E1, E2, E3, E4; auto.
Qed.

(** every row of the result belongs to one camera and one point *)
Lemma row_of nc np r : (r < 2 * (nc * np))%nat ->
  exists c p i, (c < nc)%nat /\ (p < np)%nat /\ (i < 2)%nat /\ r = (2 * (c * np + p) + i)%nat.
Proof.
  intros Hr. assert (Hnp : np <> 0%nat) by nia.
  exists ((r / 2) / np)%nat, ((r / 2) mod np)%nat, (r mod 2)%nat.
  assert (r / 2 < nc * np)%nat by (apply Nat.div_lt_upper_bound; lia).
  repeat split.
  - apply Nat.div_lt_upper_bound; lia.
  - apply Nat.mod_upper_bound. exact Hnp.
  - apply Nat.mod_upper_bound. lia.
  - rewrite (Nat.mul_comm _ np). rewrite <- (Nat.div_mod (r / 2) np Hnp). apply Nat.div_mod. lia.
Qed.

(** ** Sums over the written entries *)
Lemma write_other l v j : ~ In j (map fst l) -> fold_left write1 l v j = v j.
Proof.
  revert v. induction l as [|[c x] l IH]; intros v Hj; cbn [fold_left map In] in *; [reflexivity|].
  rewrite IH by tauto. unfold write1. cbn [fst snd]. destruct (Nat.eqb_spec j c); [subst; cbn in Hj; tauto|reflexivity].
Qed.
Lemma written_sum n l v e : NoDup (map fst l) -> (forall c x, In (c, x) l -> (c < n)%nat) ->
  (forall c x, In (c, x) l -> v c = 0) ->
  sum n (fun j => fold_left write1 l v j * e j) =
  sum n (fun j => v j * e j) + fold_right (fun cx s => snd cx * e (fst cx) + s) 0 l.
Proof.
  revert v. induction l as [|[c x] l IH]; intros v HN Hn Hz; cbn [fold_left fold_right]; [ring|].
  cbn [map] in HN. inversion HN as [|? ? Hc HN']; subst. rewrite IH.
  - cbn [fst snd].
    replace (sum n (fun j => write1 v (c, x) j * e j)) with (sum n (fun j => v j * e j) + x * e c); [ring|].
    assert (Hcn : (c < n)%nat) by (apply (Hn c x); left; reflexivity).
    replace (x * e c) with (sum n (fun j => if (j =? c)%nat then x * e c else 0)).
    2:{ rewrite (sum_single _ _ c Hcn); [rewrite Nat.eqb_refl; reflexivity|].
        intros j _ Hj. apply Nat.eqb_neq in Hj. rewrite Hj. reflexivity. }
    rewrite <- sum_plus. apply sum_ext. intros j Hj. unfold write1. cbn [fst snd].
    destruct (Nat.eqb_spec j c) as [->|].
    + rewrite (Hz c x (or_introl eq_refl)). ring.
    + ring.
  - exact HN'.
  - intros c' x' Hi. apply (Hn c' x'). right. exact Hi.
  - intros c' x' Hi. unfold write1. cbn [fst snd]. destruct (Nat.eqb_spec c' c) as [->|].
    + exfalso. apply Hc. apply in_map_iff. exists (c, x'). auto.
    + apply (Hz c' x'). right. exact Hi.
Qed.

(** ** The derivative of one projection *)

(** the homogeneous form of the rotation, which agrees with Quaternion::operator* for unit
    quaternions *)
Definition hom_papp (p : pose) (v : vec3) : vec3 :=
  let x := qx (rot p) in let y := qy (rot p) in let z := qz (rot p) in let w := qw (rot p) in
  V3 ((w*w + x*x - y*y - z*z) * vx v + (2*x*y - 2*w*z) * vy v + (2*x*z + 2*w*y) * vz v + vx (tra p))
     ((2*x*y + 2*w*z) * vx v + (w*w - x*x + y*y - z*z) * vy v + (2*y*z - 2*w*x) * vz v + vy (tra p))
     ((2*x*z - 2*w*y) * vx v + (2*y*z + 2*w*x) * vy v + (w*w - x*x - y*y + z*z) * vz v + vz (tra p)).
Definition hom_image (nc : nat) (input : vect) (c p i : nat) : R :=
  let r := hom_papp (bundle_camera input c) (bundle_point nc input p) in
  (if (i =? 0)%nat then vx r else vy r) / vz r.
Lemma hom_papp_unit p v : unit (rot p) -> hom_papp p v = papp p v.
Proof.
  destruct p as [[x y z w] [a b c]], v as [u v s]. unfold unit, qnorm, hom_papp, papp, qrot, v3add.
  cbn [rot tra qx qy qz qw vx vy vz]. intros U.
  assert (E : w * w = 1 - x * x - y * y - z * z) by lra. f_equal; ring [E].
Qed.

Lemma image_derivative nc (n : nat) x c p i g e : (c < nc)%nat -> (nc * 7 + p * 3 + 3 <= n)%nat -> (i < 2)%nat ->
  vz (hom_papp (bundle_camera x c) (bundle_point nc x p)) <> 0 -> curve n g x e ->
  is_derive (fun h => hom_image nc (at_time g h) c p i) 0
    (fold_right (fun cx s => snd cx * e (fst cx) + s) 0 (entries nc x c p i)).
Proof.
  intros Hc Hn Hi Hz Hcu.
  assert (C1 : curve 7 (fun k => g (c * 7 + k)%nat) (fun k => x (c * 7 + k)%nat) (fun k => e (c * 7 + k)%nat))
    by (apply (curve_shift n); [lia|exact Hcu]).
  assert (C2 : curve 3 (fun k => g (nc * 7 + p * 3 + k)%nat) (fun k => x (nc * 7 + p * 3 + k)%nat)
                     (fun k => e (nc * 7 + p * 3 + k)%nat)) by (apply (curve_shift n); [lia|exact Hcu]).
  unfold hom_image, entries, bundle_rows, hom_papp, bundle_camera, bundle_point, at_time in *. cbn [rot tra qx qy qz qw vx vy vz] in *.
  clear Hcu. take_curve C1 7%nat. take_curve C2 3%nat. clear C1 C2. cbv beta in *.
  idx i Hi; cbn [Nat.eqb fst snd fold_right].
  - use_curve. auto_derive.
    + ex_curve. intros E. apply Hz. rewrite <- E. ring.
    + ex_curve. field. intros E; apply Hz; rewrite <- E; ring.
  - use_curve. auto_derive.
    + ex_curve. intros E. apply Hz. rewrite <- E. ring.
    + ex_curve. field. intros E; apply Hz; rewrite <- E; ring.
Qed.

(** Proofs about the linear-algebra helpers of LinAlg.v *)
From Coq Require Import Reals List Arith Bool Lia Lra Psatz.
Import ListNotations.
From Verif Require Import Mat Quat LinAlg.
Open Scope R_scope.

Lemma sum_S n f : sum (S n) f = sum n f + f n.
Proof. reflexivity. Qed.

Lemma inner_impl_sum n a b s : inner_impl n a b s = s + sum n (fun i => a i * b i).
Proof.
  revert s; induction n as [|n IH]; intro s; cbn [inner_impl].
  - cbn; ring.
  - rewrite IH, sum_S; ring.
Qed.
Lemma norm1_impl_sum n a s : norm1_impl n a s = s + sum n (fun i => Rabs (a i)).
Proof.
  revert s; induction n as [|n IH]; intro s; cbn [norm1_impl].
  - cbn; ring.
  - rewrite IH, sum_S; ring.
Qed.
Lemma fold_seq_sum n (f : nat -> R) r : fold_left (fun r i => r + f i) (seq 0 n) r = r + sum n f.
Proof.
  revert r; induction n as [|n IH]; intro r; [cbn; ring|].
  rewrite seq_S, fold_left_app, IH; cbn [fold_left]. rewrite sum_S, Nat.add_0_l. ring.
Qed.

Lemma upd_same m i x : upd m i x i = x.
Proof. unfold upd; rewrite Nat.eqb_refl; reflexivity. Qed.
Lemma upd_other m i x k : k <> i -> upd m i x k = m k.
Proof. intro H; unfold upd. apply Nat.eqb_neq in H; rewrite H; reflexivity. Qed.

(** *** outer product *)
Lemma outer_column M n v1 v2 : forall m res, (m <= M)%nat -> exists k res',
  (forall f, outer_impl (k + f) m M (S n) v1 v2 res = outer_impl f 0 M (S n) v1 v2 res') /\
  (forall i, (i < m)%nat -> res' (M * n + i)%nat = v1 i * v2 n) /\
  (forall c, (c < M * n \/ M * n + m <= c)%nat -> res' c = res c).
Proof.
  induction m as [|m IH]; intros res H.
  - exists O, res. repeat split; auto. intros i Hi; lia.
  - destruct (IH (upd res (M * n + m) (v1 m * v2 n)) ltac:(lia)) as (k & res' & F & G & K).
    exists (S k), res'. repeat split.
    + intro f. cbn [Nat.add outer_impl]. apply F.
    + intros i Hi. destruct (Nat.eq_dec i m) as [->|N]; [|apply G; lia].
      rewrite K by lia. apply upd_same.
    + intros c Hc. rewrite K by lia. apply upd_other; lia.
Qed.
Lemma outer_all M v1 v2 : forall n res, exists k res',
  outer_impl k M M n v1 v2 res = Some res' /\
  (forall k' , outer_impl (k + k') M M n v1 v2 res = Some res') /\
  (forall i j, (i < M)%nat -> (j < n)%nat -> res' (M * j + i)%nat = v1 i * v2 j) /\
  (forall c, (M * n <= c)%nat -> res' c = res c).
Proof.
  induction n as [|n IH]; intro res.
  - exists 1%nat, res. repeat split; auto. intros; lia.
  - destruct (outer_column M n v1 v2 M res (Nat.le_refl _)) as (k & r1 & F & G & K).
    destruct (IH r1) as (k2 & r2 & _ & F2 & G2 & K2).
    assert (E : forall k', outer_impl (k + S (k2 + k')) M M (S n) v1 v2 res = Some r2).
    { intro k'. rewrite F. cbn [outer_impl]. apply F2. }
    exists (k + S k2)%nat, r2. repeat split.
    + rewrite <- (E 0%nat). f_equal; lia.
    + intro k'. rewrite <- (E k'). f_equal; lia.
    + intros i j Hi Hj. destruct (Nat.eq_dec j n) as [->|N]; [|apply G2; lia].
      rewrite K2 by nia. apply G; exact Hi.
    + intros c Hc. rewrite K2 by nia. apply K. nia.
Qed.

(** *** matrix-vector products *)
Section MV.
Variables (MM NM : nat) (A v : vect).
Let term (i n : nat) : R := A (n * MM + i)%nat * v n.

Lemma mvb_row m : (m < MM)%nat -> forall n res, (n < NM)%nat -> exists k res',
  (forall f, mv_backward (k + f) MM NM (S m) n A v res = mv_backward f MM NM m NM A v res') /\
  res' m = res m + sum n (term m) /\
  (forall c, c <> m -> res' c = res c).
Proof.
  intro Hm. induction n as [|n IH]; intros res Hn.
  - exists 1%nat, res. repeat split; auto.
    + intro f. cbn [Nat.add mv_backward].
      replace (S m =? 0)%nat with false by reflexivity. cbn [andb].
      destruct (0 =? NM)%nat eqn:E; [apply Nat.eqb_eq in E; lia|].
      rewrite Nat.eqb_refl. f_equal; lia.
    + cbn; ring.
  - destruct (IH (upd res m (res m + term m n)) ltac:(lia)) as (k & res' & F & G & K).
    exists (S k), res'. repeat split.
    + intro f. cbn [Nat.add mv_backward].
      replace (S m =? 0)%nat with false by reflexivity. cbn [andb].
      destruct (S n =? NM)%nat eqn:E; [apply Nat.eqb_eq in E; lia|].
      replace (S n =? 0)%nat with false by reflexivity.
      replace (S n - 1)%nat with n by lia. replace (S m - 1)%nat with m by lia. apply F.
    + rewrite G, upd_same, sum_S. ring.
    + intros c Hc. rewrite K by exact Hc. apply upd_other, Hc.
Qed.
Lemma mvb_all : (0 < NM)%nat -> forall m res, (m <= MM)%nat -> exists k res',
  (forall f, mv_backward (k + f) MM NM m NM A v res = Some res') /\
  (forall i, (i < m)%nat -> res' i = sum NM (term i)) /\
  (forall c, (m <= c)%nat -> res' c = res c).
Proof.
  intros HN. induction m as [|m IH]; intros res Hm.
  - exists 1%nat, res. repeat split; auto; [|intros; lia].
    intro f. cbn [Nat.add mv_backward]. rewrite !Nat.eqb_refl. reflexivity.
  - destruct (mvb_row m ltac:(lia) (NM - 1)%nat (upd res m (term m (NM - 1))) ltac:(lia))
      as (k & r1 & F & G & K).
    destruct (IH r1 ltac:(lia)) as (k2 & r2 & F2 & G2 & K2).
    exists (S (k + k2)), r2. repeat split.
    + intro f. cbn [Nat.add mv_backward].
      replace (S m =? 0)%nat with false by reflexivity. cbn [andb]. rewrite Nat.eqb_refl.
      replace (S m - 1)%nat with m by lia.
      change (A ((NM - 1) * MM + m)%nat * v (NM - 1)%nat) with (term m (NM - 1)).
      rewrite <- Nat.add_assoc, F. apply F2.
    + intros i Hi. destruct (Nat.eq_dec i m) as [->|N]; [|apply G2; lia].
      rewrite K2 by lia. rewrite G, upd_same.
      replace NM with (S (NM - 1)) at 3 by lia. rewrite sum_S. ring.
    + intros c Hc. rewrite K2 by lia. rewrite K by lia. apply upd_other; lia.
Qed.

Lemma mvf_row m : (m < MM)%nat -> forall d n res, (n + d = NM)%nat -> (0 < n)%nat -> exists k res',
  (forall f, mv_forward (k + f) MM NM m n A v res = mv_forward f MM NM (m + 1) 0 A v res') /\
  res' m - sum NM (term m) = res m - sum n (term m) /\
  (forall c, c <> m -> res' c = res c).
Proof.
  intro Hm. induction d as [|d IH]; intros n res Hd Hn.
  - replace n with NM by lia. exists 1%nat, res. repeat split; auto.
    intro f. cbn [Nat.add mv_forward].
    destruct (m =? MM)%nat eqn:E; [apply Nat.eqb_eq in E; lia|]. cbn [andb].
    rewrite Nat.eqb_refl. reflexivity.
  - destruct (IH (n + 1)%nat (upd res m (res m + term m n)) ltac:(lia) ltac:(lia)) as (k & res' & F & G & K).
    exists (S k), res'. repeat split.
    + intro f. cbn [Nat.add mv_forward].
      destruct (m =? MM)%nat eqn:E; [apply Nat.eqb_eq in E; lia|]. cbn [andb].
      destruct (n =? NM)%nat eqn:E2; [apply Nat.eqb_eq in E2; lia|].
      destruct (n =? 0)%nat eqn:E3; [apply Nat.eqb_eq in E3; lia|]. apply F.
    + rewrite G, upd_same. replace (n + 1)%nat with (S n) by lia. rewrite sum_S. ring.
    + intros c Hc. rewrite K by exact Hc. apply upd_other, Hc.
Qed.
Lemma mvf_all : (0 < NM)%nat -> forall d m res, (m + d = MM)%nat -> exists k res',
  (forall f, mv_forward (k + f) MM NM m 0 A v res = Some res') /\
  (forall i, (m <= i < MM)%nat -> res' i = sum NM (term i)) /\
  (forall c, (c < m \/ MM <= c)%nat -> res' c = res c).
Proof.
  intros HN. induction d as [|d IH]; intros m res Hm.
  - exists 1%nat, res. repeat split; auto; [|intros; lia].
    intro f. cbn [Nat.add mv_forward]. replace m with MM by lia. rewrite !Nat.eqb_refl. reflexivity.
  - destruct (mvf_row m ltac:(lia) (NM - 1)%nat 1%nat (upd res m (term m 0)) ltac:(lia) ltac:(lia))
      as (k & r1 & F & G & K).
    destruct (IH (m + 1)%nat r1 ltac:(lia)) as (k2 & r2 & F2 & G2 & K2).
    exists (S (k + k2)), r2. repeat split.
    + intro f. cbn [Nat.add mv_forward].
      destruct (m =? MM)%nat eqn:E; [apply Nat.eqb_eq in E; lia|]. cbn [andb].
      destruct (0 =? NM)%nat eqn:E2; [apply Nat.eqb_eq in E2; lia|]. rewrite Nat.eqb_refl.
      change (A m * v 0%nat) with (term m 0).
      rewrite <- Nat.add_assoc, F. apply F2.
    + intros i Hi. destruct (Nat.eq_dec i m) as [->|N]; [|apply G2; lia].
      rewrite K2 by lia. rewrite upd_same, sum_S in G. cbn [sum] in G. lra.
    + intros c Hc. rewrite K2 by lia. rewrite K by lia. apply upd_other; lia.
Qed.
End MV.

(** *** matrix-matrix product *)
Section MM.
Variables (M1 N1 N2 : nat) (A B : vect).
Let term (m n k : nat) : R := A (k * M1 + m)%nat * B (n * N1 + k)%nat.

Lemma mm_cell m n : (m < M1)%nat -> forall d st res, (st + d = N1)%nat -> (0 < st)%nat -> exists k res',
  (forall f, mm_forward (k + f) M1 N1 N2 m n st A B res = mm_forward f M1 N1 N2 (m + 1) n 0 A B res') /\
  res' (n * M1 + m)%nat - sum N1 (term m n) = res (n * M1 + m)%nat - sum st (term m n) /\
  (forall c, c <> (n * M1 + m)%nat -> res' c = res c).
Proof.
  intro Hm. induction d as [|d IH]; intros st res Hd Hs.
  - replace st with N1 by lia. exists 1%nat, res. repeat split; auto.
    intro f. cbn [Nat.add mm_forward].
    destruct (N1 =? 0)%nat eqn:E; [apply Nat.eqb_eq in E; lia|]. rewrite !andb_false_r.
    rewrite Nat.eqb_refl. reflexivity.
  - destruct (IH (st + 1)%nat (upd res (n * M1 + m) (res (n * M1 + m)%nat + term m n st)) ltac:(lia) ltac:(lia))
      as (k & res' & F & G & K).
    exists (S k), res'. repeat split.
    + intro f. cbn [Nat.add mm_forward].
      destruct (st =? 0)%nat eqn:E; [apply Nat.eqb_eq in E; lia|]. rewrite !andb_false_r.
      destruct (st =? N1)%nat eqn:E2; [apply Nat.eqb_eq in E2; lia|]. apply F.
    + rewrite G, upd_same. replace (st + 1)%nat with (S st) by lia. rewrite sum_S. ring.
    + intros c Hc. rewrite K by exact Hc. apply upd_other, Hc.
Qed.
Lemma mm_column n : (0 < N1)%nat -> (n < N2)%nat -> forall d m res, (m + d = M1)%nat -> exists k res',
  (forall f, mm_forward (k + f) M1 N1 N2 m n 0 A B res = mm_forward f M1 N1 N2 0 (n + 1) 0 A B res') /\
  (forall i, (m <= i < M1)%nat -> res' (n * M1 + i)%nat = sum N1 (term i n)) /\
  (forall c, (c < n * M1 + m \/ n * M1 + M1 <= c)%nat -> res' c = res c).
Proof.
  intros HN Hn. induction d as [|d IH]; intros m res Hm.
  - exists 1%nat, res. repeat split; auto; [|intros; lia].
    intro f. cbn [Nat.add mm_forward].
    destruct (n =? N2)%nat eqn:E; [apply Nat.eqb_eq in E; lia|].
    rewrite andb_false_r. cbn [andb]. replace m with M1 by lia. rewrite !Nat.eqb_refl. reflexivity.
  - destruct (mm_cell m n ltac:(lia) (N1 - 1)%nat 1%nat (upd res (n * M1 + m) (term m n 0)) ltac:(lia) ltac:(lia))
      as (k & r1 & F & G & K).
    destruct (IH (m + 1)%nat r1 ltac:(lia)) as (k2 & r2 & F2 & G2 & K2).
    exists (S (k + k2)), r2. repeat split.
    + intro f. cbn [Nat.add mm_forward].
      destruct (n =? N2)%nat eqn:E; [apply Nat.eqb_eq in E; lia|].
      rewrite andb_false_r. cbn [andb].
      destruct (m =? M1)%nat eqn:E2; [apply Nat.eqb_eq in E2; lia|]. rewrite Nat.eqb_refl. cbn [andb].
      replace (A m * B (n * N1)%nat) with (term m n 0) by (unfold term; f_equal; f_equal; lia).
      rewrite <- Nat.add_assoc, F. apply F2.
    + intros i Hi. destruct (Nat.eq_dec i m) as [->|N]; [|apply G2; lia].
      rewrite K2 by lia. rewrite upd_same, sum_S in G. cbn [sum] in G. lra.
    + intros c Hc. rewrite K2 by lia. rewrite K by lia. apply upd_other; lia.
Qed.
Lemma mm_all : (0 < N1)%nat -> forall d n res, (n + d = N2)%nat -> exists k res',
  (forall f, mm_forward (k + f) M1 N1 N2 0 n 0 A B res = Some res') /\
  (forall i j, (i < M1)%nat -> (n <= j < N2)%nat -> res' (j * M1 + i)%nat = sum N1 (term i j)) /\
  (forall c, (c < n * M1 \/ N2 * M1 <= c)%nat -> res' c = res c).
Proof.
  intros HN. induction d as [|d IH]; intros n res Hn.
  - exists 1%nat, res. repeat split; auto; [|intros; lia].
    intro f. cbn [Nat.add mm_forward]. replace n with N2 by lia. rewrite !Nat.eqb_refl. reflexivity.
  - destruct (mm_column n HN ltac:(lia) M1 0%nat res ltac:(lia)) as (k & r1 & F & G & K).
    destruct (IH (n + 1)%nat r1 ltac:(lia)) as (k2 & r2 & F2 & G2 & K2).
    exists (k + k2)%nat, r2. repeat split.
    + intro f. rewrite <- Nat.add_assoc, F. apply F2.
    + intros i j Hi Hj. destruct (Nat.eq_dec j n) as [->|N]; [|apply G2; lia].
      rewrite K2 by nia. apply G; lia.
    + intros c Hc. rewrite K2 by nia. apply K; nia.
Qed.
End MM.

(** *** decompositions U diag(s) W with inner dimension r *)
Definition form (r : nat) (U : mat) (s : vect) (W : mat) : mat := fun i j =>
  sum r (fun k => U i k * s k * W k j).
Lemma form_mul r m U s W Z t Y : meq r r (mmul m W Z) eye -> forall i j,
  mmul m (form r U s W) (form r Z t Y) i j = form r U (fun k => s k * t k) Y i j.
Proof.
  intros H i j. unfold mmul, form.
  transitivity (sum m (fun l => sum r (fun k => sum r (fun h => (U i k * s k * (t h * Y h j)) * (W k l * Z l h))))).
  { apply sum_ext; intros l _. rewrite <- sum_scal_r. apply sum_ext; intros k _.
    rewrite <- sum_scal_l. apply sum_ext; intros h _. ring. }
  rewrite sum_swap. apply sum_ext; intros k Hk.
  rewrite sum_swap.
  rewrite (sum_single r _ k Hk).
  - rewrite sum_scal_l. specialize (H k k Hk Hk). unfold mmul in H.
    rewrite H. unfold eye. rewrite Nat.eqb_refl. ring.
  - intros h Hh N. rewrite sum_scal_l. specialize (H k h Hk Hh). unfold mmul in H. rewrite H.
    unfold eye. destruct (k =? h)%nat eqn:E; [apply Nat.eqb_eq in E; congruence|ring].
Qed.
Lemma form_tr r U s W i j : tr (form r U s W) i j = form r (tr W) s (tr U) i j.
Proof. unfold tr, form. apply sum_ext; intros k _; ring. Qed.
Lemma form_ext r U s t W i j : (forall k, (k < r)%nat -> s k = t k) -> form r U s W i j = form r U t W i j.
Proof. intro H; unfold form; apply sum_ext; intros k Hk; rewrite H by exact Hk; reflexivity. Qed.
Lemma pinv_s_l s k : s k * pinv_s s k * s k = s k.
Proof. unfold pinv_s; destruct (Req_EM_T (s k) 0) as [E|E]; [rewrite E; ring|field; exact E]. Qed.
Lemma pinv_s_r s k : pinv_s s k * s k * pinv_s s k = pinv_s s k.
Proof. unfold pinv_s; destruct (Req_EM_T (s k) 0) as [E|E]; [rewrite E; ring|field; exact E]. Qed.
Lemma pseudo_invert_form n m U s Vt i j :
  pseudo_invert n m U s Vt i j = form (Nat.min n m) (tr Vt) (pinv_s s) (tr U) i j.
Proof.
  unfold pseudo_invert. destruct (m <? n)%nat eqn:E.
  - apply Nat.ltb_lt in E. rewrite Nat.min_r by lia. unfold tr, mmul, form.
    apply sum_ext; intros k Hk. apply Nat.ltb_lt in Hk; rewrite Hk. ring.
  - apply Nat.ltb_ge in E. rewrite Nat.min_l by lia. unfold tr, mmul, form.
    apply sum_ext; intros k Hk. apply Nat.ltb_lt in Hk; rewrite Hk. ring.
Qed.

(** *** means and variances of point lists *)
Definition lsum (f : vect -> R) (l : list vect) : R := fold_right (fun p s => f p + s) 0 l.
Lemma lsum_cons f p l : lsum f (p :: l) = f p + lsum f l.
Proof. reflexivity. Qed.
Lemma fold_vadd (g : vect -> vect) l s i :
  fold_left (fun s p => vadd s (g p)) l s i = s i + lsum (fun p => g p i) l.
Proof.
  revert s; induction l as [|p l IH]; intro s; cbn; [ring|].
  rewrite IH. unfold vadd, lsum. ring.
Qed.
Lemma lsum_lin f a b l : lsum (fun p => a * f p + b) l = a * lsum f l + INR (length l) * b.
Proof.
  induction l as [|p l IH]; [cbn; ring|]. cbn [length]. rewrite !lsum_cons, IH, S_INR. ring.
Qed.
Lemma lsum_sq f m l : lsum (fun p => (f p - m) * (f p - m)) l =
  lsum (fun p => f p * f p) l - 2 * m * lsum f l + INR (length l) * (m * m).
Proof.
  induction l as [|p l IH]; [cbn; ring|]. cbn [length]. rewrite !lsum_cons, IH, S_INR. ring.
Qed.
Lemma lsum_nonneg f l : (forall p, 0 <= f p) -> 0 <= lsum f l.
Proof. intro H; induction l as [|p l IH]; [cbn; lra|]. rewrite lsum_cons. specialize (H p). lra. Qed.
Lemma lsum_ext f g l : (forall p, f p = g p) -> lsum f l = lsum g l.
Proof. intro H; induction l as [|p l IH]; [reflexivity|]. rewrite !lsum_cons, H, IH. reflexivity. Qed.
Lemma norm_params_spec pts sh sc : norm_params pts = Some (sh, sc) ->
  0 < INR (length pts) /\ (forall i, INR (length pts) * sh i = lsum (fun p => p i) pts) /\
  (forall i, sc i = sqrt (/ INR (length pts) * lsum (fun p => (p i - sh i) * (p i - sh i)) pts)).
Proof.
  intro H. assert (NE : pts <> []) by (intro E; rewrite E in H; discriminate H).
  assert (P : 0 < INR (length pts)). { apply lt_0_INR. destruct pts; [congruence|cbn; lia]. }
  assert (Hs : vscale (1 / INR (length pts)) (fold_left (fun s p => vadd s p) pts (fun _ => 0)) = sh).
  { destruct pts; [congruence|]. unfold norm_params in H. injection H as E _. exact E. }
  assert (Hc : (fun i => sqrt (vscale (1 / INR (length pts)) (fold_left (fun s p => vadd s (fun i => p i * p i)) pts (fun _ => 0)) i
     - sh i * sh i)) = sc).
  { rewrite <- Hs. destruct pts; [congruence|]. unfold norm_params in H. injection H as _ E. exact E. }
  set (l := pts) in *.
  assert (S1 : forall i, sh i = / INR (length l) * lsum (fun p => p i) l).
  { intro i. rewrite <- Hs. unfold vscale. rewrite (fold_vadd (fun p => p)). cbv beta. field. lra. }
  split; [exact P|split].
  - intro i. rewrite S1. field. lra.
  - intro i. rewrite <- Hc. unfold vscale.
    rewrite (fold_vadd (fun p i => p i * p i)). cbv beta. f_equal.
    rewrite lsum_sq. assert (S2 : lsum (fun p => p i) l = INR (length l) * sh i).
    { rewrite S1. field. lra. }
    rewrite S2. field. lra.
Qed.

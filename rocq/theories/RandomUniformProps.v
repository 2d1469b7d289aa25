From Coq Require Import Reals Lra Lia Psatz Arith Bool List Classical.
From Coquelicot Require Import Coquelicot.
From Verif Require Import Mat Quat QuatProofs RandomDraw RandomDrawProps RandomMomentsProps.
Import ListNotations.
Open Scope R_scope.

(** * Random rotations are uniformly distributed: every continuous function has the same mean after any rotation *)

(** ** Bernstein's operator, as the mean over n tosses of a coin *)
Fixpoint toss (t : R) (n : nat) (g : nat -> R) : R :=
  match n with O => g 0%nat | S n => (1 - t) * toss t n g + t * toss t n (fun k => g (S k)) end.
Lemma toss_le t n : 0 <= t <= 1 -> forall g g', (forall k, (k <= n)%nat -> g k <= g' k) -> toss t n g <= toss t n g'.
Proof.
  intros T. induction n as [|n IH]; intros g g' H; cbn; [apply H; lia|].
  assert (A : toss t n g <= toss t n g') by (apply IH; intros k K; apply H; lia).
  assert (B : toss t n (fun k => g (S k)) <= toss t n (fun k => g' (S k))) by (apply IH; intros k K; apply H; lia). nra.
Qed.
Lemma toss_lin t n c d : forall g g', toss t n (fun k => c * g k + d * g' k) = c * toss t n g + d * toss t n g'.
Proof. induction n as [|n IH]; intros g g'; cbn; [reflexivity|]. rewrite (IH g g'), (IH (fun k => g (S k)) (fun k => g' (S k))). ring. Qed.
Lemma toss_const t n c : toss t n (fun _ => c) = c.
Proof. induction n as [|n IH]; cbn; [reflexivity|]. rewrite IH. ring. Qed.
Lemma toss_ext t n : forall g g', (forall k, (k <= n)%nat -> g k = g' k) -> toss t n g = toss t n g'.
Proof.
  induction n as [|n IH]; intros g g' H; cbn; [apply H; lia|]. rewrite (IH g g') by (intros; apply H; lia).
  rewrite (IH (fun k => g (S k)) (fun k => g' (S k))) by (intros; apply H; lia). reflexivity.
Qed.
Lemma toss_var t n : forall a, toss t n (fun k => (INR k - a) ^ 2) = INR n * t * (1 - t) + (INR n * t - a) ^ 2.
Proof.
  induction n as [|n IH]; intros a; [cbn; ring|]. cbn [toss]. rewrite IH.
  rewrite (toss_ext t n (fun k => (INR (S k) - a) ^ 2) (fun k => (INR k - (a - 1)) ^ 2)) by (intros k _; rewrite S_INR; ring).
  rewrite IH, S_INR. ring.
Qed.
Lemma toss_abs t n g g' e : 0 <= t <= 1 -> (forall k, (k <= n)%nat -> Rabs (g k - g' k) <= e) -> Rabs (toss t n g - toss t n g') <= e.
Proof.
  intros T H. apply Rabs_le. split.
  - assert (L : toss t n (fun k => 1 * g' k + (- e) * 1) <= toss t n g). { apply toss_le; [exact T|]. intros k K. specialize (H k K). apply Rabs_le_between in H. lra. }
    rewrite (toss_lin t n 1 (- e) g' (fun _ => 1)), toss_const in L. lra.
  - assert (L : toss t n g <= toss t n (fun k => 1 * g' k + e * 1)). { apply toss_le; [exact T|]. intros k K. specialize (H k K). apply Rabs_le_between in H. lra. }
    rewrite (toss_lin t n 1 e g' (fun _ => 1)), toss_const in L. lra.
Qed.
(** the nodes between -1 and 1 *)
Definition node (n k : nat) : R := 2 * INR k / INR n - 1.
Lemma node_in n k : (0 < n)%nat -> (k <= n)%nat -> -1 <= node n k <= 1.
Proof.
  intros N K. unfold node. assert (P := lt_0_INR n N). assert (L := le_INR k n K). assert (Z := pos_INR k).
  assert (0 <= INR k / INR n <= 1). { split; [apply Rmult_le_pos; [exact Z|left; apply Rinv_0_lt_compat, P]|]. apply (Rmult_le_reg_r (INR n)); [exact P|]. unfold Rdiv. rewrite Rmult_assoc, Rinv_l by lra. lra. }
  unfold Rdiv in *. lra.
Qed.
Lemma toss_near n x g e K : (0 < n)%nat -> -1 <= x <= 1 -> 0 <= K ->
  (forall u, -1 <= u <= 1 -> Rabs (g u - g x) <= e + K * (u - x) ^ 2) ->
  Rabs (toss ((1 + x) / 2) n (fun k => g (node n k)) - g x) <= e + K / INR n.
Proof.
  intros N X KP H. assert (P := lt_0_INR n N). set (t := (1 + x) / 2). assert (T : 0 <= t <= 1) by (unfold t; lra).
  assert (V : toss t n (fun k => (node n k - x) ^ 2) <= / INR n).
  { rewrite (toss_ext t n _ (fun k => (4 / (INR n * INR n)) * (INR k - INR n * t) ^ 2 + 0 * 0)) by (intros k _; unfold node, t; field; lra).
    rewrite (toss_lin t n (4 / (INR n * INR n)) 0 (fun k => (INR k - INR n * t) ^ 2) (fun _ => 0)), toss_var.
    replace (4 / (INR n * INR n) * (INR n * t * (1 - t) + (INR n * t - INR n * t) ^ 2) + 0 * toss t n (fun _ => 0)) with ((4 * (t * (1 - t))) * / INR n) by (field; lra).
    rewrite <- (Rmult_1_l (/ INR n)) at 2. apply Rmult_le_compat_r; [left; apply Rinv_0_lt_compat, P|]. assert (Q := Rle_0_sqr (2 * t - 1)). unfold Rsqr in Q. lra. }
  assert (B : toss t n (fun k => e * 1 + K * (node n k - x) ^ 2) <= e + K / INR n).
  { rewrite (toss_lin t n e K (fun _ => 1) (fun k => (node n k - x) ^ 2)), toss_const. unfold Rdiv. nra. }
  apply Rabs_le. split.
  - assert (L : toss t n (fun k => 1 * g x + (-1) * (e * 1 + K * (node n k - x) ^ 2)) <= toss t n (fun k => g (node n k))).
    { apply toss_le; [exact T|]. intros k Kn. assert (A := H _ (node_in n k N Kn)). apply Rabs_le_between in A. lra. }
    rewrite (toss_lin t n 1 (-1) (fun _ => g x) (fun k => e * 1 + K * (node n k - x) ^ 2)), toss_const in L. lra.
  - assert (L : toss t n (fun k => g (node n k)) <= toss t n (fun k => 1 * g x + 1 * (e * 1 + K * (node n k - x) ^ 2))).
    { apply toss_le; [exact T|]. intros k Kn. assert (A := H _ (node_in n k N Kn)). apply Rabs_le_between in A. lra. }
    rewrite (toss_lin t n 1 1 (fun _ => g x) (fun k => e * 1 + K * (node n k - x) ^ 2)), toss_const in L. lra.
Qed.

(** ** continuous functions of the four components *)
Definition cube (q : quat) : Prop := -1 <= qx q <= 1 /\ -1 <= qy q <= 1 /\ -1 <= qz q <= 1 /\ -1 <= qw q <= 1.
Definition near (d : R) (p q : quat) : Prop := Rabs (qx p - qx q) < d /\ Rabs (qy p - qy q) < d /\ Rabs (qz p - qz q) < d /\ Rabs (qw p - qw q) < d.
Definition continuous_quat (f : quat -> R) : Prop := forall q e, 0 < e -> exists d, 0 < d /\ forall p, near d p q -> Rabs (f p - f q) < e.
Definition bern (n : nat) (f : quat -> R) (q : quat) : R :=
  toss ((1 + qx q) / 2) n (fun i => toss ((1 + qy q) / 2) n (fun j => toss ((1 + qz q) / 2) n (fun k => toss ((1 + qw q) / 2) n (fun l =>
    f (Q (node n i) (node n j) (node n k) (node n l)))))).

(** Heine: continuity on the cube is uniform *)
Lemma uniform f : continuous_quat f -> forall e, 0 < e -> exists d, 0 < d /\ forall p q, cube p -> cube q -> near d p q -> Rabs (f p - f q) <= e.
Proof.
  intros CF e E. set (ok q d := 0 < d <= 1 /\ forall p, near d p q -> Rabs (f p - f q) < e / 2).
  assert (F : forall q, exists d, is_lub (ok q) d /\ 0 < d).
  { intros q. destruct (CF q (e / 2) ltac:(lra)) as (d & D & H). destruct (completeness (ok q)) as (m & M).
    - exists 1. intros x ((_ & X) & _). exact X.
    - exists (Rmin d 1). split; [split; [apply Rmin_glb_lt; lra|apply Rmin_r]|]. intros p (A & B & C1 & C2). assert (L := Rmin_l d 1). apply H. repeat split; lra.
    - exists m. split; [exact M|]. assert (ok q (Rmin d 1)). { split; [split; [apply Rmin_glb_lt; lra|apply Rmin_r]|]. intros p (A & B & C1 & C2). assert (L := Rmin_l d 1). apply H. repeat split; lra. }
      destruct M as (M & _). specialize (M _ H0). assert (0 < Rmin d 1) by (apply Rmin_glb_lt; lra). lra. }
  assert (LL : forall q, is_lub_Rbar (ok q) (Lub_Rbar (ok q))) by (intros q; apply Lub_Rbar_correct).
  assert (RL : forall q, 0 < real (Lub_Rbar (ok q)) /\ forall p, near (real (Lub_Rbar (ok q)) / 2) p q -> Rabs (f p - f q) < e / 2).
  { intros q. destruct (F q) as (m & M & MP). assert (EQ : Lub_Rbar (ok q) = Finite m).
    { apply is_lub_Rbar_unique. split; [intros x X; apply M, X|]. intros b B. destruct b as [b| |]; cbn; [|exact I|].
      - apply M. intros x X. exact (B x X).
      - destruct (classic (exists x, ok q x)) as [(x & X)|N]; [exact (B x X)|]. exfalso. assert (0 <= m / 2); [lra|]. assert (m <= m / 2); [|lra]. apply M. intros x X. exfalso. apply N. exists x. exact X. }
    rewrite EQ. cbn. split; [exact MP|]. intros p NP. destruct (classic (exists x, ok q x /\ m / 2 < x)) as [(x & (X1 & X2) & X3)|N].
    - apply X2. destruct NP as (A & B & C1 & C2). repeat split; lra.
    - exfalso. assert (m <= m / 2); [|lra]. apply M. intros x X. apply Rnot_lt_le. intros Y. apply N. exists x. split; assumption. }
  set (toq := fun t : Tn 4 R => let '(a, (b, (c, (d, _)))) := t in Q a b c d).
  assert (DP : forall t, 0 < real (Lub_Rbar (ok (toq t))) / 4) by (intros t; destruct (RL (toq t)) as (P & _); lra).
  destruct (compactness_value 4 ((-1), ((-1), ((-1), ((-1), tt)))) (1, (1, (1, (1, tt)))) (fun t => mkposreal _ (DP t))) as (d & D).
  exists d. split; [apply cond_pos|]. intros p q CP CQ NQ. destruct q as [a b c w]. destruct CQ as (Q1 & Q2 & Q3 & Q4). cbn in Q1, Q2, Q3, Q4.
  destruct (Rle_or_lt (Rabs (f p - f (Q a b c w))) e) as [L|L]; [exact L|]. exfalso. apply (D (a, (b, (c, (w, tt))))).
  - cbn. tauto.
  - intros (t & _ & CL & DL). cbn [pos] in DL. destruct t as (a' & (b' & (c' & (w' & u)))). cbn -[Lub_Rbar toq] in CL. cbn [toq] in CL, DL. destruct CL as (C1 & C2 & C3 & C4 & _).
    destruct (RL (Q a' b' c' w')) as (P & G). set (r := real (Lub_Rbar (ok (Q a' b' c' w')))) in *. destruct NQ as (N1 & N2 & N3 & N4). cbn [qx qy qz qw] in N1, N2, N3, N4.
    assert (G1 : Rabs (f (Q a b c w) - f (Q a' b' c' w')) < e / 2). { apply G. repeat split; cbn [qx qy qz qw]; lra. }
    assert (TR : forall x y z, Rabs (x - y) < d -> Rabs (y - z) < r / 4 -> Rabs (x - z) < r / 2). { intros x y z X Y. replace (x - z) with ((x - y) + (y - z)) by ring. eapply Rle_lt_trans; [apply Rabs_triang|]. lra. }
    assert (G2 : Rabs (f p - f (Q a' b' c' w')) < e / 2). { apply G. repeat split; cbn [qx qy qz qw]; eapply TR; eassumption. }
    apply (Rlt_irrefl e). eapply Rlt_trans; [exact L|]. replace (f p - f (Q a b c w)) with ((f p - f (Q a' b' c' w')) - (f (Q a b c w) - f (Q a' b' c' w'))) by ring. unfold Rminus at 1. eapply Rle_lt_trans; [apply Rabs_triang|]. rewrite Rabs_Ropp. lra.
Qed.
Lemma chain g d e : 0 < d -> (forall u v, -1 <= u <= 1 -> -1 <= v <= 1 -> Rabs (u - v) < d -> Rabs (g u - g v) <= e) ->
  forall m u v, -1 <= u <= 1 -> -1 <= v <= 1 -> Rabs (u - v) < INR m * d -> Rabs (g u - g v) <= INR m * e.
Proof.
  intros D H. induction m as [|m IH]; intros u v U V L; [cbn in L; assert (A := Rabs_pos (u - v)); lra|].
  assert (MP := pos_INR m). rewrite S_INR in *. set (w := (INR m * u + v) / (INR m + 1)).
  assert (W : -1 <= w <= 1). { unfold w. split; [apply (Rmult_le_reg_r (INR m + 1)); [lra|]|apply (Rmult_le_reg_r (INR m + 1)); [lra|]]; unfold Rdiv; rewrite Rmult_assoc, Rinv_l by lra; nra. }
  assert (E1 : u - w = (u - v) / (INR m + 1)) by (unfold w; field; lra). assert (E2 : w - v = INR m * ((u - v) / (INR m + 1))) by (unfold w; field; lra).
  assert (A1 : Rabs (u - w) < d). { rewrite E1. unfold Rdiv. rewrite Rabs_mult, (Rabs_right (/ (INR m + 1))) by (left; apply Rinv_0_lt_compat; lra). apply (Rmult_lt_reg_r (INR m + 1)); [lra|]. rewrite Rmult_assoc, Rinv_l by lra. lra. }
  assert (B1 := H u w U W A1). destruct m as [|m'].
  - assert (w = v) by (unfold w; cbn; field). subst w. rewrite H0 in B1. cbn in *. lra.
  - assert (A2 : Rabs (w - v) < INR (S m') * d). { rewrite E2, <- E1, Rabs_mult, (Rabs_right (INR (S m'))) by (apply Rle_ge, pos_INR). apply Rmult_lt_compat_l; [apply lt_0_INR; lia|exact A1]. }
    assert (B2 := IH w v W V A2). replace (g u - g v) with ((g u - g w) + (g w - g v)) by ring. eapply Rle_trans; [apply Rabs_triang|]. lra.
Qed.
Lemma modulus g d e : 0 < d -> 0 <= e -> (forall u v, -1 <= u <= 1 -> -1 <= v <= 1 -> Rabs (u - v) < d -> Rabs (g u - g v) <= e) ->
  forall u v, -1 <= u <= 1 -> -1 <= v <= 1 -> Rabs (g u - g v) <= 3 * e + e / (d * d) * (u - v) ^ 2.
Proof.
  intros D E H u v U V. set (r := Rabs (u - v) / d). assert (RP : 0 <= r) by (apply Rmult_le_pos; [apply Rabs_pos|left; apply Rinv_0_lt_compat, D]).
  destruct (nfloor_ex r RP) as (m & M1 & M2). assert (L : Rabs (u - v) < INR (S m) * d). { rewrite S_INR. apply (Rmult_lt_reg_r (/ d)); [apply Rinv_0_lt_compat, D|]. rewrite (Rmult_assoc _ d), Rinv_r by lra. fold (Rabs (u - v) / d). fold r. lra. }
  assert (B := chain g d e D H (S m) u v U V L). rewrite S_INR in B.
  replace (e / (d * d) * (u - v) ^ 2) with (e * (r * r)). 2: { unfold r. assert (S : Rabs (u - v) * Rabs (u - v) = (u - v) * (u - v)) by (rewrite <- Rabs_mult; apply Rabs_right, Rle_ge, Rle_0_sqr). transitivity (e / (d * d) * (Rabs (u - v) * Rabs (u - v))); [field; lra|]. rewrite S. ring. }
  assert (INR m + 1 <= 3 + r * r) by nra. nra.
Qed.
(** Weierstrass *)
Lemma bern_near f : continuous_quat f -> forall e, 0 < e -> exists N, forall n, (N <= n)%nat -> forall q, cube q -> Rabs (bern n f q - f q) <= e.
Proof.
  intros CF e E. destruct (uniform f CF (e / 16) ltac:(lra)) as (d & D & U). set (K := (e / 16) / (d * d)). assert (KP : 0 <= K). { unfold K. apply Rmult_le_pos; [lra|]. left. apply Rinv_0_lt_compat. nra. }
  destruct (nfloor_ex (K / (e / 16))) as (m & _ & M). { apply Rmult_le_pos; [exact KP|left; apply Rinv_0_lt_compat; lra]. }
  exists (S m). intros n NM q CQ. assert (NP : (0 < n)%nat) by lia. assert (P := lt_0_INR n NP). assert (KN : K / INR n <= e / 16).
  { apply (Rmult_le_reg_r (INR n)); [exact P|]. unfold Rdiv at 1. rewrite Rmult_assoc, Rinv_l, Rmult_1_r by lra. assert (INR (S m) <= INR n) by (apply le_INR; lia). rewrite S_INR in H. assert (K < (e / 16) * (INR m + 1)). { apply (Rmult_lt_reg_r (/ (e / 16))); [apply Rinv_0_lt_compat; lra|]. replace (e / 16 * (INR m + 1) * / (e / 16)) with (INR m + 1) by (field; lra). exact M. } nra. }
  assert (ONE : forall g, (forall u v, -1 <= u <= 1 -> -1 <= v <= 1 -> Rabs (u - v) < d -> Rabs (g u - g v) <= e / 16) -> forall x, -1 <= x <= 1 ->
    Rabs (toss ((1 + x) / 2) n (fun k => g (node n k)) - g x) <= e / 4).
  { intros g G x X. eapply Rle_trans; [apply (toss_near n x g (3 * (e / 16)) K NP X KP)|lra]. intros u V. apply modulus; [exact D|lra|exact G|exact V|exact X]. }
  assert (Z : Rabs 0 < d) by (rewrite Rabs_R0; exact D). destruct q as [x y z w]. destruct CQ as (X & Y & ZZ & W). cbn [qx qy qz qw] in *.
  assert (T : forall t, -1 <= t <= 1 -> 0 <= (1 + t) / 2 <= 1) by (intros; lra). assert (NI := fun k H => node_in n k NP H).
  assert (A1 : forall a b c, -1 <= a <= 1 -> -1 <= b <= 1 -> -1 <= c <= 1 -> Rabs (toss ((1 + w) / 2) n (fun l => f (Q a b c (node n l))) - f (Q a b c w)) <= e / 4).
  { intros a b c A B C0. apply (ONE (fun u => f (Q a b c u))); [|exact W]. intros u v U1 V1 L. apply U; [repeat split; cbn; lra|repeat split; cbn; lra|]. repeat split; cbn; try exact L; rewrite Rminus_diag_eq by reflexivity; exact Z. }
  assert (A2 : forall a b, -1 <= a <= 1 -> -1 <= b <= 1 -> Rabs (toss ((1 + z) / 2) n (fun k => toss ((1 + w) / 2) n (fun l => f (Q a b (node n k) (node n l)))) - f (Q a b z w)) <= e / 2).
  { intros a b A B. replace (toss ((1 + z) / 2) n (fun k => toss ((1 + w) / 2) n (fun l => f (Q a b (node n k) (node n l)))) - f (Q a b z w)) with
      ((toss ((1 + z) / 2) n (fun k => toss ((1 + w) / 2) n (fun l => f (Q a b (node n k) (node n l)))) - toss ((1 + z) / 2) n (fun k => f (Q a b (node n k) w))) + (toss ((1 + z) / 2) n (fun k => f (Q a b (node n k) w)) - f (Q a b z w))) by ring.
    eapply Rle_trans; [apply Rabs_triang|]. replace (e / 2) with (e / 4 + e / 4) by field. apply Rplus_le_compat.
    - apply toss_abs; [apply T; exact ZZ|]. intros k KK. apply A1; [exact A|exact B|apply NI, KK].
    - apply (ONE (fun u => f (Q a b u w))); [|exact ZZ]. intros u v U1 V1 L. apply U; [repeat split; cbn; lra|repeat split; cbn; lra|]. repeat split; cbn; try exact L; rewrite Rminus_diag_eq by reflexivity; exact Z. }
  assert (A3 : forall a, -1 <= a <= 1 -> Rabs (toss ((1 + y) / 2) n (fun j => toss ((1 + z) / 2) n (fun k => toss ((1 + w) / 2) n (fun l => f (Q a (node n j) (node n k) (node n l))))) - f (Q a y z w)) <= 3 * (e / 4)).
  { intros a A. replace (toss ((1 + y) / 2) n (fun j => toss ((1 + z) / 2) n (fun k => toss ((1 + w) / 2) n (fun l => f (Q a (node n j) (node n k) (node n l))))) - f (Q a y z w)) with
      ((toss ((1 + y) / 2) n (fun j => toss ((1 + z) / 2) n (fun k => toss ((1 + w) / 2) n (fun l => f (Q a (node n j) (node n k) (node n l))))) - toss ((1 + y) / 2) n (fun j => f (Q a (node n j) z w))) + (toss ((1 + y) / 2) n (fun j => f (Q a (node n j) z w)) - f (Q a y z w))) by ring.
    eapply Rle_trans; [apply Rabs_triang|]. replace (3 * (e / 4)) with (e / 2 + e / 4) by field. apply Rplus_le_compat.
    - apply toss_abs; [apply T; exact Y|]. intros k KK. apply A2; [exact A|apply NI, KK].
    - apply (ONE (fun u => f (Q a u z w))); [|exact Y]. intros u v U1 V1 L. apply U; [repeat split; cbn; lra|repeat split; cbn; lra|]. repeat split; cbn; try exact L; rewrite Rminus_diag_eq by reflexivity; exact Z. }
  unfold bern. cbn [qx qy qz qw].
  replace (toss ((1 + x) / 2) n (fun i => toss ((1 + y) / 2) n (fun j => toss ((1 + z) / 2) n (fun k => toss ((1 + w) / 2) n (fun l => f (Q (node n i) (node n j) (node n k) (node n l)))))) - f (Q x y z w)) with
    ((toss ((1 + x) / 2) n (fun i => toss ((1 + y) / 2) n (fun j => toss ((1 + z) / 2) n (fun k => toss ((1 + w) / 2) n (fun l => f (Q (node n i) (node n j) (node n k) (node n l)))))) - toss ((1 + x) / 2) n (fun i => f (Q (node n i) y z w))) + (toss ((1 + x) / 2) n (fun i => f (Q (node n i) y z w)) - f (Q x y z w))) by ring.
  eapply Rle_trans; [apply Rabs_triang|]. replace e with (3 * (e / 4) + e / 4) at 1 by field. apply Rplus_le_compat.
  - apply toss_abs; [apply T; exact X|]. intros k KK. apply A3, NI, KK.
  - apply (ONE (fun u => f (Q u y z w))); [|exact X]. intros u v U1 V1 L. apply U; [repeat split; cbn; lra|repeat split; cbn; lra|]. repeat split; cbn; try exact L; rewrite Rminus_diag_eq by reflexivity; exact Z.
Qed.

(** ** Bernstein's approximations are polynomials *)
Definition is_poly (g : quat -> R) : Prop := exists P, forall q, peval P q = g q.
Lemma prod_app l l' : prod (l ++ l') = prod l * prod l'.
Proof. induction l as [|x l IH]; cbn; [unfold prod; ring|]. unfold prod in *. rewrite IH. ring. Qed.
Lemma peval_app P P' q : peval (P ++ P') q = peval P q + peval P' q.
Proof. induction P as [|m P IH]; cbn; [unfold peval; ring|]. unfold peval in *. cbn. rewrite IH. ring. Qed.
Lemma poly_const c : is_poly (fun _ => c).
Proof. exists [(c, [])]. intros q. cbn. unfold prod. cbn. ring. Qed.
Lemma poly_lin l : is_poly (qdot l).
Proof. exists [(1, [l])]. intros q. cbn. unfold prod. cbn. ring. Qed.
Lemma poly_add g g' : is_poly g -> is_poly g' -> is_poly (fun q => g q + g' q).
Proof. intros (P & H) (P' & H'). exists (P ++ P'). intros q. rewrite peval_app, H, H'. reflexivity. Qed.
Lemma poly_mul g g' : is_poly g -> is_poly g' -> is_poly (fun q => g q * g' q).
Proof.
  intros (P & H) (P' & H'). exists (flat_map (fun m => map (fun m' => (fst m * fst m', snd m ++ snd m')) P') P). intros q. rewrite <- H, <- H'. clear.
  induction P as [|m P IH]; [cbn; unfold peval; cbn; ring|]. cbn [flat_map]. rewrite peval_app, IH. assert (E : peval (map (fun m' => (fst m * fst m', snd m ++ snd m')) P') q = fst m * prod (map (fun l => qdot l q) (snd m)) * peval P' q).
  { clear IH. induction P' as [|m' P' IH']; [unfold peval; cbn; ring|]. cbn [map]. unfold peval in *. cbn [fold_right fst snd]. rewrite IH'. rewrite map_app, prod_app. ring. }
  rewrite E. unfold peval. cbn [fold_right]. ring.
Qed.
Lemma poly_ext g g' : (forall q, g q = g' q) -> is_poly g -> is_poly g'.
Proof. intros E (P & H). exists P. intros q. rewrite H. apply E. Qed.
Lemma poly_toss h n : is_poly h -> forall G, (forall k, is_poly (G k)) -> is_poly (fun q => toss (h q) n (fun k => G k q)).
Proof.
  intros H. induction n as [|n IH]; intros G HG; [apply HG|]. cbn [toss]. apply poly_add; apply poly_mul.
  - apply (poly_ext (fun q => 1 + (-1) * h q)); [intros; ring|]. apply poly_add; [apply poly_const|]. apply (poly_mul (fun _ => -1)); [apply poly_const|exact H].
  - apply IH, HG.
  - exact H.
  - apply (IH (fun k => G (S k))). intros k. apply HG.
Qed.
Lemma poly_half l : is_poly (fun q => (1 + qdot l q) / 2).
Proof. apply (poly_ext (fun q => / 2 * (1 + qdot l q))); [intros; field|]. apply (poly_mul (fun _ => / 2)); [apply poly_const|]. apply poly_add; [apply poly_const|apply poly_lin]. Qed.
Lemma bern_poly n f : is_poly (bern n f).
Proof.
  apply (poly_ext (fun q => toss ((1 + qdot (Q 1 0 0 0) q) / 2) n (fun i => toss ((1 + qdot (Q 0 1 0 0) q) / 2) n (fun j => toss ((1 + qdot (Q 0 0 1 0) q) / 2) n (fun k => toss ((1 + qdot (Q 0 0 0 1) q) / 2) n (fun l =>
    f (Q (node n i) (node n j) (node n k) (node n l)))))))).
  - intros [x y z w]. unfold bern, qdot. cbn [qx qy qz qw]. replace (1 * x + 0 * y + 0 * z + 0 * w) with x by ring. replace (0 * x + 1 * y + 0 * z + 0 * w) with y by ring. replace (0 * x + 0 * y + 1 * z + 0 * w) with z by ring. replace (0 * x + 0 * y + 0 * z + 1 * w) with w by ring. reflexivity.
  - do 4 (refine (poly_toss _ n (poly_half _) (fun k q => _) _); intros ?). apply poly_const.
Qed.

(** ** uniform limits of functions with a mean *)
Lemma lim_RInt (f : nat -> R -> R) (g : R -> R) : (forall n, ex_RInt (f n) 0 1) ->
  (forall e, 0 < e -> exists N, forall n, (N <= n)%nat -> forall x, 0 < x < 1 -> Rabs (f n x - g x) <= e) -> ex_RInt g 0 1.
Proof.
  intros I U. set (inside x := if Rlt_dec 0 x then if Rlt_dec x 1 then true else false else false).
  assert (IN : forall x, 0 < x < 1 -> inside x = true). { intros x X. unfold inside. destruct (Rlt_dec 0 x); [|lra]. destruct (Rlt_dec x 1); [reflexivity|lra]. }
  assert (IO : forall x, inside x = true -> 0 < x < 1). { intros x X. unfold inside in X. destruct (Rlt_dec 0 x); [|discriminate]. destruct (Rlt_dec x 1); [lra|discriminate]. }
  destruct (filterlim_RInt (fun n x => if inside x then f n x else 0) 0 1 eventually _ (fun x => if inside x then g x else 0) (fun n => RInt (f n) 0 1)) as (v & _ & V).
  - intros n. apply (int_ext (f n)); [|apply (RInt_correct (V := R_CompleteNormedModule)), I]. intros x X. rewrite IN by exact X. reflexivity.
  - intros P (eps & H). destruct (U (eps / 2)) as (N & HN); [assert (Q := cond_pos eps); lra|]. exists N. intros n NL. apply H. intros x. destruct (inside x) eqn:E.
    + assert (B := HN n NL x (IO x E)). assert (Q := cond_pos eps). change (Rabs (f n x - g x) < eps). lra.
    + apply ball_center.
  - exists v. apply (int_ext (fun x => if inside x then g x else 0)); [|exact V]. intros x X. rewrite IN by exact X. reflexivity.
Qed.
Lemma RInt_near (f g : R -> R) e : ex_RInt f 0 1 -> ex_RInt g 0 1 -> (forall x, 0 < x < 1 -> Rabs (f x - g x) <= e) -> Rabs (RInt f 0 1 - RInt g 0 1) <= e.
Proof.
  intros F G H. assert (Fv := RInt_correct (V := R_CompleteNormedModule) _ _ _ F). assert (Gv := RInt_correct (V := R_CompleteNormedModule) _ _ _ G). assert (Ov : is_RInt (fun _ : R => 1) 0 1 1).
  { assert (K := @is_RInt_const R_NormedModule 0 1 1). change (is_RInt (fun _ : R => 1) 0 1 ((1 - 0) * 1)) in K. replace ((1 - 0) * 1) with 1 in K by ring. exact K. }
  apply Rabs_le. split.
  - assert (A := is_RInt_le _ _ 0 1 _ _ Rle_0_1 (int_lin _ _ _ _ 1 (- e) Gv Ov) Fv). assert (1 * RInt g 0 1 + - e * 1 <= RInt f 0 1); [|lra]. apply A. intros x X. specialize (H x X). apply Rabs_le_between in H. lra.
  - assert (A := is_RInt_le _ _ 0 1 _ _ Rle_0_1 Fv (int_lin _ _ _ _ 1 e Gv Ov)). assert (RInt f 0 1 <= 1 * RInt g 0 1 + e * 1); [|lra]. apply A. intros x X. specialize (H x X). apply Rabs_le_between in H. lra.
Qed.
Definition integrable3 (f : R -> R -> R -> R) : Prop :=
  (forall x y, 0 < x < 1 -> 0 < y < 1 -> ex_RInt (f x y) 0 1) /\ (forall x, 0 < x < 1 -> ex_RInt (fun y => RInt (f x y) 0 1) 0 1) /\ ex_RInt (fun x => RInt (fun y => RInt (f x y) 0 1) 0 1) 0 1.
Lemma mean_integrable f v : has_mean f v -> integrable3 f.
Proof.
  intros (g & h & F & G & H). assert (E1 : forall x y, 0 < x < 1 -> 0 < y < 1 -> RInt (f x y) 0 1 = g x y) by (intros x y X Y; apply is_RInt_unique, F; assumption).
  assert (E2 : forall x, 0 < x < 1 -> is_RInt (fun y => RInt (f x y) 0 1) 0 1 (h x)). { intros x X. apply (int_ext (g x)); [|apply G, X]. intros y Y. symmetry. apply E1; assumption. }
  split; [|split].
  - intros x y X Y. eexists. apply F; assumption.
  - intros x X. eexists. apply E2, X.
  - exists v. apply (int_ext h); [|exact H]. intros x X. symmetry. apply is_RInt_unique, E2, X.
Qed.
Lemma integrable_mean f : integrable3 f -> has_mean f (mean3 f).
Proof.
  intros (F & G & H). exists (fun x y => RInt (f x y) 0 1), (fun x => RInt (fun y => RInt (f x y) 0 1) 0 1). split; [|split].
  - intros x y X Y. apply (RInt_correct (V := R_CompleteNormedModule)), F; assumption.
  - intros x X. apply (RInt_correct (V := R_CompleteNormedModule)), G, X.
  - apply (RInt_correct (V := R_CompleteNormedModule)), H.
Qed.
Lemma mean_near f g e : integrable3 f -> integrable3 g -> (forall x y z, 0 < x < 1 -> 0 < y < 1 -> 0 < z < 1 -> Rabs (f x y z - g x y z) <= e) -> Rabs (mean3 f - mean3 g) <= e.
Proof.
  intros (F & G & H) (F' & G' & H') B. unfold mean3. apply RInt_near; [exact H|exact H'|]. intros x X. apply RInt_near; [apply G, X|apply G', X|]. intros y Y. apply RInt_near; [apply F|apply F'|intros z Z; apply B]; assumption.
Qed.
Lemma lim_integrable (f : nat -> R -> R -> R -> R) g : (forall n, integrable3 (f n)) ->
  (forall e, 0 < e -> exists N, forall n, (N <= n)%nat -> forall x y z, 0 < x < 1 -> 0 < y < 1 -> 0 < z < 1 -> Rabs (f n x y z - g x y z) <= e) -> integrable3 g.
Proof.
  intros I U. assert (J1 : forall n x y, 0 < x < 1 -> 0 < y < 1 -> ex_RInt (f n x y) 0 1) by (intros n; exact (proj1 (I n))).
  assert (J2 : forall n x, 0 < x < 1 -> ex_RInt (fun y => RInt (f n x y) 0 1) 0 1) by (intros n; exact (proj1 (proj2 (I n)))).
  assert (J3 : forall n, ex_RInt (fun x => RInt (fun y => RInt (f n x y) 0 1) 0 1) 0 1) by (intros n; exact (proj2 (proj2 (I n)))).
  assert (A : forall x y, 0 < x < 1 -> 0 < y < 1 -> ex_RInt (g x y) 0 1).
  { intros x y X Y. apply (lim_RInt (fun n => f n x y)); [intros n; apply J1; assumption|]. intros e E. destruct (U e E) as (N & H). exists N. intros n L z Z. apply H; assumption. }
  assert (B : forall x, 0 < x < 1 -> ex_RInt (fun y => RInt (g x y) 0 1) 0 1).
  { intros x X. apply (lim_RInt (fun n y => RInt (f n x y) 0 1)); [intros n; apply J2, X|]. intros e E. destruct (U e E) as (N & H). exists N. intros n L y Y. apply RInt_near; [apply J1; assumption|apply A; assumption|]. intros z Z. apply H; assumption. }
  split; [exact A|]. split; [exact B|]. apply (lim_RInt (fun n x => RInt (fun y => RInt (f n x y) 0 1) 0 1)); [exact J3|]. intros e E. destruct (U e E) as (N & H). exists N. intros n L x X.
  apply RInt_near; [apply J2, X|apply B, X|]. intros y Y. apply RInt_near; [apply J1; assumption|apply A; assumption|]. intros z Z. apply H; assumption.
Qed.

(** ** the theorem *)
Lemma unit_cube q : unit_quat q -> cube q.
Proof.
  unfold unit_quat, cube. destruct q as [a b c d]. cbn [qx qy qz qw]. intros U. assert (S1 := Rle_0_sqr a). assert (S2 := Rle_0_sqr b). assert (S3 := Rle_0_sqr c). assert (S4 := Rle_0_sqr d). unfold Rsqr in *. repeat split; nra.
Qed.
Lemma unit_mul p q : unit_quat p -> unit_quat q -> unit_quat (qmul p q).
Proof.
  unfold unit_quat. destruct p as [a b c d], q as [a' b' c' d']. unfold qmul. cbn. intros U U'. transitivity ((a * a + b * b + c * c + d * d) * (a' * a' + b' * b' + c' * c' + d' * d')); [ring|]. rewrite U, U'. ring.
Qed.
(** the mean over all random rotations of every continuous function exists, and is the same after composing the random rotations
    with any fixed rotation, on either side: the random rotations are uniformly distributed *)
Theorem rotation_uniform f p : continuous_quat f -> unit_quat p ->
  exists m, has_mean (fun x y z => f (random_rotation x y z)) m /\
    has_mean (fun x y z => f (qmul p (random_rotation x y z))) m /\ has_mean (fun x y z => f (qmul (random_rotation x y z) p)) m.
Proof.
  intros CF UP. assert (W := bern_near f CF). assert (UR : forall x y z, 0 < x < 1 -> unit_quat (random_rotation x y z)) by (intros; apply rotation_unit; lra).
  assert (M : forall n, exists m, has_mean (fun x y z => bern n f (random_rotation x y z)) m /\ has_mean (fun x y z => bern n f (qmul p (random_rotation x y z))) m /\ has_mean (fun x y z => bern n f (qmul (random_rotation x y z) p)) m).
  { intros n. destruct (bern_poly n f) as (P & HP). destruct (rotation_invariant P p UP) as (m & M1 & M2 & M3). exists m. split; [|split].
    - eapply mean_same; [|exact M1]. intros x y z _. apply HP.
    - eapply mean_same; [|exact M2]. intros x y z _. apply HP.
    - eapply mean_same; [|exact M3]. intros x y z _. apply HP. }
  assert (G : forall T, (forall x y z, 0 < x < 1 -> unit_quat (T x y z)) -> (forall n, integrable3 (fun x y z => bern n f (T x y z))) -> integrable3 (fun x y z => f (T x y z)) /\
    forall e, 0 < e -> exists N, forall n, (N <= n)%nat -> Rabs (mean3 (fun x y z => bern n f (T x y z)) - mean3 (fun x y z => f (T x y z))) <= e).
  { intros T TU TI. assert (C0 : forall e, 0 < e -> exists N, forall n, (N <= n)%nat -> forall x y z, 0 < x < 1 -> 0 < y < 1 -> 0 < z < 1 -> Rabs (bern n f (T x y z) - f (T x y z)) <= e).
    { intros e E. destruct (W e E) as (N & H). exists N. intros n L x y z X Y Z. apply H; [exact L|]. apply unit_cube, TU, X. }
    assert (I := lim_integrable (fun n x y z => bern n f (T x y z)) (fun x y z => f (T x y z)) TI C0). split; [exact I|].
    intros e E. destruct (C0 e E) as (N & H). exists N. intros n L. apply mean_near; [apply TI|exact I|]. intros x y z X Y Z. apply H; assumption. }
  destruct (G (fun x y z => random_rotation x y z)) as (I1 & L1); [exact UR|intros n; destruct (M n) as (m & M1 & _); exact (mean_integrable _ _ M1)|].
  assert (ALL : forall T, (forall x y z, 0 < x < 1 -> unit_quat (T x y z)) -> (forall n, exists m, has_mean (fun x y z => bern n f (random_rotation x y z)) m /\ has_mean (fun x y z => bern n f (T x y z)) m) ->
    has_mean (fun x y z => f (T x y z)) (mean3 (fun x y z => f (random_rotation x y z)))).
  { intros T TU TM. destruct (G T TU) as (I2 & L2); [intros n; destruct (TM n) as (m & _ & M2); exact (mean_integrable _ _ M2)|].
    replace (mean3 (fun x y z => f (random_rotation x y z))) with (mean3 (fun x y z => f (T x y z))); [apply integrable_mean, I2|].
    apply cond_eq. intros e E. destruct (L1 (e / 3) ltac:(lra)) as (N1 & H1). destruct (L2 (e / 3) ltac:(lra)) as (N2 & H2). set (n := Nat.max N1 N2). specialize (H1 n ltac:(lia)). specialize (H2 n ltac:(lia)).
    destruct (TM n) as (m & E1 & E2). apply has_mean3 in E1. apply has_mean3 in E2. rewrite E1 in H1. rewrite E2 in H2. apply Rabs_le_between in H1. apply Rabs_le_between in H2. apply Rabs_lt_between. lra. }
  exists (mean3 (fun x y z => f (random_rotation x y z))). split; [apply integrable_mean, I1|]. split; apply ALL.
  - intros x y z X. apply unit_mul; [exact UP|apply UR, X].
  - intros n. destruct (M n) as (m & M1 & M2 & _). exists m. split; assumption.
  - intros x y z X. apply unit_mul; [apply UR, X|exact UP].
  - intros n. destruct (M n) as (m & M1 & _ & M3). exists m. split; assumption.
Qed.

(** the larger of two components, which is no polynomial, is continuous; half a turn about an axis *)
Example uniform_case : continuous_quat (fun q => Rmax (qx q) (qy q)) /\ unit_quat (Q (3 / 5) (4 / 5) 0 0).
Proof.
  split; [|unfold unit_quat; cbn; lra]. intros q e E. exists e. split; [exact E|]. intros p (A & B & _). apply Rabs_lt_between in A. apply Rabs_lt_between in B. apply Rabs_lt_between.
  unfold Rmax. destruct (Rle_dec (qx p) (qy p)), (Rle_dec (qx q) (qy q)); lra.
Qed.

Print Assumptions rotation_uniform.

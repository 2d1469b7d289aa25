(** All moments of random rotations (C164). *)
From Coq Require Import Reals Lra Lia Arith Bool List.
From Coquelicot Require Import Coquelicot.
From Verif Require Import Mat Quat QuatProofs RandomDraw RandomDrawProps.
Import ListNotations.
Open Scope R_scope.
Local Notation C := Binomial.C.

(** ** powers of a wave *)
Lemma int_ext (f g : R -> R) v : (forall x, 0 < x < 1 -> f x = g x) -> is_RInt f 0 1 v -> is_RInt g 0 1 v.
Proof. intros H I. eapply is_RInt_ext; [|exact I]. intros x X. rewrite Rmin_left, Rmax_right in X by lra. apply H, X. Qed.

Definition wave (a b t : R) : R := a * sin (2 * t * PI) + b * cos (2 * t * PI).
(** the mean of cos^k over a full turn *)
Fixpoint turn_moment (k : nat) : R :=
  match k with
  | O => 1
  | S O => 0
  | S (S k) => INR (k + 1) / INR (k + 2) * turn_moment k
  end.
Lemma pair_ind (P : nat -> Prop) : P 0%nat -> P 1%nat -> (forall k, P k -> P (S (S k))) -> forall k, P k.
Proof. intros H0 H1 HS k. assert (P k /\ P (S k)) by (induction k as [|k [A B]]; [split; assumption|split; [exact B|apply HS, A]]). tauto. Qed.
Lemma wave_step a b k : is_RInt (fun t => INR (k + 1) * (a * a + b * b) * wave a b t ^ k - INR (k + 2) * wave a b t ^ (S (S k))) 0 1 0.
Proof.
  assert (P := PI_RGT_0).
  apply (derive_RInt (fun t => wave a b t ^ (S k) * (a * cos (2 * t * PI) - b * sin (2 * t * PI)) / (2 * PI))).
  - intros t. unfold wave. auto_derive; [exact I|]. replace (pred (S k)) with k by reflexivity.
    set (w := a * sin (2 * t * PI) + b * cos (2 * t * PI)). set (n := a * cos (2 * t * PI) - b * sin (2 * t * PI)).
    assert (E : a * a + b * b = w * w + n * n). { unfold w, n. assert (Q := sc2 (2 * t * PI)). set (s := sin (2 * t * PI)) in *. set (c := cos (2 * t * PI)) in *. replace ((a * s + b * c) * (a * s + b * c) + (a * c - b * s) * (a * c - b * s)) with ((a * a + b * b) * (s * s + c * c)) by ring. rewrite Q. ring. }
    rewrite E. rewrite !plus_INR. change (INR 1) with 1. replace (INR 2) with 2 by (cbn; ring). rewrite ?S_INR. rewrite <- !tech_pow_Rmult. fold w n.
    replace (match k with O => 1 | S _ => INR k + 1 end) with (INR k + 1) by (destruct k; [cbn; ring|reflexivity]).
    generalize (w ^ k). intros p. unfold w, n. generalize (sin (2 * t * PI)) (cos (2 * t * PI)). intros s c. field. lra.
  - intros t. apply ex_cont. unfold wave. auto_derive. exact I.
  - unfold wave. rewrite sin_2PI1, cos_2PI1, sin_2PI0, cos_2PI0. field. lra.
Qed.

Lemma wave_moment a b k : is_RInt (fun t => wave a b t ^ k) 0 1 ((a * a + b * b) ^ (Nat.div2 k) * turn_moment k).
Proof.
  induction k as [| |k IH] using pair_ind.
  - cbn. rewrite Rmult_1_r. exact int_one.
  - cbn [Nat.div2 turn_moment]. replace ((a * a + b * b) ^ 0 * 0) with (a * 0 + b * 0) by ring. eapply is_RInt_ext; [|exact (is_RInt_plus _ _ 0 1 _ _ (is_RInt_scal _ 0 1 a _ int_sin) (is_RInt_scal _ 0 1 b _ int_cos))].
    intros t _. unfold wave. cbn. ring.
  - assert (S0 := wave_step a b k). assert (S1 := is_RInt_scal _ 0 1 (INR (k + 1) * (a * a + b * b)) _ IH). assert (S2 := is_RInt_minus _ _ 0 1 _ _ S1 S0). assert (S3 := is_RInt_scal _ 0 1 (/ INR (k + 2)) _ S2).
    assert (N : INR (k + 2) <> 0) by (rewrite plus_INR; assert (X := pos_INR k); cbn; lra).
    cbn [Nat.div2 turn_moment]. replace ((a * a + b * b) ^ S (Nat.div2 k) * (INR (k + 1) / INR (k + 2) * turn_moment k)) with (scal (/ INR (k + 2)) (minus (scal (INR (k + 1) * (a * a + b * b)) ((a * a + b * b) ^ Nat.div2 k * turn_moment k)) 0)).
    2: { unfold scal, minus, plus, opp, mult. cbn. unfold mult. cbn. field. exact N. }
    eapply is_RInt_ext; [|exact S3]. intros t _. unfold scal, minus, plus, opp, mult. cbn. unfold mult. cbn. field. exact N.
Qed.
Lemma turn_moment_odd n : turn_moment (2 * n + 1) = 0.
Proof. induction n as [|n IH]; [reflexivity|]. replace (2 * S n + 1)%nat with (S (S (2 * n + 1))) by lia. cbn [turn_moment]. rewrite IH. ring. Qed.
Lemma turn_moment_even n : turn_moment (2 * n) = INR (fact (2 * n)) / (4 ^ n * INR (fact n) * INR (fact n)).
Proof.
  induction n as [|n IH]; [cbn; field|]. replace (2 * S n)%nat with (S (S (2 * n))) by lia. cbn [turn_moment]. rewrite IH. rewrite !fact_simpl, !mult_INR, !plus_INR, !S_INR, !mult_INR. cbn [pow]. replace (INR 2) with 2 by (cbn; ring). change (INR 1) with 1.
  assert (F := INR_fact_neq_0 n). assert (X := pos_INR n). assert (4 ^ n <> 0) by (apply pow_nonzero; lra). change (INR 0) with 0. field. repeat split; try assumption; lra.
Qed.

(** ** the radius *)
Lemma beta p q : is_RInt (fun x => (1 - x) ^ p * x ^ q) 0 1 (INR (fact p) * INR (fact q) / INR (fact (p + q + 1))).
Proof.
  revert p. induction q as [|q IH]; intros p.
  - apply (derive_RInt (fun x => - (1 - x) ^ (S p) / INR (S p))).
    + intros x. auto_derive; [exact I|]. replace (pred (S p)) with p by reflexivity. assert (N : INR (S p) <> 0) by (apply not_0_INR; lia). cbn [pow]. change (match p with O => 1 | S _ => INR p + 1 end) with (INR (S p)). change (1 + - x) with (1 - x). field. exact N.
    + intros x. apply ex_cont. auto_derive. exact I.
    + assert (N : INR (S p) <> 0) by (apply not_0_INR; lia). replace (p + 0 + 1)%nat with (S p) by lia. rewrite fact_simpl, mult_INR. cbn [fact]. change (INR 1) with 1. assert (F := INR_fact_neq_0 p). rewrite !Rminus_0_r, pow1. replace (1 - 1) with 0 by ring. rewrite pow_i by lia. field. split; assumption.
  - assert (N : INR (S p) <> 0) by (apply not_0_INR; lia).
    assert (G : is_RInt (fun x => INR (S q) * ((1 - x) ^ (S p) * x ^ q) - INR (S p) * ((1 - x) ^ p * x ^ (S q))) 0 1 0).
    { apply (derive_RInt (fun x => (1 - x) ^ (S p) * x ^ (S q))).
      - intros x. auto_derive; [exact I|]. replace (pred (S p)) with p by reflexivity. replace (pred (S q)) with q by reflexivity. change (match p with O => 1 | S _ => INR p + 1 end) with (INR (S p)). change (match q with O => 1 | S _ => INR q + 1 end) with (INR (S q)). change (1 + - x) with (1 - x). cbn [pow]. ring.
      - intros x. apply ex_cont. auto_derive. exact I.
      - replace (1 - 1) with 0 by ring. rewrite !pow_i by lia. ring. }
    assert (S1 := is_RInt_scal _ 0 1 (INR (S q)) _ (IH (S p))). assert (S2 := is_RInt_minus _ _ 0 1 _ _ S1 G). assert (S3 := is_RInt_scal _ 0 1 (/ INR (S p)) _ S2).
    replace (INR (fact p) * INR (fact (S q)) / INR (fact (p + S q + 1))) with (scal (/ INR (S p)) (minus (scal (INR (S q)) (INR (fact (S p)) * INR (fact q) / INR (fact (S p + q + 1)))) 0)).
    2: { unfold scal, minus, plus, opp, mult. cbn -[fact INR]. unfold mult. cbn -[fact INR]. replace (p + S q + 1)%nat with (S (p + q + 1)) by lia. rewrite (fact_simpl p), (fact_simpl q), !mult_INR. assert (F := INR_fact_neq_0 (S (p + q + 1))). field. split; assumption. }
    eapply is_RInt_ext; [|exact S3]. intros x _. unfold scal, minus, plus, opp, mult. cbn -[INR pow]. unfold mult. cbn -[INR pow]. field. exact N.
Qed.

Lemma int_zero : is_RInt (fun _ : R => 0) 0 1 0.
Proof. apply (derive_RInt (fun _ => 0)); [intros t; auto_derive; [exact I|reflexivity]|intros t; apply ex_cont; auto_derive; exact I|ring]. Qed.
(** ** sums *)
Lemma sum_RInt (f : nat -> R -> R) v n : (forall j, (j <= n)%nat -> is_RInt (f j) 0 1 (v j)) -> is_RInt (fun t => sum_f_R0 (fun j => f j t) n) 0 1 (sum_f_R0 v n).
Proof.
  induction n as [|n IH]; intros H; [apply H; lia|]. cbn [sum_f_R0]. apply (is_RInt_plus (fun t => sum_f_R0 (fun j => f j t) n) (f (S n))); [apply IH; intros j J; apply H; lia|apply H; lia].
Qed.
Lemma sum_even v n : (forall i, v (2 * i + 1)%nat = 0) -> sum_f_R0 v (2 * n) = sum_f_R0 (fun i => v (2 * i)%nat) n.
Proof.
  intros H. induction n as [|n IH]; [reflexivity|]. replace (2 * S n)%nat with (S (S (2 * n))) by lia. cbn [sum_f_R0]. rewrite IH. replace (S (2 * n)) with (2 * n + 1)%nat by lia. rewrite H. replace (S (2 * n + 1)) with (2 * S n)%nat by lia. ring.
Qed.

(** ** moments of a linear form *)
(** f has the mean v over the unit cube: the iterated integrals exist *)
Definition has_mean (f : R -> R -> R -> R) (v : R) : Prop := exists g h,
  (forall x y, 0 < x < 1 -> 0 < y < 1 -> is_RInt (f x y) 0 1 (g x y)) /\ (forall x, 0 < x < 1 -> is_RInt (g x) 0 1 (h x)) /\ is_RInt h 0 1 v.
Lemma has_mean3 f v : has_mean f v -> mean3 f = v.
Proof.
  intros (g & h & F & G & H). unfold mean3. rewrite (ext_RInt _ h); [apply is_RInt_unique, H|]. intros x X. rewrite (ext_RInt _ (g x)); [apply is_RInt_unique, G, X|]. intros y Y. apply is_RInt_unique, F; assumption.
Qed.
Lemma mean_same f f' v : (forall x y z, 0 < x < 1 -> f x y z = f' x y z) -> has_mean f v -> has_mean f' v.
Proof. intros E (g & h & F & G & H). exists g, h. split; [|tauto]. intros x y X Y. apply (int_ext (f x y)); [intros; apply E, X|apply F; assumption]. Qed.
Lemma int_lin f f' v v' c c' : is_RInt f 0 1 v -> is_RInt f' 0 1 v' -> is_RInt (fun x => c * f x + c' * f' x) 0 1 (c * v + c' * v').
Proof. intros H H'. exact (is_RInt_plus _ _ 0 1 _ _ (is_RInt_scal _ 0 1 c _ H) (is_RInt_scal _ 0 1 c' _ H')). Qed.
Lemma mean_lin f f' v v' c c' : has_mean f v -> has_mean f' v' -> has_mean (fun x y z => c * f x y z + c' * f' x y z) (c * v + c' * v').
Proof.
  intros (g & h & F & G & H) (g' & h' & F' & G' & H'). exists (fun x y => c * g x y + c' * g' x y), (fun x => c * h x + c' * h' x). split; [|split].
  - intros x y X Y. apply int_lin; [apply F|apply F']; assumption.
  - intros x X. apply int_lin; [apply G|apply G']; assumption.
  - apply int_lin; assumption.
Qed.
Lemma mean_null : has_mean (fun _ _ _ => 0) 0.
Proof. exists (fun _ _ => 0), (fun _ => 0). repeat split; intros; apply int_zero. Qed.

Definition sphere_moment (n : nat) : R := INR (fact (2 * n)) / (4 ^ n * INR (fact n) * INR (fact (n + 1))).
Definition term (r s : R) (k j : nat) : R :=
  C k j * (r ^ (Nat.div2 j) * turn_moment j) * (s ^ (Nat.div2 (k - j)) * turn_moment (k - j)) * (INR (fact (Nat.div2 j)) * INR (fact (Nat.div2 (k - j))) / INR (fact (Nat.div2 j + Nat.div2 (k - j) + 1))).
Lemma parity j : exists i, j = (2 * i)%nat \/ j = (2 * i + 1)%nat.
Proof. destruct (Nat.Even_or_Odd j) as [[i E]|[i E]]; exists i; lia. Qed.
Lemma form_mean v k : has_mean (fun x y z => qdot v (random_rotation x y z) ^ k) (sum_f_R0 (term (qx v * qx v + qy v * qy v) (qz v * qz v + qw v * qw v) k) k).
Proof.
  destruct v as [a b c d]. cbn [qx qy qz qw].
  exists (fun x y => sum_f_R0 (fun j => C k j * (sqrt (1 - x) * wave a b y) ^ j * (sqrt x ^ (k - j) * ((c * c + d * d) ^ Nat.div2 (k - j) * turn_moment (k - j)))) k),
    (fun x => sum_f_R0 (fun j => C k j * (sqrt (1 - x) ^ j * ((a * a + b * b) ^ Nat.div2 j * turn_moment j)) * (sqrt x ^ (k - j) * ((c * c + d * d) ^ Nat.div2 (k - j) * turn_moment (k - j)))) k).
  split; [|split].
  - intros x y X Y. eapply int_ext; [|apply (sum_RInt (fun j z => C k j * (sqrt (1 - x) * wave a b y) ^ j * (sqrt x * wave c d z) ^ (k - j)))].
    + intros z _. transitivity ((sqrt (1 - x) * wave a b y + sqrt x * wave c d z) ^ k); [rewrite binomial; reflexivity|]. f_equal. unfold qdot, random_rotation, wave. cbn. ring.
    + intros j J. cbv beta. replace (C k j * (sqrt (1 - x) * wave a b y) ^ j * (sqrt x ^ (k - j) * ((c * c + d * d) ^ Nat.div2 (k - j) * turn_moment (k - j)))) with (scal (C k j * (sqrt (1 - x) * wave a b y) ^ j * sqrt x ^ (k - j)) ((c * c + d * d) ^ Nat.div2 (k - j) * turn_moment (k - j))) by (unfold scal; cbn -[pow C]; unfold mult; cbn -[pow C]; ring).
      eapply int_ext; [|exact (is_RInt_scal _ 0 1 (C k j * (sqrt (1 - x) * wave a b y) ^ j * sqrt x ^ (k - j)) _ (wave_moment c d (k - j)))].
      intros z _. unfold scal. cbn -[pow C]. unfold mult. cbn -[pow C]. rewrite (Rpow_mult_distr (sqrt x)). ring.
  - intros x X. apply (sum_RInt (fun j y => C k j * (sqrt (1 - x) * wave a b y) ^ j * (sqrt x ^ (k - j) * ((c * c + d * d) ^ Nat.div2 (k - j) * turn_moment (k - j))))).
    intros j J. cbv beta. replace (C k j * (sqrt (1 - x) ^ j * ((a * a + b * b) ^ Nat.div2 j * turn_moment j)) * (sqrt x ^ (k - j) * ((c * c + d * d) ^ Nat.div2 (k - j) * turn_moment (k - j))))
      with (scal (C k j * sqrt (1 - x) ^ j * (sqrt x ^ (k - j) * ((c * c + d * d) ^ Nat.div2 (k - j) * turn_moment (k - j)))) ((a * a + b * b) ^ Nat.div2 j * turn_moment j)) by (unfold scal; cbn -[pow C]; unfold mult; cbn -[pow C]; ring).
    eapply int_ext; [|exact (is_RInt_scal _ 0 1 (C k j * sqrt (1 - x) ^ j * (sqrt x ^ (k - j) * ((c * c + d * d) ^ Nat.div2 (k - j) * turn_moment (k - j)))) _ (wave_moment a b j))].
    intros y _. unfold scal. cbn -[pow C]. unfold mult. cbn -[pow C]. rewrite (Rpow_mult_distr (sqrt (1 - x))). ring.
  - apply sum_RInt. intros j J. destruct (parity j) as (i & [E|E]); [destruct (parity (k - j)) as (i' & [E'|E'])|].
    + unfold term. rewrite E', E. rewrite !Nat.div2_double.
      refine (int_ext _ _ _ _ (is_RInt_scal _ 0 1 (C k (2 * i) * ((a * a + b * b) ^ i * turn_moment (2 * i)) * ((c * c + d * d) ^ i' * turn_moment (2 * i'))) _ (beta i i'))).
      intros x X. unfold scal. cbn -[pow turn_moment fact INR C Nat.mul]. unfold mult. cbn -[pow turn_moment fact INR C Nat.mul].
      rewrite !pow_mult, <- !Rsqr_pow2, !Rsqr_sqrt by lra. ring.
    + replace (term (a * a + b * b) (c * c + d * d) k j) with 0 by (unfold term; rewrite E', turn_moment_odd; ring). refine (int_ext _ _ _ _ int_zero). intros x _. cbv beta. rewrite E', turn_moment_odd. ring.
    + replace (term (a * a + b * b) (c * c + d * d) k j) with 0 by (unfold term; rewrite E, turn_moment_odd; ring). refine (int_ext _ _ _ _ int_zero). intros x _. cbv beta. rewrite E, turn_moment_odd. ring.
Qed.
(** every power of every linear form of a random quaternion has a mean that depends only on the length of the form: the moments of
    the uniform distribution on the sphere *)
Theorem rotation_moments v n :
  has_mean (fun x y z => qdot v (random_rotation x y z) ^ (2 * n)) (qnorm v ^ n * sphere_moment n) /\
  has_mean (fun x y z => qdot v (random_rotation x y z) ^ (2 * n + 1)) 0.
Proof.
  split.
  - replace (qnorm v ^ n * sphere_moment n) with (sum_f_R0 (term (qx v * qx v + qy v * qy v) (qz v * qz v + qw v * qw v) (2 * n)) (2 * n)); [apply form_mean|].
    rewrite sum_even by (intros i; unfold term; rewrite turn_moment_odd; ring). destruct v as [a b c d]. unfold qnorm. cbn [qx qy qz qw].
    replace (a * a + b * b + c * c + d * d) with ((a * a + b * b) + (c * c + d * d)) by ring. rewrite binomial, (Rmult_comm _ (sphere_moment n)), scal_sum. apply sum_eq. intros i I0.
    unfold term, sphere_moment. replace (2 * n - 2 * i)%nat with (2 * (n - i))%nat by lia. rewrite !Nat.div2_double, !turn_moment_even. replace (i + (n - i) + 1)%nat with (n + 1)%nat by lia.
    unfold C. replace (2 * n - 2 * i)%nat with (2 * (n - i))%nat by lia. replace (4 ^ n) with (4 ^ i * 4 ^ (n - i)) by (rewrite <- pow_add; f_equal; lia).
    assert (F1 := INR_fact_neq_0 (2 * i)). assert (F2 := INR_fact_neq_0 (2 * (n - i))). assert (F3 := INR_fact_neq_0 i). assert (F4 := INR_fact_neq_0 (n - i)). assert (F5 := INR_fact_neq_0 n). assert (F6 := INR_fact_neq_0 (n + 1)).
    assert (4 ^ i <> 0) by (apply pow_nonzero; lra). assert (4 ^ (n - i) <> 0) by (apply pow_nonzero; lra). field. repeat split; assumption.
  - assert (M := form_mean v (2 * n + 1)). rewrite (sum_eq_R0 _ _) in M; [exact M|]. intros j J. unfold term. destruct (parity j) as (i & [E|E]).
    + replace (2 * n + 1 - j)%nat with (2 * (n - i) + 1)%nat by lia. rewrite turn_moment_odd. ring.
    + rewrite E, turn_moment_odd. ring.
Qed.

(** ** polarisation: products of linear forms are combinations of powers *)
Fixpoint diffs (hs : list R) (g : R -> R) (t : R) : R :=
  match hs with [] => g t | h :: hs => diffs hs g (t + h) - diffs hs g (t - h) end.
Definition prod (l : list R) : R := fold_right Rmult 1 l.
Lemma diffs_ext hs : forall g g' t, (forall x, g x = g' x) -> diffs hs g t = diffs hs g' t.
Proof. induction hs as [|h hs IH]; intros g g' t E; cbn; [apply E|]. rewrite !(IH g g') by exact E. reflexivity. Qed.
Lemma diffs_cons hs h g : forall t, diffs (h :: hs) g t = diffs hs (fun x => g (x + h) - g (x - h)) t.
Proof.
  cbn [diffs]. assert (G : forall t k, diffs hs g (t + k) = diffs hs (fun x => g (x + k)) t). { induction hs as [|h' hs IH]; intros t k; cbn; [reflexivity|]. rewrite <- !IH. f_equal; f_equal; ring. }
  assert (D : forall f f' t, diffs hs (fun x => f x - f' x) t = diffs hs f t - diffs hs f' t). { clear. induction hs as [|h' hs IH]; intros f f' t; cbn; [reflexivity|]. rewrite !IH. ring. }
  intros t. rewrite D. rewrite G. unfold Rminus at 2. rewrite G. reflexivity.
Qed.
Lemma diffs_sum hs f n : forall t, diffs hs (fun x => sum_f_R0 (fun j => f j x) n) t = sum_f_R0 (fun j => diffs hs (f j) t) n.
Proof. induction hs as [|h hs IH]; intros t; cbn [diffs]; [reflexivity|]. rewrite !IH, <- minus_sum. reflexivity. Qed.
Lemma diffs_scal hs c f : forall t, diffs hs (fun x => c * f x) t = c * diffs hs f t.
Proof. induction hs as [|h hs IH]; intros t; cbn [diffs]; [reflexivity|]. rewrite !IH. ring. Qed.
Lemma shift_pow k h x : (x + h) ^ k - (x - h) ^ k = sum_f_R0 (fun j => (C k j * (h ^ (k - j) - (- h) ^ (k - j))) * x ^ j) k.
Proof. unfold Rminus at 2. rewrite !binomial, <- minus_sum. apply sum_eq. intros j J. ring. Qed.
Lemma diffs_power hs : forall k t, (k <= length hs)%nat -> diffs hs (fun x => x ^ k) t = if Nat.eqb k (length hs) then 2 ^ k * INR (fact k) * prod hs else 0.
Proof.
  induction hs as [|h hs IH]; intros k t L; [cbn [length] in L; replace k with 0%nat by lia; cbn; ring|]. cbn [length] in L. rewrite diffs_cons.
  rewrite (diffs_ext hs _ (fun x => sum_f_R0 (fun j => (C k j * (h ^ (k - j) - (- h) ^ (k - j))) * x ^ j) k)) by (intros x; apply shift_pow). rewrite (diffs_sum hs (fun j x => (C k j * (h ^ (k - j) - (- h) ^ (k - j))) * x ^ j)).
  destruct k as [|k]; [cbn [sum_f_R0 Nat.eqb]; rewrite (diffs_scal hs _ (fun x => x ^ 0)); cbn; ring|]. cbn [length Nat.eqb].
  cbn [sum_f_R0]. rewrite (diffs_scal hs _ (fun x => x ^ S k)). replace (S k - S k)%nat with 0%nat by lia. cbn [pow]. rewrite Rminus_diag_eq, Rmult_0_r, Rmult_0_l, Rplus_0_r by reflexivity.
  destruct (Nat.eqb_spec k (length hs)) as [E|N].
  - destruct k as [|k].
    + cbn [sum_f_R0]. rewrite (diffs_scal hs _ (fun x => x ^ 0)), IH by lia. rewrite <- E. cbn [Nat.eqb]. destruct hs; [|discriminate]. unfold C. cbn. field.
    + cbn [sum_f_R0]. rewrite sum_eq_R0.
      * rewrite (diffs_scal hs _ (fun x => x ^ S k)), IH by lia. rewrite <- E, Nat.eqb_refl. replace (S (S k) - S k)%nat with 1%nat by lia. replace (C (S (S k)) (S k)) with (INR (S (S k))).
        2: { unfold C. replace (S (S k) - S k)%nat with 1%nat by lia. rewrite (fact_simpl (S k)), mult_INR. assert (F := INR_fact_neq_0 (S k)). change (fact 1) with 1%nat. change (INR 1) with 1. field. exact F. }
        rewrite (fact_simpl (S k)), mult_INR. unfold prod. cbn [fold_right]. cbn -[INR fact fold_right]. ring.
      * intros j J. rewrite (diffs_scal hs _ (fun x => x ^ j)), IH by lia. assert (B : Nat.eqb j (length hs) = false) by (apply Nat.eqb_neq; lia). rewrite B. ring.
  - apply sum_eq_R0. intros j J. rewrite (diffs_scal hs _ (fun x => x ^ j)), IH by lia. assert (B : Nat.eqb j (length hs) = false) by (apply Nat.eqb_neq; lia). rewrite B. ring.
Qed.

(** ** all polynomials *)
Definition power_mean (k : nat) (r : R) : R := if Nat.even k then r ^ (Nat.div2 k) * sphere_moment (Nat.div2 k) else 0.
Lemma power_mean_ok v k : has_mean (fun x y z => qdot v (random_rotation x y z) ^ k) (power_mean k (qnorm v)).
Proof.
  unfold power_mean. destruct (parity k) as (n & [-> | ->]).
  - replace (Nat.even (2 * n)) with true by (symmetry; apply Nat.even_spec; exists n; lia). rewrite Nat.div2_double. exact (proj1 (rotation_moments v n)).
  - replace (Nat.even (2 * n + 1)) with false by (symmetry; rewrite <- Nat.negb_odd; apply negb_false_iff; apply Nat.odd_spec; exists n; lia). exact (proj2 (rotation_moments v n)).
Qed.
Fixpoint combos (k : nat) (ls : list quat) (v : quat) : R :=
  match ls with [] => power_mean k (qnorm v) | l :: ls => combos k ls (qadd v l) - combos k ls (qsub v l) end.
Lemma combos_ok k ls : forall v, has_mean (fun x y z => diffs (map (fun l => qdot l (random_rotation x y z)) ls) (fun t => t ^ k) (qdot v (random_rotation x y z))) (combos k ls v).
Proof.
  induction ls as [|l ls IH]; intros v; cbn [map diffs combos]; [apply power_mean_ok|].
  replace (combos k ls (qadd v l) - combos k ls (qsub v l)) with (1 * combos k ls (qadd v l) + (-1) * combos k ls (qsub v l)) by ring.
  eapply mean_same; [|exact (mean_lin _ _ _ _ 1 (-1) (IH (qadd v l)) (IH (qsub v l)))]. intros x y z _. cbv beta. generalize (random_rotation x y z). intros q.
  replace (qdot (qadd v l) q) with (qdot v q + qdot l q) by (unfold qdot, qadd; cbn; ring). replace (qdot (qsub v l) q) with (qdot v q - qdot l q) by (unfold qdot, qsub; cbn; ring). ring.
Qed.
(** a polynomial in the components of a quaternion: a sum of multiples of products of linear forms *)
Definition poly := list (R * list quat).
Definition peval (P : poly) (q : quat) : R := fold_right (fun m s => fst m * prod (map (fun l => qdot l q) (snd m)) + s) 0 P.
Definition pmean (P : poly) : R := fold_right (fun m s => fst m * (combos (length (snd m)) (snd m) (Q 0 0 0 0) / (2 ^ length (snd m) * INR (fact (length (snd m))))) + s) 0 P.
Lemma pmean_ok P : has_mean (fun x y z => peval P (random_rotation x y z)) (pmean P).
Proof.
  induction P as [|[c ls] P IH]; [apply mean_null|]. cbn [peval pmean fold_right fst snd]. set (K := 2 ^ length ls * INR (fact (length ls))). assert (KN : K <> 0) by (unfold K; apply Rmult_integral_contrapositive; split; [apply pow_nonzero; lra|apply INR_fact_neq_0]).
  replace (c * (combos (length ls) ls (Q 0 0 0 0) / K) + fold_right (fun m s => fst m * (combos (length (snd m)) (snd m) (Q 0 0 0 0) / (2 ^ length (snd m) * INR (fact (length (snd m))))) + s) 0 P) with (c / K * combos (length ls) ls (Q 0 0 0 0) + 1 * pmean P) by (unfold pmean; field; exact KN).
  eapply mean_same; [|exact (mean_lin _ _ _ _ (c / K) 1 (combos_ok (length ls) ls (Q 0 0 0 0)) IH)]. intros x y z _. cbv beta. rewrite diffs_power by (rewrite map_length; lia). rewrite map_length, Nat.eqb_refl. fold K. unfold peval. field. exact KN.
Qed.
Lemma combos_invariant k (T : quat -> quat) ls : (forall v w, T (qadd v w) = qadd (T v) (T w)) -> (forall v w, T (qsub v w) = qsub (T v) (T w)) -> (forall v, qnorm (T v) = qnorm v) -> forall v, combos k (map T ls) (T v) = combos k ls v.
Proof. intros A B N. induction ls as [|l ls IH]; intros v; cbn [map combos]; [rewrite N; reflexivity|]. rewrite <- A, <- B, !IH. reflexivity. Qed.
Definition pmap (T : quat -> quat) (P : poly) : poly := map (fun m => (fst m, map T (snd m))) P.
Lemma pmean_invariant T P : (forall v w, T (qadd v w) = qadd (T v) (T w)) -> (forall v w, T (qsub v w) = qsub (T v) (T w)) -> (forall v, qnorm (T v) = qnorm v) -> T (Q 0 0 0 0) = Q 0 0 0 0 -> pmean (pmap T P) = pmean P.
Proof.
  intros A B N Z. induction P as [|[c ls] P IH]; [reflexivity|]. cbn [pmap map pmean fold_right fst snd]. rewrite map_length. rewrite <- Z at 1. rewrite combos_invariant by assumption. f_equal. exact IH.
Qed.
Lemma peval_map T P q q' : (forall l, qdot (T l) q = qdot l q') -> peval (pmap T P) q = peval P q'.
Proof.
  intros E. induction P as [|[c ls] P IH]; [reflexivity|]. cbn [pmap map peval fold_right fst snd]. rewrite map_map. rewrite (map_ext _ (fun l => qdot l q')) by exact E. f_equal. exact IH.
Qed.
(** the mean of any polynomial of a random rotation exists, and composing the random rotations with a fixed one, on either side,
    does not change it *)
Theorem rotation_invariant P p : unit_quat p ->
  exists m, has_mean (fun x y z => peval P (random_rotation x y z)) m /\
    has_mean (fun x y z => peval P (qmul p (random_rotation x y z))) m /\ has_mean (fun x y z => peval P (qmul (random_rotation x y z) p)) m.
Proof.
  intros U. unfold unit_quat in U. exists (pmean P). split; [apply pmean_ok|]. split.
  - set (T := fun l => qmul (qconj p) l). rewrite <- (pmean_invariant T P).
    + eapply mean_same; [|apply pmean_ok]. intros x y z _. apply peval_map. intros l. generalize (random_rotation x y z). intros q. unfold T, qdot, qmul, qconj. destruct p, q, l. cbn. ring.
    + intros v w. unfold T, qmul, qadd. cbn. f_equal; ring.
    + intros v w. unfold T, qmul, qsub. cbn. f_equal; ring.
    + intros v. unfold T. rewrite qnorm_mul. replace (qnorm (qconj p)) with (qx p * qx p + qy p * qy p + qz p * qz p + qw p * qw p) by (unfold qnorm, qconj; cbn; ring). rewrite U. ring.
    + unfold T, qmul. cbn. f_equal; ring.
  - set (T := fun l => qmul l (qconj p)). rewrite <- (pmean_invariant T P).
    + eapply mean_same; [|apply pmean_ok]. intros x y z _. apply peval_map. intros l. generalize (random_rotation x y z). intros q. unfold T, qdot, qmul, qconj. destruct p, q, l. cbn. ring.
    + intros v w. unfold T, qmul, qadd. cbn. f_equal; ring.
    + intros v w. unfold T, qmul, qsub. cbn. f_equal; ring.
    + intros v. unfold T. rewrite qnorm_mul. replace (qnorm (qconj p)) with (qx p * qx p + qy p * qy p + qz p * qz p + qw p * qw p) by (unfold qnorm, qconj; cbn; ring). rewrite U. ring.
    + unfold T, qmul. cbn. f_equal; ring.
Qed.

(** x^4 has the mean 1/8 it has on the sphere; a turn by 90 degrees; the polynomial 3 x y *)
Example moments_case : mean3 (fun x y z => qx (random_rotation x y z) ^ 4) = / 8 /\ unit_quat (Q 0 0 (sqrt 2 / 2) (sqrt 2 / 2)) /\
  peval [(3, [Q 1 0 0 0; Q 0 1 0 0])] (Q 2 5 0 0) = 30.
Proof.
  split; [|split].
  - apply has_mean3. destruct (rotation_moments (Q 1 0 0 0) 2) as (H & _). replace (/ 8) with (qnorm (Q 1 0 0 0) ^ 2 * sphere_moment 2) by (unfold qnorm, sphere_moment; cbn; field). eapply mean_same; [|exact H]. intros x y z _. unfold qdot. cbn [qx qy qz qw Nat.mul Nat.add]. f_equal. ring.
  - unfold unit_quat. cbn [qx qy qz qw]. assert (S := sqrt_sqrt 2 ltac:(lra)). nra.
  - unfold peval, qdot, prod. cbn. ring.
Qed.

Print Assumptions rotation_moments.
Print Assumptions rotation_invariant.

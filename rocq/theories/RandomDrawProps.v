(** Random numbers and rotations (C163, C164). *)
From Coq Require Import Reals Lra Lia.
From Coquelicot Require Import Coquelicot.
From Verif Require Import Mat Quat RandomDraw.
Open Scope R_scope.

(** * C163: uniform numbers lie between their limits, and can be anything in between *)
Lemma draw_between u lo hi : 0 <= u < 1 -> lo <= hi -> lo <= draw u lo hi <= hi.
Proof. intros U L. unfold draw. assert (0 <= u * (hi - lo)) by (apply Rmult_le_pos; lra). assert (u * (hi - lo) <= 1 * (hi - lo)) by (apply Rmult_le_compat_r; lra). lra. Qed.
Theorem uniform_within a b gen : (forall n, 0 <= gen n < 1) -> forall n, Rmin a b <= uniform_vector (same_limits a b) gen n <= Rmax a b.
Proof. intros G n. apply draw_between; [apply G|]. cbn. unfold Rmin, Rmax. destruct (Rle_dec a b); lra. Qed.
Theorem uniform_within_own a b gen : (forall n, 0 <= gen n < 1) -> (forall n, a n <= b n) -> forall n, a n <= uniform_vector (own_limits a b) gen n <= b n.
Proof. intros G L n. apply draw_between; [apply G|apply L]. Qed.
Theorem uniform_matrix_within m n a b gen : (forall k, 0 <= gen k < 1) -> forall i j, (i < m)%nat -> (j < n)%nat -> Rmin a b <= uniform_matrix n a b gen i j <= Rmax a b.
Proof. intros G i j _ _. apply draw_between; [apply G|]. unfold Rmin, Rmax. destruct (Rle_dec a b); lra. Qed.
Theorem uniform_onto a b v : a < b -> (forall n : nat, a <= v n < b) -> exists gen, (forall n, 0 <= gen n < 1) /\ forall n, uniform_vector (same_limits a b) gen n = v n.
Proof.
  intros L V. exists (fun n => (v n - a) / (b - a)). split; intros n; specialize (V n).
  - split; [apply Rle_div_r; lra|apply Rlt_div_l; lra].
  - cbn. unfold uniform_vector, draw. cbn. rewrite Rmin_left, Rmax_right by lra. field. lra.
Qed.
(** every entry of a matrix has a random number of its own: any matrix between the limits can be drawn *)
Theorem uniform_matrix_onto m n a b v : a < b -> (forall i j, (i < m)%nat -> (j < n)%nat -> a <= v i j < b) ->
  exists gen, (forall k, 0 <= gen k < 1) /\ forall i j, (i < m)%nat -> (j < n)%nat -> uniform_matrix n a b gen i j = v i j.
Proof.
  intros L V. exists (fun k => if (Nat.ltb (k / n)%nat m && Nat.ltb (k mod n)%nat n)%bool then (v (k / n)%nat (k mod n)%nat - a) / (b - a) else 0). split.
  - intros k. destruct (Nat.ltb_spec (k / n) m) as [I|]; [destruct (Nat.ltb_spec (k mod n) n) as [J|]|]; cbn [andb]; try lra. specialize (V _ _ I J). split; [apply Rle_div_r; lra|apply Rlt_div_l; lra].
  - intros i j I J. unfold uniform_matrix, draw. assert (D : ((i * n + j) / n = i)%nat) by (rewrite Nat.div_add_l, Nat.div_small by lia; lia). assert (M : ((i * n + j) mod n = j)%nat) by (rewrite Nat.add_comm, Nat.mod_add, Nat.mod_small by lia; lia).
    rewrite D, M. destruct (Nat.ltb_spec i m); [|lia]. destruct (Nat.ltb_spec j n); [|lia]. cbn [andb]. rewrite Rmin_left, Rmax_right by lra. field. lra.
Qed.
(** drawing with a covariance matrix ignores the matrix: the result depends on uninitialised memory *)
Theorem normal_covariance_refuted : exists normal mu covariance gen garbage garbage',
  normal_from_covariance normal mu covariance garbage gen 0%nat <> normal_from_covariance normal mu covariance garbage' gen 0%nat /\
  (forall covariance', normal_from_covariance normal mu covariance' garbage gen = normal_from_covariance normal mu covariance garbage gen) /\
  (forall g m s, normal g m s = m + s * g).
Proof.
  exists (fun g m s => m + s * g), (fun _ => 0), (fun _ _ => 1), (fun _ => 1), (fun _ => 1), (fun _ => 2). unfold normal_from_covariance, normal_vector. split; [lra|]. split; [reflexivity|reflexivity].
Qed.

(** * C164: random rotations *)
Definition unit_quat (q : quat) : Prop := qx q * qx q + qy q * qy q + qz q * qz q + qw q * qw q = 1.
Lemma sc2 t : sin t * sin t + cos t * cos t = 1. Proof. generalize (sin2_cos2 t). unfold Rsqr. tauto. Qed.
Theorem rotation_unit x y z : 0 <= x <= 1 -> unit_quat (random_rotation x y z).
Proof.
  intros X. unfold unit_quat, random_rotation. cbn. assert (A := sqrt_sqrt x ltac:(lra)). assert (B := sqrt_sqrt (1 - x) ltac:(lra)). assert (C := sc2 (2 * y * PI)). assert (D := sc2 (2 * z * PI)).
  set (r := sqrt x) in *. set (s := sqrt (1 - x)) in *. set (a := sin (2 * y * PI)) in *. set (b := cos (2 * y * PI)) in *. set (c := sin (2 * z * PI)) in *. set (d := cos (2 * z * PI)) in *.
  replace (s * a * (s * a) + s * b * (s * b) + r * c * (r * c) + r * d * (r * d)) with ((s * s) * (a * a + b * b) + (r * r) * (c * c + d * d)) by ring. rewrite A, B, C, D. ring.
Qed.
Lemma turn_exists s c : s * s + c * c = 1 -> exists y, 0 <= y < 1 /\ sin (2 * y * PI) = s /\ cos (2 * y * PI) = c.
Proof.
  intros E. pose proof PI_RGT_0 as P. assert (C : -1 <= c <= 1) by (split; nra). pose proof (acos_bound c) as B. assert (K := cos_acos c C).
  assert (S2 : sin (acos c) * sin (acos c) = s * s) by (generalize (sc2 (acos c)); rewrite K; lra). assert (SP : 0 <= sin (acos c)) by (apply sin_ge_0; lra).
  destruct (Rle_dec 0 s) as [G|G].
  - exists (acos c / (2 * PI)). assert (T : 2 * (acos c / (2 * PI)) * PI = acos c) by (field; lra). rewrite T. split; [split; [apply Rle_div_r; lra|apply Rlt_div_l; lra]|]. split; [|exact K]. nra.
  - assert (A0 : 0 < acos c) by (destruct (Req_dec (acos c) 0) as [Z|Z]; [rewrite Z in K; rewrite cos_0 in K; subst c; exfalso; nra|lra]).
    exists (1 - acos c / (2 * PI)). assert (T : 2 * (1 - acos c / (2 * PI)) * PI = - acos c + 2 * PI) by (field; lra). rewrite T.
    assert (0 < acos c / (2 * PI)) by (apply Rdiv_lt_0_compat; lra). assert (acos c / (2 * PI) <= 1) by (apply Rle_div_l; lra).
    split; [lra|]. replace (- acos c + 2 * PI) with (- acos c + 2 * INR 1 * PI) by (cbn; ring). rewrite sin_period, cos_period, sin_neg, cos_neg. split; [nra|exact K].
Qed.
(** scaled: any two numbers have polar coordinates *)
Lemma polar a b : exists y, 0 <= y < 1 /\ sqrt (a * a + b * b) * sin (2 * y * PI) = a /\ sqrt (a * a + b * b) * cos (2 * y * PI) = b.
Proof.
  set (r := sqrt (a * a + b * b)). assert (N : 0 <= a * a + b * b) by nra. assert (RR : r * r = a * a + b * b) by (apply sqrt_sqrt; exact N). assert (R0 : 0 <= r) by apply sqrt_pos.
  destruct (Req_dec r 0) as [Z|Z]; [exists 0; split; [lra|]; rewrite Z in *; split; nra|].
  destruct (turn_exists (a / r) (b / r)) as (y & Y & S & C); [replace (a / r * (a / r) + b / r * (b / r)) with ((a * a + b * b) / (r * r)) by (field; exact Z); rewrite RR; field; nra|].
  exists y. rewrite S, C. split; [exact Y|]. split; field; exact Z.
Qed.
(** every rotation can be drawn *)
Theorem rotation_onto q : unit_quat q -> exists x y z, 0 <= x <= 1 /\ 0 <= y < 1 /\ 0 <= z < 1 /\ random_rotation x y z = q.
Proof.
  intros U. destruct q as [a b c d]. unfold unit_quat in U. cbn in U. destruct (polar a b) as (y & Y & A & B). destruct (polar c d) as (z & Z & C & D).
  exists (c * c + d * d), y, z. split; [split; nra|]. split; [exact Y|]. split; [exact Z|]. unfold random_rotation. replace (1 - (c * c + d * d)) with (a * a + b * b) by lra. rewrite A, B, C, D. reflexivity.
Qed.

(** the mean over the unit cube *)
Definition mean3 (f : R -> R -> R -> R) : R := RInt (fun x => RInt (fun y => RInt (fun z => f x y z) 0 1) 0 1) 0 1.
Definition coord (q : quat) (i : nat) : R := match i with O => qx q | 1%nat => qy q | 2%nat => qz q | _ => qw q end.
Lemma scal_RInt k c C : is_RInt c 0 1 C -> RInt (fun z => k * c z) 0 1 = k * C.
Proof. intros H. apply is_RInt_unique. apply (is_RInt_scal c 0 1 k C H). Qed.
Lemma zero_RInt : RInt (fun _ : R => 0) 0 1 = 0.
Proof. rewrite RInt_const. unfold scal; cbn; unfold mult; cbn. match goal with |- @eq _ ?a ?b => change (@eq R a b) end. ring. Qed.
Lemma ext_RInt (f g : R -> R) : (forall x, 0 < x < 1 -> f x = g x) -> RInt f 0 1 = RInt g 0 1.
Proof. intros E. apply RInt_ext. intros x X. rewrite Rmin_left, Rmax_right in X by lra. apply E. exact X. Qed.
Lemma mean_product (a b c : R -> R) A B C : is_RInt a 0 1 A -> is_RInt b 0 1 B -> is_RInt c 0 1 C -> mean3 (fun x y z => a x * b y * c z) = A * B * C.
Proof.
  intros HA HB HC. unfold mean3. rewrite (ext_RInt _ (fun x => (B * C) * a x)).
  - rewrite (scal_RInt _ _ _ HA). ring.
  - intros x _. rewrite (ext_RInt _ (fun y => (a x * C) * b y)); [rewrite (scal_RInt _ _ _ HB); ring|]. intros y _. rewrite (scal_RInt (a x * b y) _ _ HC). ring.
Qed.
Lemma mean_zero_z (c : R -> R) b : is_RInt c 0 1 0 -> mean3 (fun x y z => b x y * c z) = 0.
Proof.
  intros HC. unfold mean3. rewrite (ext_RInt _ (fun _ => 0)); [apply zero_RInt|]. intros x _.
  rewrite (ext_RInt _ (fun _ => 0)); [apply zero_RInt|]. intros y _. rewrite (scal_RInt _ _ _ HC). ring.
Qed.
Lemma derive_RInt (F f : R -> R) v : (forall t, is_derive F t (f t)) -> (forall t, continuous f t) -> F 1 - F 0 = v -> is_RInt f 0 1 v.
Proof. intros D C E. rewrite <- E. apply (is_RInt_derive F f 0 1); intros t _; [apply D|apply C]. Qed.
Lemma ex_cont (f : R -> R) t : ex_derive f t -> continuous f t. Proof. intros H. exact (@ex_derive_continuous R_AbsRing R_NormedModule f t H). Qed.
Lemma P0 : PI <> 0. Proof. generalize PI_RGT_0. lra. Qed.
Lemma sin_2PI1 : sin (2 * 1 * PI) = 0. Proof. replace (2 * 1 * PI) with (2 * PI) by ring. apply sin_2PI. Qed.
Lemma cos_2PI1 : cos (2 * 1 * PI) = 1. Proof. replace (2 * 1 * PI) with (2 * PI) by ring. apply cos_2PI. Qed.
Lemma sin_2PI0 : sin (2 * 0 * PI) = 0. Proof. replace (2 * 0 * PI) with 0 by ring. apply sin_0. Qed.
Lemma cos_2PI0 : cos (2 * 0 * PI) = 1. Proof. replace (2 * 0 * PI) with 0 by ring. apply cos_0. Qed.
Lemma int_sin : is_RInt (fun t => sin (2 * t * PI)) 0 1 0.
Proof. apply (derive_RInt (fun t => - cos (2 * t * PI) / (2 * PI))); [intros t; auto_derive; [exact I|field; exact P0]|intros t; apply ex_cont; auto_derive; exact I|rewrite cos_2PI0, cos_2PI1; field; exact P0]. Qed.
Lemma int_cos : is_RInt (fun t => cos (2 * t * PI)) 0 1 0.
Proof. apply (derive_RInt (fun t => sin (2 * t * PI) / (2 * PI))); [intros t; auto_derive; [exact I|field; exact P0]|intros t; apply ex_cont; auto_derive; exact I|rewrite sin_2PI0, sin_2PI1; field; exact P0]. Qed.
Lemma int_sincos : is_RInt (fun t => sin (2 * t * PI) * cos (2 * t * PI)) 0 1 0.
Proof. apply (derive_RInt (fun t => sin (2 * t * PI) * sin (2 * t * PI) / (4 * PI))); [intros t; auto_derive; [exact I|field; exact P0]|intros t; apply ex_cont; auto_derive; exact I|rewrite sin_2PI0, sin_2PI1; field; exact P0]. Qed.
Lemma int_sin2 : is_RInt (fun t => sin (2 * t * PI) * sin (2 * t * PI)) 0 1 (/ 2).
Proof.
  apply (derive_RInt (fun t => t / 2 - sin (2 * t * PI) * cos (2 * t * PI) / (4 * PI))); [|intros t; apply ex_cont; auto_derive; exact I|rewrite sin_2PI0, sin_2PI1; field; exact P0].
  intros t. auto_derive; [exact I|]. assert (E := sc2 (2 * t * PI)). assert (X : cos (2 * t * PI) * cos (2 * t * PI) = 1 - sin (2 * t * PI) * sin (2 * t * PI)) by lra.
  match goal with |- ?l = ?r => replace l with (/ 2 - (cos (2 * t * PI) * cos (2 * t * PI) - sin (2 * t * PI) * sin (2 * t * PI)) / 2) by (field; exact P0) end. rewrite X. field.
Qed.
Lemma int_cos2 : is_RInt (fun t => cos (2 * t * PI) * cos (2 * t * PI)) 0 1 (/ 2).
Proof.
  apply (derive_RInt (fun t => t / 2 + sin (2 * t * PI) * cos (2 * t * PI) / (4 * PI))); [|intros t; apply ex_cont; auto_derive; exact I|rewrite sin_2PI0, sin_2PI1; field; exact P0].
  intros t. auto_derive; [exact I|]. assert (E := sc2 (2 * t * PI)). assert (X : sin (2 * t * PI) * sin (2 * t * PI) = 1 - cos (2 * t * PI) * cos (2 * t * PI)) by lra.
  match goal with |- ?l = ?r => replace l with (/ 2 + (cos (2 * t * PI) * cos (2 * t * PI) - sin (2 * t * PI) * sin (2 * t * PI)) / 2) by (field; exact P0) end. rewrite X. field.
Qed.
Lemma int_id : is_RInt (fun x : R => x) 0 1 (/ 2).
Proof. apply (derive_RInt (fun t => t * t / 2)); [intros t; auto_derive; [exact I|field]|intros t; apply ex_cont; auto_derive; exact I|field]. Qed.
Lemma int_com : is_RInt (fun x : R => 1 - x) 0 1 (/ 2).
Proof. apply (derive_RInt (fun t => t - t * t / 2)); [intros t; auto_derive; [exact I|field]|intros t; apply ex_cont; auto_derive; exact I|field]. Qed.
Lemma int_one : is_RInt (fun _ : R => 1) 0 1 1.
Proof. apply (derive_RInt (fun t => t)); [intros t; auto_derive; [exact I|reflexivity]|intros t; apply ex_cont; auto_derive; exact I|ring]. Qed.
Lemma mean_ext f g : (forall x y z, 0 < x < 1 -> f x y z = g x y z) -> mean3 f = mean3 g.
Proof.
  intros E. unfold mean3. apply ext_RInt. intros x X. apply ext_RInt. intros y _. apply ext_RInt. intros z _. apply E. exact X.
Qed.
(** no direction is preferred: the second moments of the four coordinates are those of the uniform distribution on the sphere *)
Theorem rotation_isotropic i j : (i < 4)%nat -> (j < 4)%nat -> mean3 (fun x y z => coord (random_rotation x y z) i * coord (random_rotation x y z) j) = if Nat.eqb i j then / 4 else 0.
Proof.
  intros LI LJ.
  assert (XX : forall a b B, is_RInt (fun t => a t * b t) 0 1 B -> mean3 (fun x y z => (sqrt x * a z) * (sqrt x * b z)) = B / 2).
  { intros a b B H. rewrite (mean_ext _ (fun x y z => x * 1 * (a z * b z))); [rewrite (mean_product (fun x => x) (fun _ => 1) (fun z => a z * b z) _ _ _ int_id int_one H); field|]. intros x y z X. replace (sqrt x * a z * (sqrt x * b z)) with ((sqrt x * sqrt x) * (a z * b z)) by ring. rewrite sqrt_sqrt by lra. ring. }
  assert (YY : forall a b B, is_RInt (fun t => a t * b t) 0 1 B -> mean3 (fun x y z => (sqrt (1 - x) * a y) * (sqrt (1 - x) * b y)) = B / 2).
  { intros a b B H. rewrite (mean_ext _ (fun x y z => (1 - x) * (a y * b y) * 1)); [rewrite (mean_product (fun x => 1 - x) (fun z => a z * b z) (fun _ => 1) _ _ _ int_com H int_one); field|]. intros x y z X. replace (sqrt (1 - x) * a y * (sqrt (1 - x) * b y)) with ((sqrt (1 - x) * sqrt (1 - x)) * (a y * b y)) by ring. rewrite sqrt_sqrt by lra. ring. }
  assert (XY : forall a b, is_RInt b 0 1 0 -> mean3 (fun x y z => (sqrt (1 - x) * a y) * (sqrt x * b z)) = 0).
  { intros a b H. rewrite (mean_ext _ (fun x y z => (sqrt (1 - x) * a y * sqrt x) * b z)) by (intros; ring). apply (mean_zero_z b (fun x y => sqrt (1 - x) * a y * sqrt x) H). }
  assert (YX : forall a b, is_RInt b 0 1 0 -> mean3 (fun x y z => (sqrt x * b z) * (sqrt (1 - x) * a y)) = 0).
  { intros a b H. rewrite (mean_ext _ (fun x y z => (sqrt (1 - x) * a y * sqrt x) * b z)) by (intros; ring). apply (mean_zero_z b (fun x y => sqrt (1 - x) * a y * sqrt x) H). }
  assert (CS : is_RInt (fun t => cos (2 * t * PI) * sin (2 * t * PI)) 0 1 0) by (eapply is_RInt_ext; [|exact int_sincos]; intros; cbn; ring).
  destruct i as [|[|[|[|i]]]]; [| | | |lia]; (destruct j as [|[|[|[|j]]]]; [| | | |lia]); cbn [coord random_rotation qx qy qz qw Nat.eqb]; cbv zeta.
  - rewrite (YY (fun t => sin (2 * t * PI)) (fun t => sin (2 * t * PI)) _ int_sin2); field.
  - rewrite (YY (fun t => sin (2 * t * PI)) (fun t => cos (2 * t * PI)) _ int_sincos); field.
  - exact (XY (fun t => sin (2 * t * PI)) (fun t => sin (2 * t * PI)) int_sin).
  - exact (XY (fun t => sin (2 * t * PI)) (fun t => cos (2 * t * PI)) int_cos).
  - rewrite (YY (fun t => cos (2 * t * PI)) (fun t => sin (2 * t * PI)) _ CS); field.
  - rewrite (YY (fun t => cos (2 * t * PI)) (fun t => cos (2 * t * PI)) _ int_cos2); field.
  - exact (XY (fun t => cos (2 * t * PI)) (fun t => sin (2 * t * PI)) int_sin).
  - exact (XY (fun t => cos (2 * t * PI)) (fun t => cos (2 * t * PI)) int_cos).
  - exact (YX (fun t => sin (2 * t * PI)) (fun t => sin (2 * t * PI)) int_sin).
  - exact (YX (fun t => cos (2 * t * PI)) (fun t => sin (2 * t * PI)) int_sin).
  - rewrite (XX (fun t => sin (2 * t * PI)) (fun t => sin (2 * t * PI)) _ int_sin2); field.
  - rewrite (XX (fun t => sin (2 * t * PI)) (fun t => cos (2 * t * PI)) _ int_sincos); field.
  - exact (YX (fun t => sin (2 * t * PI)) (fun t => cos (2 * t * PI)) int_cos).
  - exact (YX (fun t => cos (2 * t * PI)) (fun t => cos (2 * t * PI)) int_cos).
  - rewrite (XX (fun t => cos (2 * t * PI)) (fun t => sin (2 * t * PI)) _ CS); field.
  - rewrite (XX (fun t => cos (2 * t * PI)) (fun t => cos (2 * t * PI)) _ int_cos2); field.
Qed.
(** the map from the cube is one-to-one ... *)
Lemma turn_unique y y' : 0 <= y < 1 -> 0 <= y' < 1 -> sin (2 * y * PI) = sin (2 * y' * PI) -> cos (2 * y * PI) = cos (2 * y' * PI) -> y = y'.
Proof.
  intros Y Y' S C. pose proof PI_RGT_0 as P. assert (K : cos (2 * y * PI - 2 * y' * PI) = 1) by (rewrite cos_minus, S, C; generalize (sc2 (2 * y' * PI)); lra).
  replace (2 * y * PI - 2 * y' * PI) with (2 * ((y - y') * PI)) in K by ring. rewrite cos_2a_sin in K. assert (Z : sin ((y - y') * PI) = 0) by nra.
  destruct (Rtotal_order y y') as [L|[E|G]]; [|exact E|].
  - exfalso. assert (0 < sin ((y' - y) * PI)) by (apply sin_gt_0; nra). replace ((y' - y) * PI) with (- ((y - y') * PI)) in * by ring. rewrite sin_neg in *. lra.
  - exfalso. assert (0 < sin ((y - y') * PI)) by (apply sin_gt_0; nra). lra.
Qed.
Theorem rotation_injective x y z x' y' z' : 0 < x < 1 -> 0 <= y < 1 -> 0 <= z < 1 -> 0 < x' < 1 -> 0 <= y' < 1 -> 0 <= z' < 1 ->
  random_rotation x y z = random_rotation x' y' z' -> x = x' /\ y = y' /\ z = z'.
Proof.
  intros X Y Z X' Y' Z' E. unfold random_rotation in E. injection E as E1 E2 E3 E4.
  assert (XX : x = x').
  { rewrite <- (sqrt_sqrt x), <- (sqrt_sqrt x') by lra. transitivity ((sqrt x * sqrt x) * (sin (2 * z * PI) * sin (2 * z * PI) + cos (2 * z * PI) * cos (2 * z * PI))); [rewrite sc2; ring|].
    transitivity ((sqrt x * sin (2 * z * PI)) * (sqrt x * sin (2 * z * PI)) + (sqrt x * cos (2 * z * PI)) * (sqrt x * cos (2 * z * PI))); [ring|]. rewrite E3, E4.
    transitivity ((sqrt x' * sqrt x') * (sin (2 * z' * PI) * sin (2 * z' * PI) + cos (2 * z' * PI) * cos (2 * z' * PI))); [ring|rewrite sc2; ring]. }
  subst x'. assert (S1 : sqrt x <> 0) by (generalize (sqrt_lt_R0 x); lra). assert (S2 : sqrt (1 - x) <> 0) by (generalize (sqrt_lt_R0 (1 - x)); lra).
  apply Rmult_eq_reg_l in E1, E2, E3, E4; try assumption. split; [reflexivity|]. split; apply turn_unique; assumption.
Qed.
(** ... and stretches volume everywhere by the same factor, the area 2 pi^2 of the sphere: the derivatives by x, y, z are orthogonal and the product of their lengths is constant *)
Definition dot4 (p q : nat -> R) : R := p 0%nat * q 0%nat + p 1%nat * q 1%nat + p 2%nat * q 2%nat + p 3%nat * q 3%nat.
Theorem rotation_volume x y z : 0 < x < 1 -> exists dx dy dz : nat -> R,
  (forall i, (i < 4)%nat -> is_derive (fun t => coord (random_rotation t y z) i) x (dx i) /\ is_derive (fun t => coord (random_rotation x t z) i) y (dy i) /\ is_derive (fun t => coord (random_rotation x y t) i) z (dz i)) /\
  dot4 dx dy = 0 /\ dot4 dx dz = 0 /\ dot4 dy dz = 0 /\ dot4 dx dx * dot4 dy dy * dot4 dz dz = (2 * PI ^ 2) ^ 2.
Proof.
  intros X. set (r := sqrt x). set (s := sqrt (1 - x)). assert (R0 : 0 < r) by (apply sqrt_lt_R0; lra). assert (S0 : 0 < s) by (apply sqrt_lt_R0; lra).
  assert (RR : r * r = x) by (apply sqrt_sqrt; lra). assert (SS : s * s = 1 - x) by (apply sqrt_sqrt; lra).
  set (a := sin (2 * y * PI)). set (b := cos (2 * y * PI)). set (c := sin (2 * z * PI)). set (d := cos (2 * z * PI)). assert (AB := sc2 (2 * y * PI)). assert (CD := sc2 (2 * z * PI)). fold a b in AB. fold c d in CD.
  exists (fun i => match i with O => - a / (2 * s) | 1%nat => - b / (2 * s) | 2%nat => c / (2 * r) | _ => d / (2 * r) end),
    (fun i => match i with O => 2 * PI * s * b | 1%nat => - (2 * PI * s * a) | _ => 0 end), (fun i => match i with O => 0 | 1%nat => 0 | 2%nat => 2 * PI * r * d | _ => - (2 * PI * r * c) end).
  split.
  - intros i LI. destruct i as [|[|[|[|i]]]]; [| | | |lia]; cbn [coord random_rotation qx qy qz qw]; (split; [|split]); auto_derive; try (repeat split; lra); try exact I; try change (1 + - x) with (1 - x); fold r s a b c d; solve [field; lra|ring].
  - unfold dot4. split; [field; lra|]. split; [field; lra|]. split; [ring|].
    replace (- a / (2 * s) * (- a / (2 * s)) + - b / (2 * s) * (- b / (2 * s)) + c / (2 * r) * (c / (2 * r)) + d / (2 * r) * (d / (2 * r))) with ((a * a + b * b) / (4 * (s * s)) + (c * c + d * d) / (4 * (r * r))) by (field; lra).
    replace (2 * PI * s * b * (2 * PI * s * b) + - (2 * PI * s * a) * - (2 * PI * s * a) + 0 * 0 + 0 * 0) with (4 * PI ^ 2 * (s * s) * (a * a + b * b)) by ring.
    replace (0 * 0 + 0 * 0 + 2 * PI * r * d * (2 * PI * r * d) + - (2 * PI * r * c) * - (2 * PI * r * c)) with (4 * PI ^ 2 * (r * r) * (c * c + d * d)) by ring.
    rewrite AB, CD, RR, SS. field. lra.
Qed.
Example rotation_case : unit_quat (random_rotation (9 / 25) 0 0) /\ random_rotation (9 / 25) 0 0 = Q 0 (4 / 5) 0 (3 / 5).
Proof.
  split; [apply rotation_unit; lra|]. unfold random_rotation. rewrite sin_2PI0, cos_2PI0. replace (9 / 25) with ((3 / 5) * (3 / 5)) by field. replace (1 - 3 / 5 * (3 / 5)) with ((4 / 5) * (4 / 5)) by field. rewrite !sqrt_square by lra. f_equal; ring.
Qed.
Example uniform_case : uniform_vector (same_limits 5 1) (fun _ => / 2) 0%nat = 3.
Proof. unfold uniform_vector, draw. cbn. rewrite Rmin_right, Rmax_left by lra. field. Qed.
Print Assumptions rotation_onto. Print Assumptions rotation_injective. Print Assumptions rotation_volume. Print Assumptions rotation_isotropic. Print Assumptions uniform_within. Print Assumptions uniform_onto. Print Assumptions uniform_matrix_onto.

(** The conversion from rotation matrices to quaternions. *)
From Coq Require Import Reals Lra Lia Psatz Nsatz Bool.
From Verif Require Import Mat Quat QuatProofs.
Open Scope R_scope.

(** the products of the components of a quaternion, in terms of its matrix *)
Definition products (a b c d e f g h i X Y Z W : R) : Prop :=
  X*X = (1+a-e-i)/4 /\ Y*Y = (1+e-a-i)/4 /\ Z*Z = (1+i-a-e)/4 /\ W*W = (1+a+e+i)/4 /\
  X*Y = (b+d)/4 /\ X*Z = (c+g)/4 /\ Y*Z = (f+h)/4 /\
  X*W = (f-h)/4 /\ Y*W = (g-c)/4 /\ Z*W = (b-d)/4.

Section Rotation.
  Variables a b c d e f g h i : R.
  (* rows and columns orthonormal, determinant one *)
  Hypothesis (R1 : a*a+b*b+c*c = 1) (R2 : d*d+e*e+f*f = 1) (R3 : g*g+h*h+i*i = 1).
  Hypothesis (R12 : a*d+b*e+c*f = 0) (R13 : a*g+b*h+c*i = 0) (R23 : d*g+e*h+f*i = 0).
  Hypothesis (C1 : a*a+d*d+g*g = 1) (C2 : b*b+e*e+h*h = 1) (C3 : c*c+f*f+i*i = 1).
  Hypothesis (C12 : a*b+d*e+g*h = 0) (C13 : a*c+d*f+g*i = 0) (C23 : b*c+e*f+h*i = 0).
  Hypothesis (D : a*(e*i-f*h) - b*(d*i-f*g) + c*(d*h-e*g) = 1).

  (* a rotation matrix equals its cofactor matrix *)
  Lemma cof_a : a = e*i - f*h.  Proof. clear C1 C2 C3 C12 C13 C23. nsatz. Qed.
  Lemma cof_b : b = f*g - d*i.  Proof. clear C1 C2 C3 C12 C13 C23. nsatz. Qed.
  Lemma cof_c : c = d*h - e*g.  Proof. clear C1 C2 C3 C12 C13 C23. nsatz. Qed.
  Lemma cof_d : d = c*h - b*i.  Proof. clear C1 C2 C3 C12 C13 C23. nsatz. Qed.
  Lemma cof_e : e = a*i - c*g.  Proof. clear C1 C2 C3 C12 C13 C23. nsatz. Qed.
  Lemma cof_f : f = b*g - a*h.  Proof. clear C1 C2 C3 C12 C13 C23. nsatz. Qed.
  Lemma cof_g : g = b*f - c*e.  Proof. clear C1 C2 C3 C12 C13 C23. nsatz. Qed.
  Lemma cof_h : h = c*d - a*f.  Proof. clear C1 C2 C3 C12 C13 C23. nsatz. Qed.
  Lemma cof_i : i = a*e - b*d.  Proof. clear C1 C2 C3 C12 C13 C23. nsatz. Qed.

  Let T := 1+a+e+i.
  Let U := 1+a-e-i.
  Let V := 1+e-a-i.
  Let S := 1+i-a-e.

  Ltac go := pose proof cof_a; pose proof cof_b; pose proof cof_c; pose proof cof_d;
    pose proof cof_e; pose proof cof_f; pose proof cof_g; pose proof cof_h; pose proof cof_i;
    unfold T, U, V, S in *; nsatz.

  Lemma TU : (f-h)*(f-h) = T*U. Proof. go. Qed.
  Lemma TV : (g-c)*(g-c) = T*V. Proof. go. Qed.
  Lemma TS : (b-d)*(b-d) = T*S. Proof. go. Qed.
  Lemma UV : (b+d)*(b+d) = U*V. Proof. go. Qed.
  Lemma US : (c+g)*(c+g) = U*S. Proof. go. Qed.
  Lemma VS : (f+h)*(f+h) = V*S. Proof. go. Qed.
  Lemma t12 : (f-h)*(g-c) = T*(b+d). Proof. go. Qed.
  Lemma t13 : (f-h)*(b-d) = T*(c+g). Proof. go. Qed.
  Lemma t23 : (g-c)*(b-d) = T*(f+h). Proof. go. Qed.
  Lemma u12 : (b+d)*(c+g) = U*(f+h). Proof. go. Qed.
  Lemma u13 : (b+d)*(f-h) = U*(g-c). Proof. go. Qed.
  Lemma u23 : (c+g)*(f-h) = U*(b-d). Proof. go. Qed.
  Lemma v12 : (b+d)*(f+h) = V*(c+g). Proof. go. Qed.
  Lemma v13 : (b+d)*(g-c) = V*(f-h). Proof. go. Qed.
  Lemma v23 : (f+h)*(g-c) = V*(b-d). Proof. go. Qed.
  Lemma s12 : (c+g)*(f+h) = S*(b+d). Proof. go. Qed.
  Lemma s13 : (c+g)*(b-d) = S*(f-h). Proof. go. Qed.
  Lemma s23 : (f+h)*(b-d) = S*(g-c). Proof. go. Qed.

  Lemma T_nonneg : 0 <= T.
  Proof.
    pose proof TU as H1; pose proof TV as H2; pose proof TS as H3.
    pose proof (Rle_0_sqr (f-h)); pose proof (Rle_0_sqr (g-c)); pose proof (Rle_0_sqr (b-d)).
    unfold Rsqr in *.
    assert (HT4 : 0 <= T * (4 - T)).
    { replace (T*(4-T)) with (T*U + T*V + T*S) by (unfold T, U, V, S; ring). lra. }
    destruct (Rle_dec 0 T) as [|Hn]; [assumption|]. exfalso.
    assert (T * (4 - T) < 0) by nra. lra.
  Qed.

  (** one entry of the table below: numerator n over sqrt(K)*2 *)
  Lemma frac_prod K n1 n2 r :
    0 < K -> n1 * n2 = K * r ->
    (n1 / (sqrt K * 2)) * (n2 / (sqrt K * 2)) = r / 4.
  Proof.
    intros HK H. pose proof (sqrt_lt_R0 K HK). pose proof (sqrt_sqrt K (Rlt_le _ _ HK)) as Hs.
    replace (n1 / (sqrt K * 2) * (n2 / (sqrt K * 2))) with (n1 * n2 / (4 * (sqrt K * sqrt K)))
      by (field; lra).
    rewrite Hs, H. field. lra.
  Qed.
  Lemma frac_big K n : 0 < K -> (1 / 4 * (sqrt K * 2)) * (n / (sqrt K * 2)) = n / 4.
  Proof. intros HK. pose proof (sqrt_lt_R0 K HK). field. lra. Qed.
  Lemma big_big K : 0 < K -> (1 / 4 * (sqrt K * 2)) * (1 / 4 * (sqrt K * 2)) = K / 4.
  Proof.
    intros HK. pose proof (sqrt_sqrt K (Rlt_le _ _ HK)) as Hs.
    replace (1 / 4 * (sqrt K * 2) * (1 / 4 * (sqrt K * 2))) with ((sqrt K * sqrt K) / 4) by field.
    rewrite Hs. reflexivity.
  Qed.

  Ltac tab := first
    [ apply big_big; assumption
    | apply frac_big; assumption
    | rewrite Rmult_comm; apply frac_big; assumption
    | apply frac_prod; [assumption|] ].

  Lemma branch_T : 0 < T ->
    products a b c d e f g h i ((f-h)/(sqrt T*2)) ((g-c)/(sqrt T*2)) ((b-d)/(sqrt T*2)) (1/4*(sqrt T*2)).
  Proof.
    intros HT. unfold products. fold T U V S. repeat split; tab.
    - apply TU. - apply TV. - apply TS. - apply t12. - apply t13. - apply t23.
  Qed.
  Lemma branch_U : 0 < U ->
    products a b c d e f g h i (1/4*(sqrt U*2)) ((b+d)/(sqrt U*2)) ((g+c)/(sqrt U*2)) ((f-h)/(sqrt U*2)).
  Proof.
    intros HT. unfold products. fold T U V S. rewrite (Rplus_comm g c). repeat split; tab.
    - apply UV. - apply US. - rewrite TU; ring. - apply u12. - apply u13. - apply u23.
  Qed.
  Lemma branch_V : 0 < V ->
    products a b c d e f g h i ((b+d)/(sqrt V*2)) (1/4*(sqrt V*2)) ((f+h)/(sqrt V*2)) ((g-c)/(sqrt V*2)).
  Proof.
    intros HT. unfold products. fold T U V S. repeat split; tab.
    - rewrite UV; ring. - apply VS. - rewrite TV; ring. - apply v12. - apply v13. - apply v23.
  Qed.
  Lemma branch_S : 0 < S ->
    products a b c d e f g h i ((g+c)/(sqrt S*2)) ((f+h)/(sqrt S*2)) (1/4*(sqrt S*2)) ((b-d)/(sqrt S*2)).
  Proof.
    intros HT. unfold products. fold T U V S. rewrite (Rplus_comm g c). repeat split; tab.
    - rewrite US; ring. - rewrite VS; ring. - rewrite TS; ring. - apply s12. - apply s13. - apply s23.
  Qed.
End Rotation.

Lemma qnormalize_unit q : unit q -> qnormalize q = Some q.
Proof.
  intros H. unfold qnormalize. rewrite H, sqrt_1.
  destruct (Req_EM_T 1 0); [lra|]. destruct q. cbn. f_equal. f_equal; field.
Qed.

Lemma products_sound (m : mat) X Y Z W :
  products (m 0%nat 0%nat) (m 0%nat 1%nat) (m 0%nat 2%nat) (m 1%nat 0%nat) (m 1%nat 1%nat)
    (m 1%nat 2%nat) (m 2%nat 0%nat) (m 2%nat 1%nat) (m 2%nat 2%nat) X Y Z W ->
  unit (Q X Y Z (- W)) /\ meq 3 3 (qmat (Q X Y Z (- W))) m.
Proof.
  intros (H1 & H2 & H3 & H4 & H5 & H6 & H7 & H8 & H9 & H10).
  split.
  - un. lra.
  - intros p q Hp Hq. un. idx p Hp; idx q Hq; cbn; lra.
Qed.

Lemma quat_of_mat_rotation m : rotation m ->
  exists q, quat_of_mat m = Some q /\ unit q /\ meq 3 3 (qmat q) m.
Proof.
  intros (HR & HC & HD).
  assert (E : forall p q, (p < 3)%nat -> (q < 3)%nat ->
     m p 0%nat * m q 0%nat + m p 1%nat * m q 1%nat + m p 2%nat * m q 2%nat = eye p q).
  { intros p q Hp Hq. rewrite <- (HR p q Hp Hq). unfold mmul, tr. cbn [sum]. ring. }
  assert (F : forall p q, (p < 3)%nat -> (q < 3)%nat ->
     m 0%nat p * m 0%nat q + m 1%nat p * m 1%nat q + m 2%nat p * m 2%nat q = eye p q).
  { intros p q Hp Hq. rewrite <- (HC p q Hp Hq). unfold mmul, tr. cbn [sum]. ring. }
  pose proof (E 0 0 ltac:(lia) ltac:(lia))%nat as R1. pose proof (E 1 1 ltac:(lia) ltac:(lia))%nat as R2.
  pose proof (E 2 2 ltac:(lia) ltac:(lia))%nat as R3. pose proof (E 0 1 ltac:(lia) ltac:(lia))%nat as R12.
  pose proof (E 0 2 ltac:(lia) ltac:(lia))%nat as R13. pose proof (E 1 2 ltac:(lia) ltac:(lia))%nat as R23.
  pose proof (F 0 0 ltac:(lia) ltac:(lia))%nat as C1. pose proof (F 1 1 ltac:(lia) ltac:(lia))%nat as C2.
  pose proof (F 2 2 ltac:(lia) ltac:(lia))%nat as C3. pose proof (F 0 1 ltac:(lia) ltac:(lia))%nat as C12.
  pose proof (F 0 2 ltac:(lia) ltac:(lia))%nat as C13. pose proof (F 1 2 ltac:(lia) ltac:(lia))%nat as C23.
  unfold eye in R1, R2, R3, R12, R13, R23, C1, C2, C3, C12, C13, C23.
  cbn in R1, R2, R3, R12, R13, R23, C1, C2, C3, C12, C13, C23.
  clear E F HR HC. unfold det33 in HD. unfold quat_of_mat.
  pose proof (products_sound m) as PS.
  set (a := m 0%nat 0%nat) in *. set (b := m 0%nat 1%nat) in *. set (c := m 0%nat 2%nat) in *.
  set (d := m 1%nat 0%nat) in *. set (e := m 1%nat 1%nat) in *. set (f := m 1%nat 2%nat) in *.
  set (g := m 2%nat 0%nat) in *. set (h := m 2%nat 1%nat) in *. set (i := m 2%nat 2%nat) in *.
  assert (K : forall X Y Z W, products a b c d e f g h i X Y Z W ->
     exists q, qnormalize (Q X Y Z (- W)) = Some q /\ unit q /\ meq 3 3 (qmat q) m).
  { intros X Y Z W HP. destruct (PS X Y Z W HP) as [Hu Hm].
    exists (Q X Y Z (- W)). split; [apply qnormalize_unit; exact Hu|split; assumption]. }
  unfold Rgtb.
  destruct (Rgt_dec (1 + a + e + i) 0) as [HT|HT].
  { apply K. apply branch_T; assumption. }
  assert (HT0 : 1 + a + e + i = 0).
  { apply Rle_antisym; [lra|]. apply (T_nonneg a b c d e f g h i); assumption. }
  assert (Ha : -1 <= a).
  { pose proof (Rle_0_sqr b); pose proof (Rle_0_sqr c). unfold Rsqr in *. nra. }
  assert (He : -1 <= e).
  { pose proof (Rle_0_sqr d); pose proof (Rle_0_sqr f). unfold Rsqr in *. nra. }
  assert (Hi : -1 <= i).
  { pose proof (Rle_0_sqr g); pose proof (Rle_0_sqr h). unfold Rsqr in *. nra. }
  destruct (Rgt_dec a e) as [Hae|Hae]; [destruct (Rgt_dec a i) as [Hai|Hai]|]; cbn [andb].
  - apply K. apply branch_U; try assumption. lra.
  - destruct (Rgt_dec e i) as [Hei|Hei].
    + apply K. apply branch_V; try assumption. lra.
    + apply K. apply branch_S; try assumption. lra.
  - destruct (Rgt_dec e i) as [Hei|Hei].
    + apply K. apply branch_V; try assumption. lra.
    + apply K. apply branch_S; try assumption. lra.
Qed.

(** a unit quaternion is determined by its matrix up to sign *)
Lemma qmat_inj p q : unit p -> unit q -> meq 3 3 (qmat p) (qmat q) -> p = q \/ p = qopp q.
Proof.
  intros Hp Hq H.
  pose proof (H 0 0 ltac:(lia) ltac:(lia))%nat as E00. pose proof (H 0 1 ltac:(lia) ltac:(lia))%nat as E01.
  pose proof (H 0 2 ltac:(lia) ltac:(lia))%nat as E02. pose proof (H 1 0 ltac:(lia) ltac:(lia))%nat as E10.
  pose proof (H 1 1 ltac:(lia) ltac:(lia))%nat as E11. pose proof (H 1 2 ltac:(lia) ltac:(lia))%nat as E12.
  pose proof (H 2 0 ltac:(lia) ltac:(lia))%nat as E20. pose proof (H 2 1 ltac:(lia) ltac:(lia))%nat as E21.
  pose proof (H 2 2 ltac:(lia) ltac:(lia))%nat as E22. clear H.
  destruct p as [x y z w], q as [x' y' z' w']. un.
  assert (Hxx : x*x = x'*x') by lra. assert (Hyy : y*y = y'*y') by lra.
  assert (Hzz : z*z = z'*z') by lra. assert (Hww : w*w = w'*w') by lra.
  assert (Hxy : x*y = x'*y') by lra. assert (Hxz : x*z = x'*z') by lra.
  assert (Hyz : y*z = y'*z') by lra. assert (Hxw : x*w = x'*w') by lra.
  assert (Hyw : y*w = y'*w') by lra. assert (Hzw : z*w = z'*w') by lra.
  assert (Hd : (x*x'+y*y'+z*z'+w*w') * (x*x'+y*y'+z*z'+w*w') = 1) by nsatz.
  assert (Hd' : x*x'+y*y'+z*z'+w*w' = 1 \/ x*x'+y*y'+z*z'+w*w' = -1).
  { assert (H : (x*x'+y*y'+z*z'+w*w' - 1) * (x*x'+y*y'+z*z'+w*w' + 1) = 0) by lra.
    apply Rmult_integral in H. destruct H; [left|right]; lra. }
  clear E00 E01 E02 E10 E11 E12 E20 E21 E22.
  destruct Hd' as [Hd'|Hd']; [left|right].
  - assert (S0 : (x-x')*(x-x') + (y-y')*(y-y') + (z-z')*(z-z') + (w-w')*(w-w') = 0) by lra.
    pose proof (Rle_0_sqr (x-x')); pose proof (Rle_0_sqr (y-y')); pose proof (Rle_0_sqr (z-z'));
    pose proof (Rle_0_sqr (w-w')). unfold Rsqr in *.
    f_equal; apply Rminus_diag_uniq; apply Rsqr_0_uniq; unfold Rsqr; lra.
  - assert (S0 : (x+x')*(x+x') + (y+y')*(y+y') + (z+z')*(z+z') + (w+w')*(w+w') = 0) by lra.
    pose proof (Rle_0_sqr (x+x')); pose proof (Rle_0_sqr (y+y')); pose proof (Rle_0_sqr (z+z'));
    pose proof (Rle_0_sqr (w+w')). unfold Rsqr in *.
    f_equal; apply Rminus_diag_uniq; unfold Rminus; rewrite Ropp_involutive; apply Rsqr_0_uniq;
    unfold Rsqr; lra.
Qed.

Lemma quat_of_mat_of_quat q : unit q ->
  exists q', quat_of_mat (qmat q) = Some q' /\ (q' = q \/ q' = qopp q).
Proof.
  intros H. destruct (quat_of_mat_rotation _ (qmat_rotation q H)) as (q' & E & U & M).
  exists q'. split; [exact E|]. apply qmat_inj; assumption.
Qed.

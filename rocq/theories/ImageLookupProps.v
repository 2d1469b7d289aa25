(** Reading grey values between pixels (C156, C157). *)
From Coq Require Import Reals ZArith Lra Lia Bool.
From Coquelicot Require Import Coquelicot.
From Verif Require Import ImageLookup.
Open Scope R_scope.

Lemma floor_spec r : IZR (floor_int r) <= r < IZR (floor_int r) + 1.
Proof. unfold floor_int. destruct (base_Int_part r). lra. Qed.
Lemma floor_unique r z : IZR z <= r < IZR z + 1 -> floor_int r = z.
Proof.
  intros [A B]. destruct (floor_spec r) as [C D]. assert (IZR (floor_int r) < IZR (z + 1)) by (rewrite plus_IZR; lra). assert (IZR z < IZR (floor_int r + 1)) by (rewrite plus_IZR; lra).
  apply lt_IZR in H, H0. lia.
Qed.
Lemma floor_IZR z : floor_int (IZR z) = z.
Proof. apply floor_unique. lra. Qed.
(** points at which four pixels surround the coordinate *)
Definition inside (g : image) (px py : R) : Prop := 0 <= px < IZR (width g - 1) /\ 0 <= py < IZR (height g - 1).
Lemma floor_nonneg r : (0 <= floor_int r)%Z <-> 0 <= r.
Proof. destruct (floor_spec r) as [A B]. split; intros H; [apply IZR_le in H; lra|]. assert (-1 < IZR (floor_int r)) by lra. change (-1) with (IZR (-1)) in H0. apply lt_IZR in H0. lia. Qed.
Lemma floor_below r z : (floor_int r < z)%Z <-> r < IZR z.
Proof. destruct (floor_spec r) as [A B]. split; intros H; [assert (IZR (floor_int r + 1) <= IZR z) by (apply IZR_le; lia); rewrite plus_IZR in H0; lra|]. apply lt_IZR. lra. Qed.
Lemma inside_floor g px py : inside g px py <-> ((0 <= floor_int px < width g - 1) /\ (0 <= floor_int py < height g - 1))%Z.
Proof. unfold inside. rewrite !floor_nonneg, !floor_below. tauto. Qed.
Lemma read_in g x y : (0 <= x < width g)%Z -> (0 <= y < height g)%Z -> read g x y = Some (pix g x y).
Proof. intros X Y. unfold read. destruct (Z.leb_spec 0 x), (Z.ltb_spec x (width g)), (Z.leb_spec 0 y), (Z.ltb_spec y (height g)); cbn; try reflexivity; lia. Qed.
Ltac reads := repeat (rewrite read_in by lia; cbn [bind]).

(** linear interpolation of values at the integers *)
Definition interp (f : Z -> R) (r : R) : R := f (floor_int r) + (r - IZR (floor_int r)) * (f (floor_int r + 1)%Z - f (floor_int r)).
Definition bilinear (g : image) (px py : R) : R := interp (fun j => interp (fun i => pix g i j) px) py.
Lemma evaluate_inside g px py : inside g px py -> evaluate g px py = Some (bilinear g px py).
Proof.
  intros I. apply inside_floor in I. unfold evaluate. set (x := floor_int px) in *. set (y := floor_int py) in *.
  destruct (Z.ltb_spec x 0), (Z.leb_spec (width g - 1) x), (Z.ltb_spec y 0), (Z.leb_spec (height g - 1) y); cbn [orb]; try lia. reads. unfold bilinear, interp. fold x y. reflexivity.
Qed.
Lemma evaluate_outside g px py : ~ inside g px py -> evaluate g px py = Some 0.
Proof.
  intros I. rewrite inside_floor in I. unfold evaluate. set (x := floor_int px) in *. set (y := floor_int py) in *.
  destruct (Z.ltb_spec x 0), (Z.leb_spec (width g - 1) x), (Z.ltb_spec y 0), (Z.leb_spec (height g - 1) y); cbn [orb]; try reflexivity. exfalso. apply I. lia.
Qed.
Lemma inside_dec g px py : inside g px py \/ ~ inside g px py.
Proof. rewrite inside_floor. destruct (Z_le_dec 0 (floor_int px)), (Z_lt_dec (floor_int px) (width g - 1)), (Z_le_dec 0 (floor_int py)), (Z_lt_dec (floor_int py) (height g - 1)); tauto. Qed.

(** no coordinate makes either function read outside the image *)
Theorem lookup_in_bounds g l px py : evaluate g px py <> None /\ multiply_jacobian g l px py <> None.
Proof.
  split.
  - destruct (inside_dec g px py) as [I|I]; [rewrite (evaluate_inside g px py I)|rewrite (evaluate_outside g px py I)]; discriminate.
  - unfold multiply_jacobian. set (x := round_int px). set (y := round_int py).
    destruct (Z.ltb_spec x 1), (Z.leb_spec (width g - 2) x), (Z.ltb_spec y 1), (Z.leb_spec (height g - 2) y); cbn [orb]; try discriminate. reads. discriminate.
Qed.
(** at a pixel its value is returned *)
Theorem lookup_pixel g x y : (0 <= x < width g - 1)%Z -> (0 <= y < height g - 1)%Z -> evaluate g (IZR x) (IZR y) = Some (pix g x y).
Proof.
  intros X Y. rewrite evaluate_inside by (rewrite inside_floor, !floor_IZR; lia). unfold bilinear, interp. rewrite !floor_IZR. f_equal. ring.
Qed.
Lemma interp_between f r lo hi : lo <= f (floor_int r) <= hi -> lo <= f (floor_int r + 1)%Z <= hi -> lo <= interp f r <= hi.
Proof.
  intros A B. unfold interp. destruct (floor_spec r) as [C D]. set (d := r - IZR (floor_int r)). assert (0 <= d < 1) by (unfold d; lra).
  replace (f (floor_int r) + d * (f (floor_int r + 1)%Z - f (floor_int r))) with ((1 - d) * f (floor_int r) + d * f (floor_int r + 1)%Z) by ring.
  split.
  - replace lo with ((1 - d) * lo + d * lo) by ring. apply Rplus_le_compat; apply Rmult_le_compat_l; lra.
  - replace hi with ((1 - d) * hi + d * hi) by ring. apply Rplus_le_compat; apply Rmult_le_compat_l; lra.
Qed.
(** never darker or brighter than the four pixels around it *)
Theorem lookup_between g px py lo hi v : inside g px py ->
  (forall i j, (floor_int px <= i <= floor_int px + 1)%Z -> (floor_int py <= j <= floor_int py + 1)%Z -> lo <= pix g i j <= hi) ->
  evaluate g px py = Some v -> lo <= v <= hi.
Proof. intros I H E. rewrite (evaluate_inside g px py I) in E. injection E as <-. unfold bilinear. apply interp_between; apply interp_between; apply H; lia. Qed.

(** ** Lipschitz bound *)
Lemma steps (f : Z -> R) L lo hi : 0 <= L -> (forall i, (lo <= i < hi)%Z -> Rabs (f (i + 1)%Z - f i) <= L) -> forall n a, (lo <= a)%Z -> (a + Z.of_nat n <= hi)%Z -> Rabs (f (a + Z.of_nat n)%Z - f a) <= L * INR n.
Proof.
  intros LP H. induction n as [|n IH]; intros a A B.
  - cbn [Z.of_nat]. rewrite Z.add_0_r, Rminus_eq_0, Rabs_R0. cbn. lra.
  - rewrite S_INR. replace (f (a + Z.of_nat (S n))%Z - f a) with ((f (a + Z.of_nat n + 1)%Z - f (a + Z.of_nat n)%Z) + (f (a + Z.of_nat n)%Z - f a)) by (replace (a + Z.of_nat (S n))%Z with (a + Z.of_nat n + 1)%Z by lia; ring).
    eapply Rle_trans; [apply Rabs_triang|]. assert (Rabs (f (a + Z.of_nat n + 1)%Z - f (a + Z.of_nat n)%Z) <= L) by (apply H; lia). specialize (IH a A ltac:(lia)). lra.
Qed.
Lemma interp_lipschitz_le f L hi x y : 0 <= L -> (forall i, (0 <= i < hi)%Z -> Rabs (f (i + 1)%Z - f i) <= L) ->
  0 <= x -> x <= y -> y < IZR hi -> Rabs (interp f y - interp f x) <= L * (y - x).
Proof.
  intros LP H X XY Y. assert (FX : (0 <= floor_int x)%Z) by (apply floor_nonneg; exact X). assert (FY : (floor_int y < hi)%Z) by (apply floor_below; exact Y).
  destruct (floor_spec x) as [A B]. destruct (floor_spec y) as [C D]. unfold interp. set (u := floor_int x) in *. set (v := floor_int y) in *.
  assert (UV : (u <= v)%Z). { assert (IZR u < IZR (v + 1)) by (rewrite plus_IZR; lra). apply lt_IZR in H0. lia. }
  destruct (Z.eq_dec u v) as [E|N].
  - rewrite <- E in *. replace (f u + (y - IZR u) * (f (u + 1)%Z - f u) - (f u + (x - IZR u) * (f (u + 1)%Z - f u))) with ((f (u + 1)%Z - f u) * (y - x)) by ring.
    rewrite Rabs_mult, (Rabs_right (y - x)) by lra. apply Rmult_le_compat_r; [lra|]. apply H. lia.
  - set (du := f (u + 1)%Z - f u). set (dv := f (v + 1)%Z - f v).
    assert (DU : Rabs du <= L) by (apply H; lia). assert (DV : Rabs dv <= L) by (apply H; lia).
    assert (M := steps f L 0 hi LP H (Z.to_nat (v - (u + 1))) (u + 1)%Z ltac:(lia) ltac:(lia)). replace (u + 1 + Z.of_nat (Z.to_nat (v - (u + 1))))%Z with v in M by lia.
    assert (EN : INR (Z.to_nat (v - (u + 1))) = IZR v - IZR u - 1) by (rewrite INR_IZR_INZ, Z2Nat.id, minus_IZR, plus_IZR by lia; lra). rewrite EN in M.
    replace (f v + (y - IZR v) * dv - (f u + (x - IZR u) * du)) with ((y - IZR v) * dv + (f v - f (u + 1)%Z) + (1 - (x - IZR u)) * du) by (unfold du; ring).
    eapply Rle_trans; [apply Rabs_triang|]. eapply Rle_trans; [apply Rplus_le_compat_r, Rabs_triang|]. rewrite !Rabs_mult, (Rabs_right (y - IZR v)), (Rabs_right (1 - (x - IZR u))) by lra.
    assert ((y - IZR v) * Rabs dv <= (y - IZR v) * L) by (apply Rmult_le_compat_l; lra). assert ((1 - (x - IZR u)) * Rabs du <= (1 - (x - IZR u)) * L) by (apply Rmult_le_compat_l; lra). lra.
Qed.
Lemma interp_lipschitz f L hi x y : 0 <= L -> (forall i, (0 <= i < hi)%Z -> Rabs (f (i + 1)%Z - f i) <= L) ->
  0 <= x < IZR hi -> 0 <= y < IZR hi -> Rabs (interp f x - interp f y) <= L * Rabs (x - y).
Proof.
  intros LP H X Y. destruct (Rle_dec x y) as [XY|XY].
  - rewrite Rabs_minus_sym, (Rabs_minus_sym x y), (Rabs_right (y - x)) by lra. apply (interp_lipschitz_le f L hi); try assumption; lra.
  - rewrite (Rabs_right (x - y)) by lra. apply (interp_lipschitz_le f L hi); try assumption; lra.
Qed.
Lemma interp_minus f h r : interp f r - interp h r = interp (fun i => f i - h i) r.
Proof. unfold interp. ring. Qed.
(** if neighbouring pixels differ by at most L, the returned value changes by at most L per pixel:
    in particular there are no jumps between cells *)
Theorem lookup_lipschitz g L px py qx qy v w : 0 <= L ->
  (forall i j, (0 <= i < width g - 1)%Z -> (0 <= j < height g)%Z -> Rabs (pix g (i + 1) j - pix g i j) <= L) ->
  (forall i j, (0 <= i < width g)%Z -> (0 <= j < height g - 1)%Z -> Rabs (pix g i (j + 1) - pix g i j) <= L) ->
  inside g px py -> inside g qx qy -> evaluate g px py = Some v -> evaluate g qx qy = Some w ->
  Rabs (v - w) <= L * (Rabs (px - qx) + Rabs (py - qy)).
Proof.
  intros LP HX HY I J EV EW. rewrite (evaluate_inside g px py I) in EV. rewrite (evaluate_inside g qx qy J) in EW. injection EV as <-. injection EW as <-.
  assert (I' := I). assert (J' := J). apply inside_floor in I', J'. destruct I as [IX IY], J as [JX JY]. unfold bilinear.
  replace (interp (fun j => interp (fun i => pix g i j) px) py - interp (fun j => interp (fun i => pix g i j) qx) qy) with
    ((interp (fun j => interp (fun i => pix g i j) px) py - interp (fun j => interp (fun i => pix g i j) qx) py) + (interp (fun j => interp (fun i => pix g i j) qx) py - interp (fun j => interp (fun i => pix g i j) qx) qy)) by ring.
  eapply Rle_trans; [apply Rabs_triang|]. rewrite Rmult_plus_distr_l. apply Rplus_le_compat.
  - rewrite interp_minus. apply Rabs_le. apply interp_between; apply Rabs_le_between, (interp_lipschitz _ L (width g - 1)); try assumption; intros i Hi; apply HX; lia.
  - apply (interp_lipschitz _ L (height g - 1)); try assumption. intros j Hj. rewrite interp_minus. apply Rabs_le. apply interp_between; apply Rabs_le_between, HY; lia.
Qed.
(** an affine image is reproduced between the pixels, and the Sobel operator returns its slope *)
Definition affine_image (g : image) (a b c : R) : Prop := forall x y, (0 <= x < width g)%Z -> (0 <= y < height g)%Z -> pix g x y = a + b * IZR x + c * IZR y.
Theorem lookup_affine g a b c px py : affine_image g a b c -> inside g px py -> evaluate g px py = Some (a + b * px + c * py).
Proof.
  intros H I. rewrite (evaluate_inside g px py I). apply inside_floor in I. unfold bilinear, interp. rewrite !H by lia. rewrite !plus_IZR. f_equal. ring.
Qed.
(** where the rounded coordinate has all eight neighbours and one more column and row *)
Definition interior (g : image) (px py : R) : Prop := (1 <= round_int px < width g - 2)%Z /\ (1 <= round_int py < height g - 2)%Z.
Definition sobel_x (g : image) (x y : Z) : R :=
  (pix g (x + 1) (y - 1) - pix g (x - 1) (y - 1) + 2 * (pix g (x + 1) y - pix g (x - 1) y) + (pix g (x + 1) (y + 1) - pix g (x - 1) (y + 1))) / 8.
Definition sobel_y (g : image) (x y : Z) : R :=
  (pix g (x - 1) (y + 1) - pix g (x - 1) (y - 1) + 2 * (pix g x (y + 1) - pix g x (y - 1)) + (pix g (x + 1) (y + 1) - pix g (x + 1) (y - 1))) / 8.
Theorem lookup_sobel g l px py : interior g px py ->
  multiply_jacobian g l px py = Some (l * sobel_x g (round_int px) (round_int py), l * sobel_y g (round_int px) (round_int py)).
Proof.
  unfold interior, multiply_jacobian. set (x := round_int px). set (y := round_int py). intros [X Y].
  destruct (Z.ltb_spec x 1), (Z.leb_spec (width g - 2) x), (Z.ltb_spec y 1), (Z.leb_spec (height g - 2) y); cbn [orb]; try lia. reads. unfold sobel_x, sobel_y. do 2 f_equal; lra.
Qed.
(** the coordinate is rounded to a nearest pixel *)
Theorem round_nearest r : Rabs (r - IZR (round_int r)) <= 1 / 2.
Proof.
  unfold round_int. destruct (floor_spec r) as [A B]. destruct (Rlt_dec (1 / 2) (r - IZR (floor_int r))) as [L|L]; [rewrite plus_IZR|]; apply Rabs_le; lra.
Qed.
Theorem lookup_jacobian_affine g a b c l px py : affine_image g a b c -> interior g px py ->
  multiply_jacobian g l px py = Some (l * b, l * c).
Proof.
  intros H I. rewrite (lookup_sobel g l px py I). destruct I as [X Y]. unfold sobel_x, sobel_y. rewrite !H by lia. rewrite !plus_IZR, !minus_IZR. do 2 f_equal; lra.
Qed.
Definition value (g : image) (px py : R) : R := match evaluate g px py with Some v => v | None => 0 end.
(** so for affine images the pair is the gradient *)
Theorem lookup_jacobian_derivative g a b c px py : affine_image g a b c -> interior g px py -> inside g px py -> exists jx jy,
  multiply_jacobian g 1 px py = Some (jx, jy) /\ is_derive (fun t => value g t py) px jx /\ is_derive (fun t => value g px t) py jy.
Proof.
  intros H I IN. exists b, c. split; [rewrite (lookup_jacobian_affine g a b c 1 px py H I); do 2 f_equal; ring|].
  destruct IN as [X Y]. destruct I as [RX RY].
  assert (PX : 0 < px). { assert (N := round_nearest px). assert (IZR 1 <= IZR (round_int px)) by (apply IZR_le; lia). unfold Rabs in N. destruct (Rcase_abs _); lra. }
  assert (PY : 0 < py). { assert (N := round_nearest py). assert (IZR 1 <= IZR (round_int py)) by (apply IZR_le; lia). unfold Rabs in N. destruct (Rcase_abs _); lra. }
  split.
  - apply is_derive_ext_loc with (f := fun t => a + b * t + c * py); [|auto_derive; [exact Logic.I|ring]].
    assert (D : 0 < Rmin px (IZR (width g - 1) - px)) by (apply Rmin_glb_lt; lra). exists (mkposreal _ D). intros t Ht. unfold ball in Ht. cbn in Ht. unfold AbsRing_ball, abs, minus, plus, opp in Ht. cbn in Ht.
    pose proof (Rmin_l px (IZR (width g - 1) - px)). pose proof (Rmin_r px (IZR (width g - 1) - px)). apply Rabs_def2 in Ht.
    unfold value. rewrite (lookup_affine g a b c t py H); [reflexivity|]. split; lra.
  - apply is_derive_ext_loc with (f := fun t => a + b * px + c * t); [|auto_derive; [exact Logic.I|ring]].
    assert (D : 0 < Rmin py (IZR (height g - 1) - py)) by (apply Rmin_glb_lt; lra). exists (mkposreal _ D). intros t Ht. unfold ball in Ht. cbn in Ht. unfold AbsRing_ball, abs, minus, plus, opp in Ht. cbn in Ht.
    pose proof (Rmin_l py (IZR (height g - 1) - py)). pose proof (Rmin_r py (IZR (height g - 1) - py)). apply Rabs_def2 in Ht.
    unfold value. rewrite (lookup_affine g a b c px t H); [reflexivity|]. split; lra.
Qed.
(** in general the pair is a smoothed central difference of the values, taken at the rounded coordinate *)
Theorem lookup_jacobian_smoothed g px py : interior g px py ->
  let x := IZR (round_int px) in let y := IZR (round_int py) in let v := value g in
  multiply_jacobian g 1 px py = Some
    ((1 / 4 * ((v (x + 1) (y - 1) - v (x - 1) (y - 1)) / 2) + 1 / 2 * ((v (x + 1) y - v (x - 1) y) / 2) + 1 / 4 * ((v (x + 1) (y + 1) - v (x - 1) (y + 1)) / 2)),
     (1 / 4 * ((v (x - 1) (y + 1) - v (x - 1) (y - 1)) / 2) + 1 / 2 * ((v x (y + 1) - v x (y - 1)) / 2) + 1 / 4 * ((v (x + 1) (y + 1) - v (x + 1) (y - 1)) / 2))).
Proof.
  intros I. cbv zeta. rewrite (lookup_sobel g 1 px py I). destruct I as [X Y]. set (x := round_int px) in *. set (y := round_int py) in *.
  assert (V : forall i j, (0 <= i < width g - 1)%Z -> (0 <= j < height g - 1)%Z -> value g (IZR i) (IZR j) = pix g i j) by (intros i j Hi Hj; unfold value; rewrite lookup_pixel by assumption; reflexivity).
  replace (IZR x + 1) with (IZR (x + 1)) by (rewrite plus_IZR; ring). replace (IZR x - 1) with (IZR (x - 1)) by (rewrite minus_IZR; ring).
  replace (IZR y + 1) with (IZR (y + 1)) by (rewrite plus_IZR; ring). replace (IZR y - 1) with (IZR (y - 1)) by (rewrite minus_IZR; ring).
  rewrite !V by lia. unfold sobel_x, sobel_y. do 2 f_equal; lra.
Qed.
(** so it is not the derivative of what is returned: between the columns 2 and 3 of the image with
    the squares of the column numbers the slope is 5, the Jacobian says 4 *)
Definition square_image : image := Image 8 8 (fun x _ => IZR (x * x)).
Theorem lookup_jacobian_refuted : interior square_image (9 / 4) 3 /\ multiply_jacobian square_image 1 (9 / 4) 3 = Some (4, 0) /\
  is_derive (fun t => value square_image t 3) (9 / 4) 5.
Proof.
  assert (F : forall t, 2 <= t < 3 -> floor_int t = 2%Z) by (intros; apply floor_unique; lra). assert (F3 : floor_int 3 = 3%Z) by (apply (floor_IZR 3)).
  assert (R1 : round_int (9 / 4) = 2%Z) by (unfold round_int; rewrite F by lra; destruct (Rlt_dec _ _); [lra|reflexivity]).
  assert (R2 : round_int 3 = 3%Z) by (unfold round_int; rewrite F3; destruct (Rlt_dec _ _); [lra|reflexivity]).
  assert (IN : interior square_image (9 / 4) 3) by (unfold interior; rewrite R1, R2; cbn; lia). split; [exact IN|]. split.
  - rewrite (lookup_sobel _ _ _ _ IN), R1, R2. unfold sobel_x, sobel_y. cbn. do 2 f_equal; lra.
  - apply is_derive_ext_loc with (f := fun t => 5 * t - 6); [|auto_derive; [exact Logic.I|ring]].
    assert (D : 0 < 1 / 4) by lra. exists (mkposreal _ D). intros t Ht. unfold ball in Ht. cbn in Ht. unfold AbsRing_ball, abs, minus, plus, opp in Ht. cbn in Ht. apply Rabs_def2 in Ht.
    assert (IT : inside square_image t 3) by (unfold inside; cbn; lra). unfold value. rewrite (evaluate_inside _ _ _ IT). unfold bilinear, interp. rewrite F3, F by lra. cbn. lra.
Qed.
(** the last column and row are never read: there the value drops to zero *)
Theorem lookup_last_column_refuted : forall c, let g := Image 4 4 (fun _ _ => c) in
  (forall e, 0 < e <= 1 -> evaluate g (3 - e) 1 = Some c) /\ pix g 3 1 = c /\ evaluate g 3 1 = Some 0.
Proof.
  intros c g. split; [|split; [reflexivity|]].
  - intros e E. replace (Some c) with (Some (c + 0 * (3 - e) + 0 * 1)) by (f_equal; ring). apply lookup_affine; [intros x y _ _; cbn; ring|]. unfold inside. cbn. lra.
  - apply evaluate_outside. unfold inside. cbn. lra.
Qed.
(** and next to it the value still varies while the Jacobian is zero *)
Theorem lookup_border_jacobian_refuted : multiply_jacobian square_image 1 (13 / 2 + 1 / 4) 3 = Some (0, 0) /\ evaluate square_image (13 / 2 + 1 / 4) 3 <> evaluate square_image (13 / 2 + 3 / 8) 3.
Proof.
  assert (F : forall t, 6 <= t < 7 -> floor_int t = 6%Z) by (intros; apply floor_unique; lra). assert (F3 : floor_int 3 = 3%Z) by (apply (floor_IZR 3)). split.
  - unfold multiply_jacobian. assert (R1 : round_int (13 / 2 + 1 / 4) = 7%Z) by (unfold round_int; rewrite F by lra; destruct (Rlt_dec _ _); [reflexivity|lra]). rewrite R1. reflexivity.
  - rewrite !evaluate_inside by (unfold inside; cbn; lra). unfold bilinear, interp. rewrite (F (13 / 2 + 1 / 4)), (F (13 / 2 + 3 / 8)), F3 by lra. cbn. intros E. apply (f_equal (fun o => match o with Some v => v | None => 0 end)) in E. cbn in E. lra.
Qed.
(** a 5 by 5 ramp read between its pixels *)
Example lookup_case : let g := Image 5 5 (fun x y => 10 + 3 * IZR x - 2 * IZR y) in
  inside g (3 / 2) (5 / 4) /\ evaluate g (3 / 2) (5 / 4) = Some 12 /\ interior g (3 / 2) (5 / 4) /\ multiply_jacobian g 2 (3 / 2) (5 / 4) = Some (6, -4).
Proof.
  intros g. assert (A : affine_image g 10 3 (-2)) by (intros x y _ _; cbn; ring). assert (I : inside g (3 / 2) (5 / 4)) by (unfold inside; cbn; lra). split; [exact I|].
  split; [rewrite (lookup_affine g 10 3 (-2) _ _ A I); f_equal; lra|].
  assert (F : forall t, 1 <= t < 2 -> floor_int t = 1%Z) by (intros; apply floor_unique; lra).
  assert (IN : interior g (3 / 2) (5 / 4)) by (unfold interior, round_int; rewrite !F by lra; destruct (Rlt_dec _ _), (Rlt_dec _ _); try lra; cbn; lia). split; [exact IN|].
  rewrite (lookup_jacobian_affine g 10 3 (-2) 2 _ _ A IN). do 2 f_equal; ring.
Qed.
Print Assumptions lookup_in_bounds. Print Assumptions lookup_pixel. Print Assumptions lookup_between. Print Assumptions lookup_lipschitz. Print Assumptions lookup_affine.
Print Assumptions lookup_jacobian_derivative. Print Assumptions lookup_jacobian_smoothed. Print Assumptions lookup_jacobian_refuted. Print Assumptions lookup_last_column_refuted. Print Assumptions lookup_border_jacobian_refuted.

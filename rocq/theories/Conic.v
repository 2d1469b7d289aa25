(** Models of utMath/Geometry/Conic.h, QuadricFunctors.h and ConicCovariance.h.
    [T] is a real number.  Results that would be inf or NaN in floating point are [None]. *)
From Coq Require Import Reals List Arith Bool.
Import ListNotations.
From Verif Require Import Mat Quat LinAlg.
Open Scope R_scope.

(** Vector< T, 6 >: a x^2 + b x y + c y^2 + d x + e y + f (Conic.h:66-92) *)
Record conic := Con { ca : R; cb : R; cc : R; cd : R; ce : R; cf : R }.
Definition point2 := (R * R)%type.

(** MatrixFromConic, Conic.h:115-125; ConicFromMatrix, 149-159 *)
Definition conic_matrix (k : conic) : mat := mlist [
  [ ca k; cb k * (1/2); cd k * (1/2) ]; [ cb k * (1/2); cc k; ce k * (1/2) ]; [ cd k * (1/2); ce k * (1/2); cf k ] ].
Definition matrix_conic (m : mat) : conic :=
  Con (m 0%nat 0%nat) (m 1%nat 0%nat + m 0%nat 1%nat) (m 1%nat 1%nat)
      (m 2%nat 0%nat + m 0%nat 2%nat) (m 2%nat 1%nat + m 1%nat 2%nat) (m 2%nat 2%nat).

(** the formula shared by ConicInverse (Conic.h:185-203), ProjectQuadric (QuadricFunctors.h:152-161)
    and ProjectEllipsoid (292-301) *)
Definition conic_inverse (k : conic) : option conic :=
  let '(Con a b c d e f) := k in
  let den := a*(e*e)+c*(d*d)+(b*b)*f-a*c*f*4-b*d*e in
  if Req_EM_T den 0 then None
  else let divisor := 1 / den in
    Some (Con (-(c*f*4-e*e) * divisor) (2 * (b*f*2-d*e) * divisor) (-(a*f*4-d*d) * divisor)
              (2 * (-(b*e-c*d*2) * divisor)) (2 * (a*e*2-b*d) * divisor) (-(a*c*4-b*b) * divisor)).
(** ConicDeterminant, Conic.h:226-235 *)
Definition conic_det (k : conic) : R :=
  let '(Con a b c d e f) := k in a*c*f + (-b*b*f + b*e*d - c*d*d - a*e*e) * (1/4).

(** ConicAngle, Conic.h:264-272.  For a = c the quotient is b/0: +inf, -inf or NaN, and
    atan(+-inf) = +-pi/2. *)
Definition half_angle (a b c : R) : option R :=
  if Req_EM_T a c
  then if Rlt_dec 0 b then Some (PI / 2 * (1/2)) else if Rlt_dec b 0 then Some (- (PI / 2) * (1/2)) else None
  else Some (atan (b / (a - c)) * (1/2)).
Definition conic_angle (k : conic) : option R :=
  match half_angle (ca k) (cb k) (cc k) with
  | None => None
  | Some angle => Some (if Rle_dec (ca k) (cc k) then angle else PI * (1/2) + angle)
  end.
(** the part of ConicSemiAxes that follows the angle, Conic.h:308-328; [None]: division by zero or
    square root of a negative number *)
Definition semi_axes_at (theta0 : R) (k : conic) : option point2 :=
  let '(Con a b c d e f) := k in
  let cot := cos theta0 in let sit := sin theta0 in
  let cot2 := cot*cot in let sit2 := sit*sit in
  let a1 := a*cot2+b*sit*cot+c*sit2 in
  let c1 := a*sit2-b*sit*cot+c*cot2 in
  let d1 := d*cot+e*sit in
  let e1 := -d*sit+e*cot in
  let f1 := f in
  if Req_EM_T (a1 * c1) 0 then None else
  let num := (c1*d1*d1+a1*e1*e1-4*a1*c1*f1)/(4*a1*c1) in
  if Rlt_dec (num / a1) 0 then None else if Rlt_dec (num / c1) 0 then None else
  Some (sqrt (num/a1), sqrt (num/c1)).
(** ConicSemiAxes, Conic.h:298-329 *)
Definition semi_axes (k : conic) : option point2 :=
  match conic_angle k with None => None | Some t => semi_axes_at t k end.
(** ConicArea, Conic.h:482-486 *)
Definition conic_area (k : conic) : option R :=
  match semi_axes k with None => None | Some (at', bt) => Some (PI * at' * bt) end.

(** ConicCenter, Conic.h:388-406 *)
Inductive center_result := Center (p : point2) | Thrown | NotFinite.
Definition conic_center (k : conic) : center_result :=
  let a := ca k in let b := cb k * (1/2) in let c := cc k in let d := cd k * (1/2) in let e := ce k * (1/2) in
  if Req_EM_T (b*b - a*c) 0 then NotFinite           (* 1/0 is not equal to 0: no exception *)
  else let divisor := 1 / (b*b - a*c) in
    if Req_EM_T divisor 0 then Thrown
    else Center ((c*d - b*e) * divisor, (a*e - b*d) * divisor).

(** ConicEccentricity, Conic.h:438-450 *)
Definition conic_eccentricity (k : conic) : option R :=
  let a := ca k in let b := cb k * (1/2) in let c := cc k in
  let upper := sqrt ((a-c)^2 + b*b) in
  let ac := a + c in
  let den := if Rlt_dec (conic_det k) 0 then upper + ac else upper - ac in
  if Req_EM_T den 0 then None
  else if Rlt_dec ((2 * upper) / den) 0 then None
  else Some (sqrt ((2 * upper) / den)).

(** predicates: IsConicCircle 524-535, IsConicDegenerate 576-579, IsConicEllipse 602-606,
    IsConicHyperbola 629-633, IsConicParabola 672-677 *)
Definition disc (k : conic) : R := cb k * cb k - 4 * ca k * cc k.
Definition is_circle (err : R) (k : conic) : bool :=
  if Rlt_dec err (Rabs (cb k)) then false
  else if Rlt_dec err (Rabs (ca k - cc k)) then false
  else if Rlt_dec (disc k) 0 then true else false.
Definition is_degenerate (eps : R) (k : conic) : bool := if Rlt_dec (Rabs (conic_det k)) eps then true else false.
Definition is_ellipse (k : conic) : bool := if Rlt_dec (disc k) 0 then true else false.
Definition is_hyperbola (k : conic) : bool := if Rlt_dec 0 (disc k) then true else false.
Definition is_parabola (eps : R) (k : conic) : bool := if Rlt_dec (Rabs (disc k)) eps then true else false.

(** ScaleConicUnsafe, Conic.h:715-777 *)
Definition scale_conic (sA sB : R) (k : conic) : conic :=
  let A1 := 1 / sA in let A2 := A1 * A1 in let B1 := 1 / sB in let B2 := B1 * B1 in
  Con (ca k * A2) (cb k * A1 * B1) (cc k * B2) (cd k * A1) (ce k * B1) (cf k).
(** TranslateConic, Conic.h:802-841 *)
Definition translate_conic (t : point2) (k : conic) : conic :=
  let a := ca k in let b := cb k * (1/2) in let c := cc k in
  let d := cd k * (1/2) in let e := ce k * (1/2) in let f := cf k in
  let tx := fst t in let ty := snd t in
  let atx := a * tx in let btx := b * tx in let bty := b * ty in
  Con (ca k) (cb k) (cc k) ((d - atx - bty) * 2) ((e - btx - c*ty) * 2)
      (f - d*tx - e*ty + tx*(-d + atx + bty) + ty*(-e + btx + ty*c)).
(** ConicPixel, Conic.h:870-883 *)
Definition conic_pixel (k : conic) (p : point2) : R :=
  let x := fst p in let y := snd p in
  let a := ca k in let b := cb k * (1/2) in let c := cc k in
  let d := cd k * (1/2) in let e := ce k * (1/2) in let f := cf k in
  f + e*y + d*x + x*(d + a*x + b*y) + y*(e + b*x + c*y).
(** FlipConicHorizontal, Conic.h:915-944 *)
Definition flip_conic (height : R) (k : conic) : conic :=
  let m_y := height - 1 in
  let a := ca k in let b := cb k * (1/2) in let c := cc k in
  let d := cd k * (1/2) in let e := ce k * (1/2) in let f := cf k in
  Con a (- b * 2) c ((d + b * m_y) * 2) (- (e + c * m_y) * 2) (f + e*m_y + m_y*(e + c*m_y)).

(** ConicUpperLowerLimit, Conic.h:971-993 *)
Definition sorted2 (p q : R) : point2 := if Rlt_dec p q then (p, q) else (q, p).
Definition upper_lower (k : conic) : option point2 :=
  let a := ca k in let b := cb k * (1/2) in let c := cc k in
  let d := cd k * (1/2) in let e := ce k * (1/2) in let f := cf k in
  let lower := 4 * (b*b - a*c) in
  let upper1 := 8 * (b*d - a*e) in
  let temp := 4 * (d*d - a*f) in
  let arg := upper1 * upper1 - 4 * lower * temp in
  if Rlt_dec arg 0 then None else
  let upper2 := sqrt arg in
  let lower := lower * 2 in
  if Req_EM_T lower 0 then None else
  Some (sorted2 (- (upper1/lower + upper2/lower)) (- (upper1/lower - upper2/lower))).
(** ConicLeftRightLimit, Conic.h:1019-1032 *)
Definition left_right (k : conic) : option point2 :=
  let a := ca k in let b := cb k * (1/2) in let c := cc k in
  let d := cd k * (1/2) in let e := ce k * (1/2) in let f := cf k in
  if Req_EM_T c 0 then None else
  let arg := (a*(e*e)+c*(d*d)+(b*b)*f-a*c*f-b*d*e*2)/c in
  if Rlt_dec arg 0 then None else
  if Req_EM_T (a*c-b*b) 0 then None else
  Some (sorted2 ((b*e-c*d+c*sqrt arg)/(a*c-b*b)) (-(-b*e+c*d+c*sqrt arg)/(a*c-b*b))).
(** ConicHorizontalIntersection, Conic.h:1057-1065 *)
Definition horizontal_intersection (k : conic) (y : R) : option point2 :=
  let b := cb k * (1/2) * y + cd k * (1/2) in
  let c := (cc k * y + ce k) * y + cf k in
  if Rlt_dec (b * b - ca k * c) 0 then None else
  let d := sqrt (b * b - ca k * c) in
  if Req_EM_T (ca k) 0 then None else
  Some (sorted2 ((-b + d) / ca k) ((-b - d) / ca k)).

(** ** QuadricFunctors.h *)

(** Vector< T, 10 >: a b c f g h p q r d (QuadricFunctors.h:65-89, 119-130) *)
Record quadric := Quad { ka : R; kb : R; kc : R; kf : R; kg : R; kh : R; kp : R; kq : R; kr : R; kd : R }.
(** Vector< T, 6 >: semi-axes and centre *)
Record ellipsoid := Ell { la : R; lb : R; lc : R; lp : R; lq : R; lr : R }.

(** the line conic of ProjectQuadric, QuadricFunctors.h:119-150 *)
Definition quadric_line_conic (P : mat) (k : quadric) : conic :=
  let '(Quad a b c f g h p q r d) := k in
  let p11 := P 0%nat 0%nat in let p12 := P 0%nat 1%nat in let p13 := P 0%nat 2%nat in let p14 := P 0%nat 3%nat in
  let p21 := P 1%nat 0%nat in let p22 := P 1%nat 1%nat in let p23 := P 1%nat 2%nat in let p24 := P 1%nat 3%nat in
  let p31 := P 2%nat 0%nat in let p32 := P 2%nat 1%nat in let p33 := P 2%nat 2%nat in let p34 := P 2%nat 3%nat in
  Con
  (p11*(p11*a+f*p12+g*p13+p*p14)+p12*(f*p11+p12*b+h*p13+q*p14)+p13*(g*p11+h*p12+p13*c+r*p14)+p14*(p11*p+p12*q+p13*r+d*p14))
  (2*(p11*(p21*a+f*p22+g*p23+p*p24)+p12*(f*p21+p22*b+h*p23+q*p24)+p13*(g*p21+h*p22+p23*c+r*p24)+p14*(p21*p+p22*q+p23*r+d*p24)))
  (p21*(p21*a+f*p22+g*p23+p*p24)+p22*(f*p21+p22*b+h*p23+q*p24)+p23*(g*p21+h*p22+p23*c+r*p24)+p24*(p21*p+p22*q+p23*r+d*p24))
  (2*(p11*(p31*a+f*p32+g*p33+p*p34)+p12*(f*p31+p32*b+h*p33+q*p34)+p13*(g*p31+h*p32+p33*c+r*p34)+p14*(p31*p+p32*q+p33*r+d*p34)))
  (2*(p21*(p31*a+f*p32+g*p33+p*p34)+p22*(f*p31+p32*b+h*p33+q*p34)+p23*(g*p31+h*p32+p33*c+r*p34)+p24*(p31*p+p32*q+p33*r+d*p34)))
  (p31*(p31*a+f*p32+g*p33+p*p34)+p32*(f*p31+p32*b+h*p33+q*p34)+p33*(g*p31+h*p32+p33*c+r*p34)+p34*(p31*p+p32*q+p33*r+d*p34)).
(** ProjectQuadric, QuadricFunctors.h:117-173 *)
Definition project_quadric (P : mat) (k : quadric) : option conic := conic_inverse (quadric_line_conic P k).
(** Ellipsoid2Quadric, QuadricFunctors.h:197-234 *)
Definition ellipsoid_quadric (l : ellipsoid) : quadric :=
  let '(Ell a b c p q r) := l in
  let d := 1 in
  Quad (a*a - p*p) (b*b - q*q) (c*c - r*r) (-(p*q)) (-(p*r)) (-(q*r)) (-(d*p)) (-(d*q)) (-(d*r)) (-(d*d)).
(** the line conic of ProjectEllipsoid, QuadricFunctors.h:261-289 *)
Definition ellipsoid_line_conic (P : mat) (l : ellipsoid) : conic :=
  let '(Ell a b c p q r) := l in
  let p11 := P 0%nat 0%nat in let p12 := P 0%nat 1%nat in let p13 := P 0%nat 2%nat in let p14 := P 0%nat 3%nat in
  let p21 := P 1%nat 0%nat in let p22 := P 1%nat 1%nat in let p23 := P 1%nat 2%nat in let p24 := P 1%nat 3%nat in
  let p31 := P 2%nat 0%nat in let p32 := P 2%nat 1%nat in let p33 := P 2%nat 2%nat in let p34 := P 2%nat 3%nat in
  Con
  (p11*p11*a*a+p12*p12*b*b+p13*p13*c*c+(-p11*p-p12*q-p13*r-p14)*(p11*p+p12*q+p13*r+p14))
  (2*(p11*a*a*p21+p12*b*b*p22+p13*c*c*p23+(-p11*p-p12*q-p13*r-p14)*(p21*p+p22*q+p23*r+p24)))
  (p21*p21*a*a+p22*p22*b*b+p23*p23*c*c+(-p21*p-p22*q-p23*r-p24)*(p21*p+p22*q+p23*r+p24))
  (2*(p11*a*a*p31+p12*b*b*p32+p13*c*c*p33+(-p11*p-p12*q-p13*r-p14)*(p31*p+p32*q+p33*r+p34)))
  (2*(p21*a*a*p31+p22*b*b*p32+p23*c*c*p33+(-p21*p-p22*q-p23*r-p24)*(p31*p+p32*q+p33*r+p34)))
  (p31*p31*a*a+p32*p32*b*b+p33*p33*c*c+(-p31*p-p32*q-p33*r-p34)*(p31*p+p32*q+p33*r+p34)).
(** ProjectEllipsoid, QuadricFunctors.h:259-314 *)
Definition project_ellipsoid (P : mat) (l : ellipsoid) : option conic := conic_inverse (ellipsoid_line_conic P l).
(** ProjectSpheroid, QuadricFunctors.h:348-358: (radius, height, x, y) *)
Definition spheroid_ellipsoid (s0 s1 s2 s3 : R) : ellipsoid := Ell s0 s0 s1 s2 s3 s1.
Definition project_spheroid (P : mat) (s0 s1 s2 s3 : R) : option conic :=
  project_ellipsoid P (spheroid_ellipsoid s0 s1 s2 s3).

(** ** ConicCovariance.h *)

(** parameter vector of a point, ConicCovariance.h:108-114 *)
Definition design (x y : R) : vect := vlist [ x*x; 2*x*y; y*y; 2*x; 2*y; 1 ].
(** the weight of a point, ConicCovariance.h:118-119 *)
Definition cov_weight (stdDev : R) (k : conic) (x y : R) : R :=
  let '(Con a b c d e f) := k in
  let x2 := x*x in let y2 := y*y in
  let t4 := b*stdDev*x*y*4 in
  b*(b*stdDev*(y2*4+x2*4)+d*stdDev*y*4+e*stdDev*x*4+a*stdDev*x*y*4+c*stdDev*x*y*4)
  + d*(d*stdDev*4+a*stdDev*x*4+b*stdDev*y*4) + e*(e*stdDev*4+b*stdDev*x*4+c*stdDev*y*4)
  + a*(t4+a*stdDev*x2*4+d*stdDev*x*4) + c*(t4+c*stdDev*y2*4+e*stdDev*y*4).
(** normalisation 84-90 and the loop 96-123; [None]: a weight (or the length of the conic) is zero *)
Definition conic_len (k : conic) : R :=
  norm2 6 (vlist [ca k; cb k; cc k; cd k; ce k; cf k]).
Definition unit_conic (k : conic) : conic :=
  let n2 := conic_len k in Con (ca k / n2) (cb k / n2) (cc k / n2) (cd k / n2) (ce k / n2) (cf k / n2).
Fixpoint inv_cov (stdDev : R) (k : conic) (pts : list point2) (acc : mat) : option mat :=
  match pts with
  | [] => Some acc
  | (x, y) :: l =>
    let t := design x y in
    let t0 := cov_weight stdDev k x y in
    if Req_EM_T t0 0 then None
    else inv_cov stdDev k l (madd acc (fun i j => t i * t j / t0))
  end.
Definition conic_inv_cov (k : conic) (pts : list point2) : option mat :=
  if Req_EM_T (conic_len k) 0 then None else inv_cov (1/10000) (unit_conic k) pts mzero.

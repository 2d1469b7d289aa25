(** Model of the boost-archive serialisation of the data types:
    Vector.h 211-219, Matrix.h 250-259, Scalar.h 87-89, Quaternion.h 273-281,
    Pose.h 196-201, ErrorPose.h 131-136, ErrorVector.h 91-96,
    CameraIntrinsics.h 78-300 and Measurement.h 243-251.

    A boost archive is a sequence of primitive items: saving with [ar & x]
    appends [x], loading takes the next item (the library's contract).  A
    double is an element of an arbitrary type [D].  Loading assigns into an
    existing object, which the load functions take as an argument. *)
Require Import List ZArith Bool Lia PeanoNat.
From Verif Require Import Msgpack.
Import ListNotations.

Section Archive.
Variable D : Type.

Inductive item := AD (d : D) | AN (z : Z).

(** Outcome of loading: a value and the remaining items, the archive's
    exception (wrong or missing item), or undefined behaviour. *)
Inductive out (A : Type) := Got (a : A) (rest : list item) | Failed | Undef.
Arguments Got {A}. Arguments Failed {A}. Arguments Undef {A}.

Definition obind {A B} (m : out A) (k : A -> list item -> out B) : out B :=
  match m with Got a r => k a r | Failed => Failed | Undef => Undef end.

Definition load_d (ts : list item) : out D :=
  match ts with AD d :: r => Got d r | _ => Failed end.
Definition load_n (ts : list item) : out Z :=
  match ts with AN z :: r => Got z r | _ => Failed end.

(** Element-wise loops: [for i: ar & v(i)]. *)
Definition save_list (v : list D) : list item := map AD v.

Fixpoint load_into (i n : nat) (v : list D) (ts : list item) : out (list D) :=
  match n with
  | O => Got v ts
  | S n' => obind (load_d ts) (fun d r =>
            match set_nth i d v with
            | Some v' => load_into (S i) n' v' r
            | None => Undef
            end)
  end.

(** Vector< T, N >::serialize, Vector.h 215-219. *)
Definition save_vec (v : list D) : list item := save_list v.
Definition load_vec (N : nat) (v : list D) (ts : list item) : out (list D) := load_into 0 N v ts.

(** Matrix< T, M, N >::serialize, Matrix.h 254-259: row by row. *)
Definition save_mat (M N : nat) (A : fmat D) : list item :=
  map (fun c => AD (A (fst c) (snd c))) (cells M N).
Fixpoint load_cells (cs : list (nat * nat)) (A : fmat D) (ts : list item) : out (fmat D) :=
  match cs with
  | [] => Got A ts
  | (i, j) :: r => obind (load_d ts) (fun d ts' => load_cells r (upd D A i j d) ts')
  end.
Definition load_mat (M N : nat) (A : fmat D) (ts : list item) : out (fmat D) :=
  load_cells (cells M N) A ts.

(** Quaternion::serialize, Quaternion.h 275-281: x, y, z, then w. *)
Definition save_quat (q : quat D) : list item :=
  [AD (qx D q); AD (qy D q); AD (qz D q); AD (qw D q)].
Definition load_quat (ts : list item) : out (quat D) :=
  obind (load_d ts) (fun b r => obind (load_d r) (fun c r =>
  obind (load_d r) (fun d r => obind (load_d r) (fun a r => Got (Q D b c d a) r)))).

(** Pose::serialize, Pose.h 197-201. *)
Definition save_pose (p : pose D) : list item := save_quat (rot D p) ++ save_vec (tra D p).
Definition load_pose (p : pose D) (ts : list item) : out (pose D) :=
  obind (load_quat ts) (fun q r => obind (load_vec 3 (tra D p) r) (fun t r => Got (P D q t) r)).

(** ErrorPose::serialize, ErrorPose.h 131-136. *)
Definition save_epose (p : epose D) : list item :=
  save_pose (P D (erot D p) (etra D p)) ++ save_mat 6 6 (ecov D p).
Definition load_epose (p : epose D) (ts : list item) : out (epose D) :=
  obind (load_pose (P D (erot D p) (etra D p)) ts) (fun b r =>
  obind (load_mat 6 6 (ecov D p) r) (fun c r => Got (EP D (rot D b) (tra D b) c) r)).

(** ErrorVector::serialize, ErrorVector.h 91-96. *)
Definition save_evec (N : nat) (v : evec D) : list item :=
  save_vec (value D v) ++ save_mat N N (cov D v).
Definition load_evec (N : nat) (v : evec D) (ts : list item) : out (evec D) :=
  obind (load_vec N (value D v) ts) (fun x r =>
  obind (load_mat N N (cov D v) r) (fun c r => Got (EV D x c) r)).

(** Measurement::serialize, Measurement.h 246-251: the payload is dereferenced
    without a null check, in both directions. *)
Definition save_meas {A} (saveA : A -> list item) (m : measurement A) : option (list item) :=
  match payload m with
  | Some a => Some (AN (time m) :: saveA a)
  | None => None
  end.
Definition load_meas {A} (loadA : A -> list item -> out A) (m : measurement A) (ts : list item)
  : out (measurement A) :=
  obind (load_n ts) (fun t r =>
  match payload m with
  | Some a => obind (loadA a r) (fun a' r' => Got (Meas t (Some a')) r')
  | None => Undef
  end).

(** *** Camera intrinsics, CameraIntrinsics.h *)

Definition UNKNOWN : Z := 0.
Definition OPENCV_2_2 : Z := 1.
Definition OPENCV_3_2 : Z := 2.
Definition OPENCV_6_2 : Z := 3.
Definition OPENCV_4_0_FISHEYE : Z := 4.

(** The constructors; [zero] and [one] are the numbers 0 and 1.  Standard
    constructor, 129-136. *)
Section Constructors.
Variables zero one : D.
Definition identity : fmat D := fun i j => if (i =? j)%nat then one else zero.
Definition cam_default : camera D :=
  Cam D UNKNOWN [0; 0]%Z identity 0 (repeat zero 6) (repeat zero 2).
(** Two radial coefficients, 139-149. *)
Definition cam2 (K : fmat D) (r0 r1 t0 t1 : D) (w h : Z) : camera D :=
  Cam D OPENCV_2_2 [w; h] K 2 [r0; r1; zero; zero; zero; zero] [t0; t1].
(** Three radial coefficients, 152-164. *)
Definition cam3 (K : fmat D) (r0 r1 r2 t0 t1 : D) (w h : Z) : camera D :=
  Cam D OPENCV_3_2 [w; h] K 2 [r0; r1; r2; zero; zero; zero] [t0; t1].
(** Six radial coefficients, 167-176. *)
Definition cam6 (K : fmat D) (r0 r1 r2 r3 r4 r5 t0 t1 : D) (w h : Z) : camera D :=
  Cam D OPENCV_6_2 [w; h] K 6 [r0; r1; r2; r3; r4; r5] [t0; t1].
(** Fish-eye, 179-190: the last two coefficients are never initialised; [u0]
    and [u1] stand for whatever they contain. *)
Definition cam_fisheye (K : fmat D) (r0 r1 r2 r3 : D) (w h : Z) (u0 u1 : D) : camera D :=
  Cam D OPENCV_4_0_FISHEYE [w; h] K 4 [r0; r1; r2; r3; u0; u1] [zero; zero].
End Constructors.

(** reset, 217-234. *)
Definition calib_of (n old : Z) : Z :=
  if (n =? 2)%Z then OPENCV_2_2
  else if (n =? 3)%Z then OPENCV_3_2
  else if (n =? 4)%Z then OPENCV_4_0_FISHEYE
  else if (n =? 6)%Z then OPENCV_6_2
  else old.
Definition reset (c : camera D) : camera D :=
  Cam D (calib_of (rsize D c) (calib D c)) (dim D c) (kmat D c) (rsize D c) (rad D c) (tan D c).

(** The general constructor, 193-204: the argument [size] is not used. *)
Definition cam_general (size : Z * Z) (K : fmat D) (n : Z) (radial tangential : list D) (w h : Z)
  : camera D := reset (Cam D UNKNOWN [w; h] K n radial tangential).

(** serialize, 281-300, when saving: the items, and the object afterwards
    ([reset] also runs when saving).  [None] when a coefficient outside the
    array is accessed. *)
Definition save_camera (c : camera D) : option (list item) * camera D :=
  (if (Z.to_nat (rsize D c) <=? length (rad D c))%nat
   then Some (map (fun k => AD (kmat D c (k / 3)%nat (k mod 3)%nat)) (seq 0 9) ++
              map AN (dim D c) ++ AN (rsize D c) ::
              map AD (firstn (Z.to_nat (rsize D c)) (rad D c)) ++ AN 2 :: map AD (tan D c))
   else None,
   reset c).

Fixpoint load_k (k n : nat) (A : fmat D) (ts : list item) : out (fmat D) :=
  match n with
  | O => Got A ts
  | S n' => obind (load_d ts) (fun d r => load_k (S k) n' (upd D A (k / 3) (k mod 3) d) r)
  end.

(** ... and when loading into [c]. *)
Definition load_camera (c : camera D) (ts : list item) : out (camera D) :=
  obind (load_k 0 9 (kmat D c) ts) (fun K r =>
  obind (load_n r) (fun w r =>
  obind (load_n r) (fun h r =>
  obind (load_n r) (fun n r =>
  obind (load_into 0 (Z.to_nat n) (rad D c) r) (fun radial r =>
  obind (load_n r) (fun _ r =>
  obind (load_vec 2 (tan D c) r) (fun t r =>
  Got (reset (Cam D (calib D c) [w; h] K n radial t)) r))))))).

End Archive.
Arguments AD {D}. Arguments AN {D}.
Arguments Got {D A}. Arguments Failed {D A}. Arguments Undef {D A}.

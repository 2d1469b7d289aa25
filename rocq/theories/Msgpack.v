(** Model of the msgpack adaptors, src/utSerialization/MsgpackSerializer.h.

    The third-party library is modelled by its documented wire behaviour:
    packing emits a sequence of tokens ([pack_array] announces the number of
    elements that follow), and the unpacker builds the object tree back.  The
    byte encoding of single tokens is the library's business.  A double is an
    element of an arbitrary type [D]. *)
Require Import List ZArith Bool Lia.
Import ListNotations.
Open Scope Z_scope.

Definition two32 : Z := 4294967296.
Definition two64 : Z := 18446744073709551616.
Definition u32 (z : Z) : Z := z mod two32.

Section Msg.
Variable D : Type.

Inductive tok := TNil | TInt (z : Z) | TReal (d : D) | TArr (n : Z).
Inductive obj := ONil | OInt (z : Z) | OReal (d : D) | OArr (l : list obj).

(** Outcome of a conversion: a value, [msgpack::type_error], or an access
    outside an array. *)
Inductive res (A : Type) := Val (a : A) | TypeError | Outside.
Arguments Val {A}. Arguments TypeError {A}. Arguments Outside {A}.

Definition bind {A B} (m : res A) (k : A -> res B) : res B :=
  match m with Val a => k a | TypeError => TypeError | Outside => Outside end.

(** *** The library *)

Fixpoint parse_n (p : list tok -> option (obj * list tok)) (n : nat) (ts : list tok)
  : option (list obj * list tok) :=
  match n with
  | O => Some ([], ts)
  | S n' => match p ts with
            | Some (o, ts') =>
                match parse_n p n' ts' with
                | Some (l, ts'') => Some (o :: l, ts'')
                | None => None
                end
            | None => None
            end
  end.

Fixpoint parse (fuel : nat) (ts : list tok) : option (obj * list tok) :=
  match fuel with
  | O => None
  | S f =>
      match ts with
      | [] => None
      | TNil :: r => Some (ONil, r)
      | TInt z :: r => Some (OInt z, r)
      | TReal d :: r => Some (OReal d, r)
      | TArr n :: r => match parse_n (parse f) (Z.to_nat n) r with
                       | Some (l, r') => Some (OArr l, r')
                       | None => None
                       end
      end
  end.

(** unpacker.next, called at 73. *)
Definition next (ts : list tok) : option (obj * list tok) := parse (length ts) ts.

Definition convert_real (o : obj) : res D :=
  match o with OReal d => Val d | _ => TypeError end.

Definition convert_nat (o : obj) : res Z :=
  match o with OInt z => if 0 <=? z then Val z else TypeError | _ => TypeError end.

(** *** Measurements, 147-182 *)

Record measurement (A : Type) := Meas { time : Z; payload : option A }.
Arguments Meas {A}. Arguments time {A}. Arguments payload {A}.

(** pack, 168-182. *)
Definition pack_meas {A} (packA : A -> list tok) (m : measurement A) : list tok :=
  match payload m with
  | Some a => TArr 2 :: TInt (time m) :: packA a
  | None => [TNil]
  end.

(** convert, 147-165. *)
Definition convert_meas {A} (convA : obj -> res A) (o : obj) : res (measurement A) :=
  match o with
  | ONil => Val (Meas 0 None)
  | OArr l =>
      if (length l =? 2)%nat
      then bind (convA (nth 1 l ONil)) (fun a =>
           bind (convert_nat (nth 0 l ONil)) (fun t => Val (Meas t (Some a))))
      else TypeError
  | _ => TypeError
  end.

(** *** Vectors *)

(** pack, 283-297; [N] is the template argument, zero for a dynamic size. *)
Definition pack_vec (N : nat) (v : list D) : list tok :=
  let n := if (N =? 0)%nat then length v else N in
  TArr (u32 (Z.of_nat n)) :: map TReal (firstn n v).

(** Assignment [v(i) = d]. *)
Fixpoint set_nth {A} (i : nat) (d : A) (v : list A) : option (list A) :=
  match v, i with
  | [], _ => None
  | _ :: r, O => Some (d :: r)
  | x :: r, S i' => match set_nth i' d r with Some r' => Some (x :: r') | None => None end
  end.

Section Elements.
Context {A : Type} (conv : obj -> res A).

Fixpoint fill (i : nat) (l : list obj) (v : list A) : res (list A) :=
  match l with
  | [] => Val v
  | o :: r => bind (conv o) (fun d =>
              match set_nth i d v with Some v' => fill (S i) r v' | None => Outside end)
  end.

(** convert, 266-280, into the existing vector [v]. *)
Definition convert_vec (N : nat) (v : list A) (o : obj) : res (list A) :=
  match o with
  | OArr l => if (0 <? N)%nat && negb (length l =? N)%nat then TypeError else fill 0 l v
  | _ => TypeError
  end.

End Elements.

(** object_with_zone, 300-315: the array has [n] slots, but every assignment
    goes to slot 0.  [None] is an uninitialised slot. *)
Definition zone_vec (N : nat) (v : list D) : list (option obj) :=
  let n := if (N =? 0)%nat then length v else N in
  fold_left (fun slots d => match slots with [] => [] | _ :: r => Some (OReal d) :: r end)
            (firstn n v) (repeat None n).

(** *** Matrices *)

Definition fmat := nat -> nat -> D.

(** The loop order of 354-359, 380-385. *)
Definition cells (M N : nat) : list (nat * nat) := list_prod (seq 0 M) (seq 0 N).

(** pack, 370-388. *)
Definition pack_mat (M N : nat) (A : fmat) : res (list tok) :=
  if (M * N =? 0)%nat then TypeError
  else Val (TArr (u32 (Z.of_nat (M * N))) :: map (fun c => TReal (A (fst c) (snd c))) (cells M N)).

Definition upd (A : fmat) (i j : nat) (d : D) : fmat :=
  fun i' j' => if (i' =? i)%nat && (j' =? j)%nat then d else A i' j'.

Fixpoint fill_cells (M : nat) (l : list obj) (cs : list (nat * nat)) (A : fmat) : res fmat :=
  match cs with
  | [] => Val A
  | (i, j) :: r =>
      match nth_error l (i * M + j) with
      | None => Outside
      | Some o => bind (convert_real o) (fun d => fill_cells M l r (upd A i j d))
      end
  end.

(** convert, 347-367: the element of row [i] and column [j] is looked up at
    [i*M + j]. *)
Definition convert_mat (M N : nat) (A : fmat) (o : obj) : res fmat :=
  match o with
  | OArr l =>
      if (0 <? M)%nat && (0 <? N)%nat
      then if (length l =? M * N)%nat then fill_cells M l (cells M N) A else TypeError
      else TypeError
  | _ => TypeError
  end.

(** *** Rotations and poses *)

Record quat := Q { qx : D; qy : D; qz : D; qw : D }.
Record pose := P { rot : quat; tra : list D }.

Definition vec4 (q : quat) : list D := [qx q; qy q; qz q; qw q].

(** pack 441-450, convert 429-438; Quaternion::toVector and fromVector. *)
Definition pack_quat (q : quat) : list tok := pack_vec 4 (vec4 q).
Definition quat_of (v : list D) : res quat :=
  match v with [x; y; z; w] => Val (Q x y z w) | _ => Outside end.
(** [junk] is the content of the local vector before it is filled. *)
Definition convert_quat (junk : list D) (o : obj) : res quat :=
  bind (convert_vec convert_real 4 junk o) quat_of.

(** pack 556-565, convert 539-553. *)
Definition pack_pose (p : pose) : list tok :=
  TArr 2 :: pack_quat (rot p) ++ pack_vec 3 (tra p).
Definition convert_pose (j4 j3 : list D) (o : obj) : res pose :=
  match o with
  | OArr l =>
      if (length l =? 2)%nat
      then bind (convert_quat j4 (nth 0 l ONil)) (fun q =>
           bind (convert_vec convert_real 3 j3 (nth 1 l ONil)) (fun t => Val (P q t)))
      else TypeError
  | _ => TypeError
  end.

(** Uncertain poses, pack 664-675, convert 642-661. *)
Record epose := EP { erot : quat; etra : list D; ecov : fmat }.
Definition pack_epose (p : epose) : res (list tok) :=
  bind (pack_mat 6 6 (ecov p)) (fun c =>
  Val (TArr 3 :: pack_quat (erot p) ++ pack_vec 3 (etra p) ++ c)).
Definition convert_epose (j4 j3 : list D) (j66 : fmat) (o : obj) : res epose :=
  match o with
  | OArr l =>
      if (length l =? 3)%nat
      then bind (convert_quat j4 (nth 0 l ONil)) (fun q =>
           bind (convert_vec convert_real 3 j3 (nth 1 l ONil)) (fun t =>
           bind (convert_mat 6 6 j66 (nth 2 l ONil)) (fun c => Val (EP q t c))))
      else TypeError
  | _ => TypeError
  end.

(** Vectors with covariance, pack 605-615, convert 586-602. *)
Record evec := EV { value : list D; cov : fmat }.
Definition pack_evec (N : nat) (v : evec) : res (list tok) :=
  bind (pack_mat N N (cov v)) (fun c => Val (TArr 2 :: pack_vec N (value v) ++ c)).
Definition convert_evec (N : nat) (j : list D) (jm : fmat) (o : obj) : res evec :=
  match o with
  | OArr l =>
      if (length l =? 2)%nat
      then bind (convert_vec convert_real N j (nth 0 l ONil)) (fun x =>
           bind (convert_mat N N jm (nth 1 l ONil)) (fun c => Val (EV x c)))
      else TypeError
  | _ => TypeError
  end.

(** Camera intrinsics, pack 751-764, convert 727-748: the six fields of
    CameraIntrinsics.h 93-126 in order. *)
Record camera := Cam {
  calib : Z; dim : list Z; kmat : fmat; rsize : Z; rad : list D; tan : list D }.

Definition pack_nats (v : list Z) : list tok :=
  TArr (u32 (Z.of_nat (length v))) :: map TInt v.
Definition pack_camera (c : camera) : res (list tok) :=
  bind (pack_mat 3 3 (kmat c)) (fun k =>
  Val (TArr 6 :: TInt (calib c) :: pack_nats (dim c) ++ k ++
       TInt (rsize c) :: pack_vec 6 (rad c) ++ pack_vec 2 (tan c))).
(** [c0] is the object being overwritten. *)
Definition convert_camera (c0 : camera) (o : obj) : res camera :=
  match o with
  | OArr l =>
      if (length l =? 6)%nat
      then bind (convert_nat (nth 0 l ONil)) (fun k =>
           bind (convert_vec convert_nat 2 (dim c0) (nth 1 l ONil)) (fun d =>
           bind (convert_mat 3 3 (kmat c0) (nth 2 l ONil)) (fun m =>
           bind (convert_nat (nth 3 l ONil)) (fun n =>
           bind (convert_vec convert_real 6 (rad c0) (nth 4 l ONil)) (fun r =>
           bind (convert_vec convert_real 2 (tan c0) (nth 5 l ONil)) (fun t =>
           Val (Cam k d m n r t)))))))
      else TypeError
  | _ => TypeError
  end.

(** MsgpackSerializationFormat::read, 71-80: unpack one object and convert it;
    when the stream is exhausted the destination keeps its old value. *)
Definition read {A} (conv : obj -> res A) (old : A) (ts : list tok) : res A * list tok :=
  match next ts with
  | Some (o, r) => (conv o, r)
  | None => (Val old, ts)
  end.

End Msg.
Arguments TNil {D}. Arguments TInt {D}. Arguments TReal {D}. Arguments TArr {D}.
Arguments ONil {D}. Arguments OInt {D}. Arguments OReal {D}. Arguments OArr {D}.
Arguments Val {A}. Arguments TypeError {A}. Arguments Outside {A}.
Arguments Meas {A}. Arguments time {A}. Arguments payload {A}.

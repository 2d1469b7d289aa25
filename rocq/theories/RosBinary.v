(** Model of the length-checked binary serialiser,
    src/utSerialization/ROSBinarySerialization.h (122-674) and
    ROSBinarySerialization.cpp (the overrun exception).

    The code is a header template library guarded by [ENABLE_ROSBINARY]; it is
    modelled as written, with these simplifications:
    - a scalar is its object representation: an unsigned number of [w] bytes
      stored with the least significant byte first (122-150 stores through a
      reinterpreted pointer, so the byte order is the machine's);
    - the overloads for vectors and arrays call [serializedLength] (364-367,
      500-503), which no class defines; the member that exists,
      [maxSerializedLength], is what is modelled;
    - allocation never fails.

    Addresses are numbers modulo [2^W].  Touching a byte outside the buffer is
    the outcome [Bad]; the C++ exception is the outcome [Overrun]. *)
Require Import List ZArith Bool Lia.
Import ListNotations.
Open Scope Z_scope.

(** The type universe reachable through the serialisers: the scalars of
    142-150, [bool] 155-176, [std::string] 181-213, [std::vector] 218-352 and
    [boost::array] 384-494. *)
Inductive ty := Num (w : nat) | Bool | Str | Vec (t : ty) | Arr (n : nat) (t : ty).

Inductive val := VN (z : Z) | VB (b : bool) | VS (s : list Z) | VL (l : list val).

Definition two32 : Z := 4294967296.

(** Conversion to [uint32_t]. *)
Definition u32 (z : Z) : Z := z mod two32.

(** Object representation of a [w]-byte number. *)
Fixpoint le (w : nat) (z : Z) : list Z :=
  match w with O => [] | S w' => z mod 256 :: le w' (z / 256) end.

Fixpoint unle (l : list Z) : Z :=
  match l with [] => 0 | b :: r => b + 256 * unle r end.

Definition len {A} (l : list A) : Z := Z.of_nat (length l).

(** [Stream], 539-575: start address, the bytes, and the cursor [data_] as an
    offset from the start. *)
Record stream := Stm { base : Z; buf : list Z; pos : Z }.

Inductive res (A : Type) := Ok (a : A) | Overrun | Bad.
Arguments Ok {A}. Arguments Overrun {A}. Arguments Bad {A}.

Definition M (A : Type) := stream -> res A * stream.
Definition ret {A} (a : A) : M A := fun s => (Ok a, s).
Definition bind {A B} (m : M A) (k : A -> M B) : M B := fun s =>
  match m s with
  | (Ok a, s') => k a s'
  | (Overrun, s') => (Overrun, s')
  | (Bad, s') => (Bad, s')
  end.
Notation "x <- m ;; k" := (bind m (fun x => k)) (at level 60, m at next level, right associativity).

Section Width.
(** [W] is the number of bits of a pointer. *)
Variable W : Z.

(** Stream::advance, 549-562: the cursor moves first, then it is compared with
    the end. *)
Definition advance (n : Z) : M Z := fun s =>
  let d := (base s + pos s + n) mod 2 ^ W in
  let s' := Stm (base s) (buf s) (d - base s) in
  if base s + len (buf s) <? d then (Overrun, s') else (Ok (pos s), s').

(** Stream::getLength, 567. *)
Definition get_length (s : stream) : Z := u32 (len (buf s) - pos s).

(** Reading and writing [n] bytes through a pointer into the buffer. *)
Definition load (p n : Z) : M (list Z) := fun s =>
  if (0 <=? p) && (p + n <=? len (buf s))
  then (Ok (firstn (Z.to_nat n) (skipn (Z.to_nat p) (buf s))), s)
  else (Bad, s).

Definition store (p : Z) (bs : list Z) : M unit := fun s =>
  if (0 <=? p) && (p + len bs <=? len (buf s))
  then (Ok tt, Stm (base s)
                   (firstn (Z.to_nat p) (buf s) ++ bs ++
                    skipn (Z.to_nat p + length bs) (buf s)) (pos s))
  else (Bad, s).

(** ROSBINARY_CREATE_SIMPLE_SERIALIZER, 122-140. *)
Definition write_num (w : nat) (z : Z) : M unit :=
  p <- advance (Z.of_nat w) ;; store p (le w z).

Definition read_num (w : nat) : M Z :=
  p <- advance (Z.of_nat w) ;; bs <- load p (Z.of_nat w) ;; ret (unle bs).

Fixpoint iter {A} (f : A -> M unit) (l : list A) : M unit :=
  match l with [] => ret tt | a :: r => _ <- f a ;; iter f r end.

Fixpoint times (n : nat) (f : M val) : M (list val) :=
  match n with
  | O => ret []
  | S n' => a <- f ;; r <- times n' f ;; ret (a :: r)
  end.

(** mt::IsSimple, SerializationTraits.h: the numeric types; [bool] is not. *)
Definition simple (t : ty) : option nat := match t with Num w => Some w | _ => None end.

(** Memory image of a contiguous container of numbers. *)
Definition num_of (v : val) : Z := match v with VN z => z | _ => 0 end.
Definition image (w : nat) (l : list val) : list Z :=
  concat (map (fun v => le w (num_of v)) l).

Fixpoint chunks (w n : nat) (bs : list Z) : list val :=
  match n with
  | O => []
  | S n' => VN (unle (firstn w bs)) :: chunks w n' (skipn w bs)
  end.

(** The vector serialiser for simple types, write 262-271 and read 274-285:
    [memcpy] of [len * sizeof(T)] bytes, the product being 32 bits wide.  The
    freshly resized vector is zero where nothing was copied. *)
Definition write_bulk (w : nat) (l : list val) (data_len : Z) : M unit :=
  p <- advance data_len ;; store p (firstn (Z.to_nat data_len) (image w l)).

Definition read_bulk (w : nat) (n : nat) (data_len : Z) : M (list val) :=
  p <- advance data_len ;;
  bs <- load p data_len ;;
  ret (chunks w n (bs ++ repeat 0 (n * w - Z.to_nat data_len))).

(** Serialisation, one case per specialisation: 122-140, 155-165, 181-193,
    220-230 and 304-314 (the two element-wise vector specialisations agree),
    262-271, 386-394 and 456-464, 421-427. *)
Fixpoint write (t : ty) (v : val) {struct t} : M unit :=
  match t, v with
  | Num w, VN z => write_num w z
  | Bool, VB b => p <- advance 1 ;; store p [if b then 1 else 0]
  | Str, VS s =>
      _ <- write_num 4 (u32 (len s)) ;;
      if 0 <? len s then p <- advance (u32 (len s)) ;; store p s else ret tt
  | Vec t', VL l =>
      _ <- write_num 4 (u32 (len l)) ;;
      match simple t' with
      | Some w => if 0 <? len l
                  then write_bulk w l (u32 (u32 (len l) * Z.of_nat w))
                  else ret tt
      | None => iter (write t') l
      end
  | Arr n t', VL l =>
      match simple t' with
      | Some w => write_bulk w l (u32 (Z.of_nat n * Z.of_nat w))
      | None => iter (write t') l
      end
  | _, _ => fun s => (Bad, s)
  end.

(** Deserialisation: 130-133, 167-173, 196-206, 233-243 and 317-327, 274-285,
    397-405 and 467-475, 430-434. *)
Fixpoint read (t : ty) : M val :=
  match t with
  | Num w => z <- read_num w ;; ret (VN z)
  | Bool => p <- advance 1 ;; bs <- load p 1 ;; ret (VB (negb (nth 0 bs 0 =? 0)))
  | Str =>
      n <- read_num 4 ;;
      if 0 <? n then p <- advance n ;; bs <- load p n ;; ret (VS bs) else ret (VS [])
  | Vec t' =>
      n <- read_num 4 ;;
      match simple t' with
      | Some w => if 0 <? n
                  then l <- read_bulk w (Z.to_nat n) (u32 (Z.of_nat w * n)) ;; ret (VL l)
                  else ret (VL [])
      | None => l <- times (Z.to_nat n) (read t') ;; ret (VL l)
      end
  | Arr n t' =>
      match simple t' with
      | Some w => l <- read_bulk w n (u32 (Z.of_nat n * Z.of_nat w)) ;; ret (VL l)
      | None => l <- times n (read t') ;; ret (VL l)
      end
  end.

End Width.

(** maxSerializedLength: 135-138, 175-178, 208-211, 246-256, 287-290, 330-339,
    408-418, 437-440, 478-481.  All sums and products are 32 bits wide. *)
Fixpoint max_len (t : ty) (v : val) : Z :=
  match t, v with
  | Num w, _ => Z.of_nat w
  | Bool, _ => 1
  | Str, VS s => u32 (4 + u32 (len s))
  | Vec t', VL l =>
      match t' with
      | Num w => u32 (4 + len l * Z.of_nat w)
      | Bool => match l with [] => 4 | x :: _ => u32 (4 + u32 (max_len t' x * u32 (len l))) end
      | _ => fold_left (fun size x => u32 (size + max_len t' x)) l 4
      end
  | Arr n t', VL l =>
      match t' with
      | Num w => u32 (Z.of_nat n * Z.of_nat w)
      | Bool => match l with [] => 0 | x :: _ => u32 (max_len t' x * Z.of_nat n) end
      | _ => fold_left (fun size x => u32 (size + max_len t' x)) l 0
      end
  | _, _ => 0
  end.

(** ** Specification, independent of streams *)

(** [v] is a value of type [t], and every length fits its 32-bit field. *)
Fixpoint of_type (t : ty) (v : val) {struct t} : Prop :=
  match t, v with
  | Num w, VN z => (w <= 8)%nat /\ 0 <= z < 256 ^ Z.of_nat w
  | Bool, VB _ => True
  | Str, VS s => Forall (fun b => 0 <= b < 256) s /\ len s < two32
  | Vec t', VL l => len l < two32 /\ Forall (of_type t') l
  | Arr n t', VL l => length l = n /\ Forall (of_type t') l
  | _, _ => False
  end.

(** The wire format. *)
Fixpoint encode (t : ty) (v : val) {struct t} : list Z :=
  match t, v with
  | Num w, VN z => le w z
  | Bool, VB b => [if b then 1 else 0]
  | Str, VS s => le 4 (len s) ++ s
  | Vec t', VL l => le 4 (len l) ++ concat (map (encode t') l)
  | Arr _ t', VL l => concat (map (encode t') l)
  | _, _ => []
  end.

(** Scalars are at most eight bytes wide. *)
Fixpoint ty_ok (t : ty) : Prop :=
  match t with
  | Num w => (w <= 8)%nat
  | Vec t' => ty_ok t'
  | Arr n t' => (Z.of_nat n < two32) /\ ty_ok t'
  | _ => True
  end.

(** The cursor is inside the buffer. *)
Definition inside (s : stream) : Prop := 0 <= pos s <= len (buf s).

(** The buffer is an object in the address space of a machine with [W]-bit
    pointers. *)
Definition placed (W : Z) (s : stream) : Prop :=
  0 <= W /\ 0 <= base s /\ base s + len (buf s) < 2 ^ W.

(** ... and no 32-bit length added to a cursor inside it wraps around. *)
Definition roomy (W : Z) (s : stream) : Prop :=
  0 <= W /\ 0 <= base s /\ base s + len (buf s) + two32 <= 2 ^ W.

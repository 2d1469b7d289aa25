(** Calibration files, src/utUtil/CalibFile.h.  The boost archives are given by what they write and read (a header,
    checked when an input archive is created, and a codec for the data); files are byte strings. *)
From Coq Require Import List String Ascii Bool ZArith Arith.
Import ListNotations.

Definition bytes := list ascii.
(** the file system: contents, permissions and the number of bytes that still fit into one file *)
Record disk := Disk { content : string -> option bytes; may_read : string -> bool; may_write : string -> bool; room : nat }.
Inductive exn := Ubitrack | Foreign.
Inductive result := Done | Throws (e : exn).

(** text_oarchive / text_iarchive or the binary ones: [strip] is the constructor of the input archive, [None]: it throws *)
Record archive := Archive { header : bytes; strip : bytes -> option bytes }.
(** archive << data and archive >> data.  Reading gets the old value of the variable and returns the new one, and
    whether it came to the end without an exception *)
Record codec (A : Type) := Codec { enc : A -> bytes; dec : bytes -> A -> A * bool }.
Arguments Codec {A}. Arguments enc {A}. Arguments dec {A}.

Section calib.
Variable ar : archive.
(** does the archive notice, before its last value is written, that the stream has failed?  (Output is buffered: for short
    files the failure only happens in the destructor of the stream.)  Text, bytes that fit *)
Variable noticed : bytes -> nat -> bool.
Definition put (d : disk) (f : string) (s : bytes) : disk :=
  Disk (fun g => if String.eqb g f then Some s else content d g) (may_read d) (may_write d) (room d).

Section plain.
Context {A : Type}.
Variable c : codec A.
(** writeCalibFile 169-181, writeBinaryCalibFile 189-201: the file is emptied when it is opened; no try block *)
Definition write_calib (d : disk) (f : string) (a : A) : disk * result :=
  if may_write d f then
    let s := header ar ++ enc c a in
    if List.length s <=? room d then (put d f s, Done)
    else (put d f (firstn (room d) s), if noticed s (room d) then Throws Foreign else Done)
  else (d, Throws Ubitrack).
(** readCalibFile 59-74, readBinaryCalibFile 82-100: the archive is made inside the try block *)
Definition read_calib (d : disk) (f : string) (var : A) : A * result :=
  match (if may_read d f then content d f else None) with
  | None => (var, Throws Ubitrack)
  | Some s =>
    match strip ar s with
    | None => (var, Throws Ubitrack)
    | Some s => let (a, ok) := dec c s var in (a, if ok then Done else Throws Ubitrack)
    end
  end.
End plain.

(** ** Measurements: a time and a shared pointer *)
Section measurement.
Context {T : Type}.
Variable c : codec (Z * T).
Variable fresh : T.
(** the objects behind shared pointers; new T() is appended *)
Definition heap := list T.
Record measurement := M { time : Z; pointer : nat }.
(** readCalibFile for measurements 108-127: the variable is overwritten first, the archive is made outside of the try block *)
Definition read_measurement (d : disk) (f : string) (h : heap) : heap * measurement * result :=
  match (if may_read d f then content d f else None) with
  | None => (h ++ [fresh], M 0 (List.length h), Throws Ubitrack)
  | Some s =>
    match strip ar s with
    | None => (h ++ [fresh], M 0 (List.length h), Throws Foreign)
    | Some s => let '((t, v), ok) := dec c s (0%Z, fresh) in (h ++ [v], M t (List.length h), if ok then Done else Throws Ubitrack)
    end
  end.
(** readCalibFileDropMeasurement 138-161 *)
Definition read_drop (d : disk) (f : string) (var : T) : T * result :=
  match (if may_read d f then content d f else None) with
  | None => (var, Throws Ubitrack)
  | Some s =>
    match strip ar s with
    | None => (var, Throws Foreign)
    | Some s => let '((_, v), ok) := dec c s (0%Z, fresh) in if ok then (v, Done) else (var, Throws Ubitrack)
    end
  end.
(** writeCalibFile of a measurement: the object behind the pointer is written (Measurement.h:248-252); [None]: null pointer *)
Definition write_measurement (d : disk) (f : string) (h : heap) (m : measurement) : option (disk * result) :=
  option_map (fun v => write_calib c d f (time m, v)) (nth_error h (pointer m)).
End measurement.
End calib.

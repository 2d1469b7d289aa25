(** Exceptions of the library: utUtil/Exception.h, utUtil/Exception.cpp, utSerialization/Exception.h,
    utSerialization/ROSBinarySerialization.cpp:43-46. *)
From Coq Require Import NArith List Ascii String Bool.
From Verif Require Import SimpleString.
Import ListNotations.
Local Notation text := (list ascii).
Definition str (s : string) : text := list_ascii_of_string s.

(** what std::runtime_error stores and the members m_nLine and m_sFile, Exception.h:73-75 *)
Record exc := Exc { message : text; line : N; file : text }.

(** the constructor, Exception.cpp:42-48.  [debug]: the logger's category is enabled for debug messages; the argument of
    LOG4CPP_DEBUG is evaluated only then.  Streaming a null pointer is undefined behaviour: [None] *)
Definition make (debug : bool) (m : text) (l : N) (f : option text) : option exc :=
  match f with
  | Some f => Some (Exc m l f)
  | None => if debug then None else Some (Exc m l [])
  end.
(** UBITRACK_THROW, Exception.h:88: line and file of the place it is written at *)
Definition ubitrack_throw (debug : bool) (m : text) (l : N) (f : text) : option exc := make debug m l (Some f).
(** throwStreamOverrun, ROSBinarySerialization.cpp:43-46, through StreamOverrunException, utSerialization/Exception.h:48-51:
    only the message is passed, line and file are the default arguments of Exception.h:58 *)
Definition throw_overrun (debug : bool) : option exc := make debug (str "Buffer Overrun") 0 None.

(** printing a C string stops at the first NUL *)
Fixpoint c_string (s : text) : text :=
  match s with [] => [] | c :: s => if Ascii.eqb c zero then [] else c :: c_string s end.
(** operator<<, Exception.cpp:57-63: what() is a C string, file() a std::string *)
Definition print (e : exc) : text :=
  str "Exception """ ++ c_string (message e) ++ str """ from " ++ file e ++ str ":" ++ show_N (line e).

(** Model of the Unix serial port, src/utUtil/SerialPort.cpp 246-383 and
    SerialPort.h 62-114.

    The operating system is a table of open descriptors with the owner of each
    (this port object, or some other part of the process).  The results of the
    system calls are part of the operation, so a history is a list of
    operations with arbitrary results.  Terminal settings and data contents
    are not modelled. *)
Require Import List ZArith Bool Lia.
Import ListNotations.
Open Scope Z_scope.

Inductive owner := Port | Other.

Record state := St {
  port_open : bool;           (* m_portOpen *)
  fd : option Z;              (* m_fileDescriptor, None while uninitialised *)
  table : list (Z * owner) }. (* descriptors open in the process *)

(** The constructor, SerialPort.h 65-72. *)
Definition start (others : list Z) : state :=
  St false None (map (fun d => (d, Other)) others).

Inductive op :=
| Open (baud_known : bool) (result : option Z) (getattr_ok setattr_ok : bool)
| Close
| Send | Read | BytesOnRead | SendBreak | Flush
| OtherOpens (d : Z)
| OtherCloses (d : Z).

Inductive event :=
| Closed (d : Z) (o : option owner)  (* ::close on d; who owned it, if anybody *)
| Used (d : option Z)                (* any other call on the stored descriptor *)
| Threw.

Definition lookup (d : Z) (t : list (Z * owner)) : option owner :=
  match find (fun p => fst p =? d) t with Some p => Some (snd p) | None => None end.
Definition remove (d : Z) (t : list (Z * owner)) : list (Z * owner) :=
  filter (fun p => negb (fst p =? d)) t.

Definition checked (s : state) : state * list event :=
  if port_open s then (s, [Used (fd s)]) else (s, [Threw]).

Definition step (s : state) (o : op) : state * list event :=
  match o with
  (* open, 246-319 *)
  | Open baud result getattr_ok setattr_ok =>
      if port_open s then (s, [])
      else if negb baud then (s, [Threw])
      else match result with
           | None => (St false (Some (-1)) (table s), [Threw])
           | Some d =>
               let t := (d, Port) :: table s in
               if getattr_ok && setattr_ok
               then (St true (Some d) t, [])
               else (St false (Some d) t, [Threw])
           end
  (* close, 322-335: m_portOpen keeps its value *)
  | Close =>
      if port_open s
      then match fd s with
           | Some d => (St true (Some d) (remove d (table s)), [Closed d (lookup d (table s))])
           | None => (s, [Closed (-1) None])
           end
      else (s, [])
  (* read 337-350, send 352-362, bytesOnRead 364-373 *)
  | Send | Read | BytesOnRead => checked s
  (* sendBreak 375-378, flush 380-383: no check *)
  | SendBreak | Flush => (s, [Used (fd s)])
  | OtherOpens d => (St (port_open s) (fd s) ((d, Other) :: table s), [])
  | OtherCloses d => (St (port_open s) (fd s) (remove d (table s)), [])
  end.

Fixpoint run (s : state) (l : list op) : state * list event :=
  match l with
  | [] => (s, [])
  | o :: r => let (s1, e1) := step s o in
              let (s2, e2) := run s1 r in (s2, e1 ++ e2)
  end.

(** An object's life: construction, a history, and the destructor
    (SerialPort.h 74-77), which calls close. *)
Definition life (others : list Z) (l : list op) : state * list event :=
  run (start others) (l ++ [Close]).

(** The environment behaves like an operating system: descriptors handed out
    are not already in use, and the rest of the process closes only its own. *)
Fixpoint sane (s : state) (l : list op) : Prop :=
  match l with
  | [] => True
  | o :: r =>
      (match o with
       | Open _ (Some d) _ _ => port_open s = true \/ lookup d (table s) = None
       | OtherOpens d => lookup d (table s) = None
       | OtherCloses d => lookup d (table s) = Some Other
       | _ => True
       end) /\ sane (fst (step s o)) r
  end.

(** No open failed after the descriptor had been obtained. *)
Definition configured (o : op) : Prop :=
  match o with Open true (Some _) g s => g && s = true | _ => True end.

(** Descriptors still held by the port. *)
Definition held (s : state) : list Z :=
  map fst (filter (fun p => match snd p with Port => true | Other => false end) (table s)).

(** Timing of code blocks: src/utUtil/BlockTimer.h and BlockTimer.cpp. *)
From Coq Require Import ZArith NArith List Reals.
Import ListNotations.
Open Scope Z_scope.

Definition u64 (z : Z) : Z := z mod 2 ^ 64.
(** BlockTimer, members 170-180; [open] are the start times of the Time objects alive, the
    youngest first (they are destroyed in reverse order of construction) *)
Record timer := Timer { runs : Z; ticks : Z; initialized : bool; location : option (nat * nat); open : list Z }.
(** the constructors, 111-132 *)
Definition new : timer := Timer 0 0 false None [].
(** addMeasurement, 138-139: size_t and unsigned long long *)
Definition add_measurement (t : timer) (d : Z) : timer :=
  Timer (u64 (runs t + 1)) (u64 (ticks t + d)) (initialized t) (location t) (open t).
Inductive event :=
| Begin (counter : Z) (loc : option (nat * nat))   (** Time( timer ) or Time( timer, file, line ) *)
| End (counter : Z).                               (** ~Time *)
(** [counter] is what getHighPerformanceCounter returns (OS.cpp:76-82) *)
Definition step (t : timer) (e : event) : timer :=
  match e with
  | Begin c loc => (* 70-88 and initializeStart, BlockTimer.cpp:51-55 *)
      let l := match loc with Some _ => if initialized t then location t else loc | None => location t end in
      Timer (runs t) (ticks t) (initialized t) l (c :: open t)
  | End c => (* 93-99 and initializeEnd, BlockTimer.cpp:58-62; the difference is unsigned *)
      match open t with
      | [] => t
      | s :: rest => let t' := add_measurement t (u64 (c - s)) in
          Timer (runs t') (ticks t') true (location t') rest
      end
  end.
Definition run (es : list event) (t : timer) : timer := fold_left step es t.

(** getTotalTime, 145-146, in ms; [None]: division by zero *)
Open Scope R_scope.
Definition total_time (freq : R) (t : timer) : option R := if Req_EM_T freq 0 then None else Some (IZR (ticks t) / freq * 1000).
(** getAvgTime, 149-150 *)
Definition avg_time (freq : R) (t : timer) : option R :=
  if Req_EM_T (freq * IZR (runs t)) 0 then None else Some (IZR (ticks t) / (freq * IZR (runs t)) * 1000).

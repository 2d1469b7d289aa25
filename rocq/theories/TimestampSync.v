(** Model of Ubitrack::Measurement::TimestampSync and TimestampSyncLS.

    [double] is idealised as a real number; [Timestamp] is an unsigned 64-bit
    integer (a [Z] in [0, 2^64)), its arithmetic wraps. *)
From Coq Require Import Reals ZArith List Bool Lra Lia.
Import ListNotations.
Open Scope R_scope.

(** ** Machine integers *)

Definition u64 (z : Z) : Z := (z mod 2 ^ 64)%Z.
Definition u32 (z : Z) : Z := (z mod 2 ^ 32)%Z.

(** [static_cast< long long >( u )] of an unsigned 64-bit value. *)
Definition s64 (z : Z) : Z :=
  let y := u64 z in if (y <? 2 ^ 63)%Z then y else (y - 2 ^ 64)%Z.

(** Truncation towards zero, the value of a C++ floating-to-integer cast. *)
Definition trunc (x : R) : Z :=
  if Rle_dec 0 x then Int_part x else (- Int_part (- x))%Z.

(** [static_cast< long long >( double )]: undefined when the truncated value
    does not fit. *)
Definition to_ll (x : R) : option Z :=
  let z := trunc x in
  if ((- 2 ^ 63 <=? z) && (z <? 2 ^ 63))%Z then Some z else None.

(** ** TimestampSync *)

(** Fields of the class, TimestampSync.h:99-123.  [avg] is
    [m_avgDeviationSquare], [budget] is [m_outlierBudget]. *)
Record sync := mkSync {
  events : Z;            (* unsigned, 32 bits *)
  lastNative : R;
  localNoise : R; gainNoise : R; measNoise : R;
  estLocal : Z; estGain : R;
  p1 : R; p2 : R; p3 : R;
  budget : Z; avg : R }.

(** [setFrequency], TimestampSync.cpp:63-78.  [std::pow( x, 2 )] is [x * x];
    the constants are those of lines 49-55. *)
Definition sq (x : R) : R := x * x.
Definition setFrequency (s : sync) (nativeFreq localFreq : R) : sync :=
  let g := localFreq / nativeFreq in
  mkSync (events s) (lastNative s)
    (sq (1 / 1000 * localFreq)) (sq (1 / 10000 * g)) (sq (3 / 100 * localFreq))
    (estLocal s) g
    (sq localFreq) 0 (sq (10 * g))
    (budget s) (sq (1 / 1000 * localFreq)).

(** The constructor, TimestampSync.h:61-66.  Members that the constructor leaves
    uninitialised ([m_lastNative], [m_estLocal]) are arguments. *)
Definition sync_new (junkNative : R) (junkLocal : Z) (nativeFreq localFreq : R) : sync :=
  setFrequency (mkSync 0 junkNative 0 0 0 junkLocal 0 0 0 0 (-100) 0) nativeFreq localFreq.

(** [convertNativeToLocal( native, local )], TimestampSync.cpp:81-135.  The result
    is the new object, the returned timestamp (equal to [estLocal] of the new
    object) and whether the measurement update was made (the branch taken at
    line 102); [None] is an out-of-range cast (undefined behaviour). *)
Definition convert (s : sync) (native : R) (local : Z) : option (sync * Z * bool) :=
  let lastN := if (events s =? 0)%Z then native else lastNative s in
  let est0 := if (events s =? 0)%Z then local else estLocal s in
  (* time update, 91-95 *)
  let dN := native - lastN in
  match to_ll (dN * estGain s) with
  | None => None
  | Some adv =>
      let est1 := u64 (est0 + adv) in
      let q1 := p1 s + (2 * dN * p2 s + dN * dN * p3 s + localNoise s) in
      let q2 := p2 s + dN * p3 s in
      let q3 := p3 s + gainNoise s in
      (* outlier detection, 98-102 *)
      let dL := IZR (s64 (local - est1)) in
      let dev := dL * dL in
      let thr := avg s * 9 in
      if (if Rlt_dec dev thr then true else false) || (budget s <? 0)%Z then
        (* measurement update, 105-118 *)
        let k1 := q1 / (measNoise s + q1) in
        let k2 := q2 / (measNoise s + q1) in
        match to_ll (k1 * dL) with
        | None => None
        | Some corr =>
            let est2 := u64 (est1 + corr) in
            let avg' := if (50 <? events s)%Z then avg s + (dev - avg s) * (1 / 100)
                        else avg s in
            Some (mkSync (u32 (events s + 1)) native
                    (localNoise s) (gainNoise s) (measNoise s)
                    est2 (estGain s + k2 * dL)
                    (measNoise s * k1) (measNoise s * k2) (q3 - q2 * k2)
                    (Z.min 40 (budget s + 1)) avg',
                  est2, true)
        end
      else
        Some (mkSync (u32 (events s + 1)) native
                (localNoise s) (gainNoise s) (measNoise s)
                est1 (estGain s) q1 q2 q3 (budget s - 2) (avg s),
              est1, false)
  end.

(** A client: a list of calls of the two public mutators, run until one of them is
    undefined.  Returns the object and the acceptance flags, oldest first. *)
Inductive op := Convert (native : R) (local : Z) | SetFrequency (nativeFreq localFreq : R).

Fixpoint feed (s : sync) (ops : list op) : option (sync * list bool) :=
  match ops with
  | [] => Some (s, [])
  | SetFrequency nf lf :: ops' => feed (setFrequency s nf lf) ops'
  | Convert n l :: ops' =>
      match convert s n l with
      | None => None
      | Some (s', _, b) =>
          match feed s' ops' with
          | None => None
          | Some (s'', bs) => Some (s'', b :: bs)
          end
      end
  end.

(** *** Specification vocabulary *)

(** the 2x2 matrix ((a,b),(b,c)) is positive semidefinite *)
Definition psd2 (a b c : R) : Prop :=
  forall x y : R, 0 <= a * x * x + 2 * b * x * y + c * y * y.

(** number of [true]s *)
Definition count (l : list bool) : nat := length (filter (fun b => b) l).
Definition rejected (l : list bool) : nat := length (filter negb l).

(** ** TimestampSyncLS *)

(** Fields, TimestampSyncLS.h:146-157. *)
Record syncLS := mkLS {
  ls_events : Z; ls_first : Z;
  avgN : R; avgNN : R; avgL : R; avgLN : R;
  ls_budget : Z; ls_avg : R }.

(** Constructor, 65-73; [m_firstLocal] is uninitialised. *)
Definition ls_new (junk : Z) : syncLS := mkLS 0 junk 0 0 0 0 0 (1000000 * 1000000).

(** The extrapolation 92-95: [None] is the division by a vanishing variance
    (infinity or NaN in the code). *)
Definition extrapolate (s : syncLS) (native : R) : option R :=
  let var := avgNN s - avgN s * avgN s in
  let off := avgNN s * avgL s - avgN s * avgLN s in
  let gain := avgLN s - avgL s * avgN s in
  if Req_EM_T var 0 then None else Some ((native * gain + off) / var).

(** [static_cast< Timestamp >( double )]: undefined for values whose truncation is
    negative or too large. *)
Definition to_u64 (x : R) : option Z :=
  let z := trunc x in
  if ((0 <=? z) && (z <? 2 ^ 64))%Z then Some z else None.

(** [convertNativeToLocal], 80-139.  The conversion of [local - m_firstLocal] to
    double is exact here (in the code it is exact below 2^53).  Returns the new
    object and the extrapolated time relative to the first event as a real, and
    the returned timestamp. *)
Definition ls_convert (s : syncLS) (native : R) (local : Z) : option (syncLS * R * Z) :=
  let first := if (ls_events s =? 0)%Z then local else ls_first s in
  let fLocal := IZR (u64 (local - first)) in
  let ext := if (10 <? ls_events s)%Z then extrapolate s native else Some fLocal in
  match ext with
  | None => None
  | Some e =>
      let dev := (e - fLocal) * (e - fLocal) in
      let accept := (ls_events s <? 100)%Z
                    || (if Rlt_dec dev (ls_avg s * 9) then true else false)
                    || (ls_budget s <? 0)%Z in
      match to_u64 e with
      | None => None
      | Some ez =>
          let ret := u64 (first + ez) in
          let s' :=
            if accept then
              let w := if (ls_events s <? 100)%Z then 1 / IZR (ls_events s + 1) else 1 / 1000 in
              mkLS (u32 (ls_events s + 1)) first
                (avgN s + (native - avgN s) * w)
                (avgNN s + (native * native - avgNN s) * w)
                (avgL s + (fLocal - avgL s) * w)
                (avgLN s + (fLocal * native - avgLN s) * w)
                (Z.min 40 (ls_budget s + 1))
                (if (10 <? ls_events s)%Z then ls_avg s + (dev - ls_avg s) * (1 / 100) else ls_avg s)
            else
              mkLS (u32 (ls_events s + 1)) first (avgN s) (avgNN s) (avgL s) (avgLN s)
                (ls_budget s - 2) (ls_avg s) in
          Some (s', e, ret)
      end
  end.

Fixpoint ls_feed (s : syncLS) (evs : list (R * Z)) : option (syncLS * list Z) :=
  match evs with
  | [] => Some (s, [])
  | (n, l) :: evs' =>
      match ls_convert s n l with
      | None => None
      | Some (s', _, r) =>
          match ls_feed s' evs' with
          | None => None
          | Some (s'', rs) => Some (s'', r :: rs)
          end
      end
  end.

(** Specification: the event lies on the line [l = g n + o], local times counted
    from [l0]. *)
Definition on_line (g o : R) (l0 : Z) (ev : R * Z) : Prop :=
  (0 <= snd ev < 2 ^ 64)%Z /\ IZR (u64 (snd ev - l0)) = g * fst ev + o.

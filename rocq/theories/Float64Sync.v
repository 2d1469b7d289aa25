(** The least-squares clock synchronisation in IEEE 754 double precision: utMeasurement/TimestampSyncLS.h.  (TimestampSync.v has the
    same code with real numbers.)  The debug output of lines 127-133 is left out. *)
From Coq Require Import ZArith Bool List.
From Flocq Require Import Core BinarySingleNaN Binary Bits.
From Verif Require Import Float64.
Import ListNotations.
Open Scope Z_scope.

(** conversion of an unsigned 64 bit number to double (rounds to nearest) *)
Definition of_Z (n : Z) : dbl := binary_normalize 53 1024 eq_refl eq_refl mode_NE n 0 false.
(** static_cast< Timestamp >( double ): truncation towards zero; undefined behaviour ([None]) for NaN, infinities and if the truncated
    value is not representable *)
Definition to_u64 (d : dbl) : option Z :=
  if is_finite 53 1024 d then let t := Btrunc 53 1024 d in if (0 <=? t) && (t <? 2 ^ 64) then Some t else None else None.

(** the members, lines 146-157 *)
Record ls := LS { l_events : Z; l_first : Z; l_n : dbl; l_nn : dbl; l_l : dbl; l_ln : dbl; l_budget : Z; l_dev : dbl }.
(** the constructor, lines 65-73; m_firstLocal is set by the first call *)
Definition ls_init : ls := LS 0 0 d0 d0 d0 d0 0 (b64_of_bits 4786511204640096256).
(** g_fWeight, g_fDeviationWeight, lines 52 and 55; 9 *)
Definition d_weight : dbl := b64_of_bits 4562254508917369340.
Definition d_devweight : dbl := b64_of_bits 4576918229304087675.
Definition d9 : dbl := b64_of_bits 4621256167635550208.

(** x += ( v - x ) * w *)
Definition blend (x v w : dbl) : dbl := dadd x (dmul (dsub v x) w).
(** fWeight, line 113 *)
Definition ls_weight (events : Z) : dbl := if events <? 100 then ddiv d1 (of_Z (events + 1)) else d_weight.
(** convertNativeToLocal, lines 80-139.  m_events is unsigned int, the budget an int *)
Definition ls_convert (s : ls) (native : dbl) (local : Z) : ls * option Z :=
  let first := if l_events s =? 0 then local else l_first s in
  let fLocal := of_Z ((local - first) mod 2 ^ 64) in
  let fExtrapolated :=
    if 10 <? l_events s then
      let var := dsub (l_nn s) (dmul (l_n s) (l_n s)) in
      let fOffset := dsub (dmul (l_nn s) (l_l s)) (dmul (l_n s) (l_ln s)) in
      let fGain := dsub (l_ln s) (dmul (l_l s) (l_n s)) in
      ddiv (dadd (dmul native fGain) fOffset) var
    else fLocal in
  let deviation := dsub fExtrapolated fLocal in
  let deviationSquare := dmul deviation deviation in
  let thresholdSquare := dmul (l_dev s) d9 in
  let s' :=
    if (l_events s <? 100) || dlt deviationSquare thresholdSquare || (l_budget s <? 0) then
      let w := ls_weight (l_events s) in
      LS (l_events s) first (blend (l_n s) native w) (blend (l_nn s) (dmul native native) w) (blend (l_l s) fLocal w) (blend (l_ln s) (dmul fLocal native) w)
         (Z.min 40 (l_budget s + 1)) (if 10 <? l_events s then blend (l_dev s) deviationSquare d_devweight else l_dev s)
    else LS (l_events s) first (l_n s) (l_nn s) (l_l s) (l_ln s) (l_budget s - 2) (l_dev s) in
  (LS ((l_events s + 1) mod 2 ^ 32) (l_first s') (l_n s') (l_nn s') (l_l s') (l_ln s') (l_budget s') (l_dev s'),
   match to_u64 fExtrapolated with Some t => Some ((first + t) mod 2 ^ 64) | None => None end).
(** a sequence of calls *)
Fixpoint ls_run (s : ls) (calls : list (dbl * Z)) : ls * list (option Z) :=
  match calls with
  | [] => (s, [])
  | (n, l) :: cs => let (s1, o) := ls_convert s n l in let (s2, os) := ls_run s1 cs in (s2, o :: os)
  end.

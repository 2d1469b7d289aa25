(** Model of the three RANSAC drivers of utMath/Optimization/Ransac.h.

    Data items, hypotheses and distances are arbitrary types.  The comparison
    [ltb] is an arbitrary boolean function, so IEEE comparison (NaN included)
    is covered.  The user supplied estimator and evaluator are arbitrary
    functions, the random choices are an arbitrary schedule. *)
From Coq Require Import List Arith ZArith Bool Lia.
Import ListNotations.

(** [int( x )] for an unsigned 64-bit [x] on the usual two's complement targets:
    low 32 bits, reinterpreted as signed.  Ransac.h:194, 336, 445. *)
Definition to_int32 (x : Z) : Z :=
  let y := (x mod 2 ^ 32)%Z in if (y <? 2 ^ 31)%Z then y else (y - 2 ^ 32)%Z.

(** [std::size_t] subtraction, wrapping modulo 2^64. *)
Definition size_sub (a b : nat) : Z := ((Z.of_nat a - Z.of_nat b) mod 2 ^ 64)%Z.

(** Second half of the loop condition of the inlier scan:
    [int( nValues - i ) >= int( nMinInlier - nInlier )].
    Ransac.h:194 (variant 1), 336 (variant 2), 445 (variant 3). *)
Definition scan_goes_on (nValues i nMin nInlier : nat) : bool :=
  (to_int32 (size_sub nMin nInlier) <=? to_int32 (size_sub nValues i))%Z.

Section Ransac.
  Variables (A H D : Type).
  Variable ltb : D -> D -> bool.
  Variable threshold : D.

  (** Outcome of a call: undefined behaviour, an escaping exception, or a
      normal return with the returned count, the content of the caller's
      [result] and (variant 3) the content of [*pInliers], together with the
      number of iterations started (ghost: the number of calls of the sampling
      step, not visible in the C++ return value). *)
  Inductive outcome :=
  | UB
  | Thrown
  | Done (ret : nat) (result : H) (flags : list bool) (iterations : nat).

  (** ** Variants 1 and 2 *)
  Section Variant12.
    (** [Estimator()( hypothesis, first, last )] returns a success flag and may
        have changed the hypothesis, whatever the flag (183, 234, 324, 388). *)
    Variable est : H -> list A -> bool * H.
    (** [Evaluator()( hypothesis, *it )] (196, 338). *)
    Variable eval : H -> A -> D.
    (** contents of the freshly declared [ResultType hypothesis] (182, 323). *)
    Variable h_init : H.

    (** Inlier scan, lines 194-203 and 336-346: [rest] is what [it] still has to
        visit, [i] the loop counter; inliers are kept as positions (iterators in
        variant 1, [std::distance] indices in variant 2).  [fInlierDist] is only
        logged and is left out. *)
    Fixpoint scan (h : H) (nValues nMin : nat) (rest : list A) (i nInlier : nat)
             (acc : list nat) : nat * list nat :=
      match rest with
      | [] => (nInlier, rev acc)
      | x :: rest' =>
          if scan_goes_on nValues i nMin nInlier then
            if ltb (eval h x) threshold
            then scan h nValues nMin rest' (S i) (S nInlier) (i :: acc)
            else scan h nValues nMin rest' (S i) nInlier acc
          else (nInlier, rev acc)
      end.

    (** Dereferencing a list of positions; [None] if one is out of range. *)
    Fixpoint deref (data : list A) (idx : list nat) : option (list A) :=
      match idx with
      | [] => Some []
      | k :: idx' =>
          match nth_error data k, deref data idx' with
          | Some x, Some xs => Some (x :: xs)
          | _, _ => None
          end
      end.

    (** The sample of one iteration: the first [setSize] positions of the
        shuffled index list (164-179, 302-320).  Asking for more positions than
        there are advances past the end: undefined behaviour. *)
    Definition sample (data : list A) (setSize : nat) (shuffled : list nat)
      : option (list A) :=
      if setSize <=? length shuffled
      then deref data (firstn setSize shuffled) else None.

    (** The loop 159-221 (296-364): [fuel] iterations are left, [iRun] is the
        counter, [sched iRun] is the index list after the [random_shuffle] of
        that iteration. *)
    Fixpoint runs (data : list A) (setSize nMin : nat) (sched : nat -> list nat)
             (fuel iRun nBest : nat) (best : list nat)
      : option (nat * list nat * nat) :=
      match fuel with
      | O => Some (nBest, best, iRun)
      | S fuel' =>
          match sample data setSize (sched iRun) with
          | None => None
          | Some s =>
              let '(ok, h) := est h_init s in
              if negb ok then runs data setSize nMin sched fuel' (S iRun) nBest best
              else
                let '(nInlier, ins) := scan h (length data) nMin data 0 0 [] in
                if nInlier =? 0
                then runs data setSize nMin sched fuel' (S iRun) nBest best
                else
                  let '(nBest', best') :=
                    if (nMin <=? nInlier) && (nBest <? nInlier)
                    then (nInlier, ins) else (nBest, best) in
                  if nMin <=? nBest' then Some (nBest', best', S iRun)
                  else runs data setSize nMin sched fuel' (S iRun) nBest' best'
          end
      end.

    (** [ransac( iBegin, iEnd, result, model, params )], lines 127-241, and the
        two-range variant 262-395 with [A] the type of pairs (the second range
        is taken to be at least as long as the first; the code does not check). *)
    Definition ransac (data : list A) (setSize nMin nMaxIterations : nat)
               (sched : nat -> list nat) (result0 : H) : outcome :=
      match runs data setSize nMin sched nMaxIterations 0 0 [] with
      | None => UB
      | Some (nBest, best, iters) =>
          if nMin <=? nBest then
            match deref data best with
            | None => UB
            | Some l => Done nBest (snd (est result0 l)) [] iters
            end
          else Done 0 result0 [] iters
      end.

    (** *** Specification vocabulary, independent of the scan. *)

    (** the data that agree with hypothesis [h] *)
    Definition consensus (data : list A) (h : H) : list A :=
      filter (fun x => ltb (eval h x) threshold) data.

    (** iteration [k] produces hypothesis [h] *)
    Definition proposes (data : list A) (setSize : nat) (sched : nat -> list nat)
               (k : nat) (h : H) : Prop :=
      exists s, sample data setSize (sched k) = Some s /\ est h_init s = (true, h).

    (** a hypothesis good enough to stop *)
    Definition qualifies (data : list A) (nMin : nat) (h : H) : Prop :=
      nMin <= length (consensus data h) /\ 1 <= length (consensus data h).
  End Variant12.

  (** ** Variant 3 *)
  Section Variant3.
    (** [estimator( hypothesis, list1, list2 )], 440 and 491: it either assigns
        its output or throws [std::runtime_error]. *)
    Variable est : H -> list A -> option H.
    (** [evaluator( hypothesis, p1, p2 )], 447: a distance or an exception. *)
    Variable eval : H -> A -> option D.
    Variable h_init : H.

    (** [bInliers[ i ] = b] on a vector of the right size. *)
    Fixpoint set_nth (l : list bool) (i : nat) (b : bool) : list bool :=
      match l, i with
      | [], _ => []
      | _ :: l', O => b :: l'
      | x :: l', S i' => x :: set_nth l' i' b
      end.

    (** Scan 445-453.  The flag vector [bIn] is shared between iterations and
        is not cleared, so entries behind an early exit or an exception are
        stale.  The count is [None] when the evaluator threw. *)
    Fixpoint scan3 (h : H) (nValues nMin : nat) (rest : list A) (i nInlier : nat)
             (bIn : list bool) : option nat * list bool :=
      match rest with
      | [] => (Some nInlier, bIn)
      | x :: rest' =>
          if scan_goes_on nValues i nMin nInlier then
            match eval h x with
            | None => (None, bIn)
            | Some d =>
                if ltb d threshold
                then scan3 h nValues nMin rest' (S i) (S nInlier) (set_nth bIn i true)
                else scan3 h nValues nMin rest' (S i) nInlier (set_nth bIn i false)
            end
          else (Some nInlier, bIn)
      end.

    (** One pass of the loop body 419-474; [sel] are the positions drawn by
        [rand() % paramList1.size()] (430-436; at least one is drawn or the
        modulus is never evaluated).  Returns whether to break. *)
    Definition run3 (data : list A) (nMin nMinRuns : nat) (sel : list nat) (iRun nBest : nat)
               (bIn bBest : list bool) : option (bool * nat * list bool * list bool) :=
      match deref data sel with
      | None => None
      | Some s =>
          match est h_init s with
          | None => Some (false, nBest, bIn, bBest)
          | Some h =>
              match scan3 h (length data) nMin data 0 0 bIn with
              | (None, bIn') => Some (false, nBest, bIn', bBest)
              | (Some nInlier, bIn') =>
                  let '(nBest', bBest') :=
                    if (nMin <=? nInlier) && (nBest <? nInlier)
                    then (nInlier, bIn') else (nBest, bBest) in
                  Some ((nMin <=? nBest') && (nMinRuns <=? S iRun), nBest', bIn', bBest')
              end
          end
      end.

    Fixpoint runs3 (data : list A) (nMin nMinRuns : nat) (sched : nat -> list nat)
             (fuel iRun nBest : nat) (bIn bBest : list bool)
      : option (nat * list bool * nat) :=
      match fuel with
      | O => Some (nBest, bBest, iRun)
      | S fuel' =>
          match run3 data nMin nMinRuns (sched iRun) iRun nBest bIn bBest with
          | None => None
          | Some (stop, nBest', bIn', bBest') =>
              if stop then Some (nBest', bBest', S iRun)
              else runs3 data nMin nMinRuns sched fuel' (S iRun) nBest' bIn' bBest'
          end
      end.

    (** Copy of the flagged items, 484-489. *)
    Fixpoint select (data : list A) (flags : list bool) : list A :=
      match data, flags with
      | x :: data', b :: flags' =>
          if b then x :: select data' flags' else select data' flags'
      | _, _ => []
      end.

    (** [ransac( result, paramList1, paramList2, ... )], 403-501, with [A] the
        type of pairs and [flags0] the previous content of [*pInliers]. *)
    Definition ransac3 (data : list A) (nMin nMinRuns nMaxRuns : nat)
               (sched : nat -> list nat) (result0 : H) (flags0 : list bool) : outcome :=
      let off := repeat false (length data) in
      match runs3 data nMin nMinRuns sched nMaxRuns 0 0 off off with
      | None => UB
      | Some (nBest, bBest, iters) =>
          if nMin <=? nBest then
            match est result0 (select data bBest) with
            | None => Thrown
            | Some r => Done nBest r bBest iters
            end
          else Done 0 result0 flags0 iters
      end.

    (** *** Specification vocabulary *)

    (** does the item agree with [h]? *)
    Definition agrees (h : H) (x : A) : bool :=
      match eval h x with Some d => ltb d threshold | None => false end.

    Definition consensus3 (data : list A) (h : H) : list A := filter (agrees h) data.

    (** iteration [k] proposes [h] and every item can be evaluated against it *)
    Definition proposes3 (data : list A) (sched : nat -> list nat) (k : nat) (h : H) : Prop :=
      (exists s, deref data (sched k) = Some s /\ est h_init s = Some h) /\
      Forall (fun x => eval h x <> None) data.
  End Variant3.
End Ransac.

Arguments UB {H}.
Arguments Thrown {H}.
Arguments Done {H}.

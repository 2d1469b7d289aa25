(** Values survive the text archives (C158). *)
From Coq Require Import ZArith NArith List Ascii Decimal Bool Lia DecimalFacts DecimalN Reals Lra.
From Coq Require Import String. Import List.
From Verif Require Import SimpleString.
Import ListNotations.

(** what an item may be *)
Definition valid (i : item) : Prop :=
  match i with
  | Int z => (- 2 ^ 31 <= z < 2 ^ 31)%Z
  | UInt n => (n < 2 ^ 32)%N
  | ULong n => (n < 2 ^ 64)%N
  | Char c => ~ In (N_of_ascii c) [9; 10; 11; 12; 13; 32]%N
  end.
(** what may follow: nothing or a blank *)
Definition ends (s : list ascii) : Prop := match s with [] => True | c :: _ => c = " "%char end.

Lemma take_show u s : ends s -> take_digits (digits u ++ s) = (u, s).
Proof.
  intros E. induction u; cbn; try (rewrite IHu; reflexivity). destruct s as [|c s]; [reflexivity|]. cbn in E. subst c. reflexivity.
Qed.
Lemma show_first n : exists c r, show_N n = c :: r /\ digit c <> None.
Proof.
  unfold show_N. assert (H : N.to_uint n <> Nil). { intros E. pose proof (Unsigned.of_to n) as X. rewrite E in X. cbn in X. subst n. cbn in E. discriminate. }
  destruct (N.to_uint n); [congruence|..]; cbn; eexists; eexists; (split; [reflexivity|discriminate]).
Qed.
Lemma digit_space c : digit c <> None -> space c = false /\ c <> "-"%char /\ c <> "+"%char.
Proof. destruct c as [[] [] [] [] [] [] [] []]; cbn; intros H; try congruence; (split; [reflexivity|split; discriminate]). Qed.
Lemma number_show n s : ends s -> number (show_N n ++ s) = Some (false, n, (s, match s with [] => true | _ => false end)).
Proof.
  intros E. unfold number. destruct (show_first n) as (c & r & ES & D). destruct (digit_space c D) as (S & M & P).
  assert (T := take_show (N.to_uint n) s E). fold (show_N n) in T. assert (O := Unsigned.of_to n). rewrite ES in *. change ((c :: r) ++ s) with (c :: (r ++ s)) in *. assert (SK : skip (c :: r ++ s) = c :: r ++ s) by (cbn; rewrite S; reflexivity). rewrite SK.
  assert (B : (match c :: r ++ s with "-"%char :: s' => (true, s') | "+"%char :: s' => (false, s') | _ => (false, c :: r ++ s) end) = (false, c :: r ++ s)) by (destruct c as [[] [] [] [] [] [] [] []]; try reflexivity; congruence).
  rewrite B, T. destruct (N.to_uint n) eqn:EU; [exfalso; unfold show_N in ES; rewrite EU in ES; discriminate|..]; rewrite O; reflexivity.
Qed.
Lemma number_minus n s : ends s -> number ("-"%char :: show_N n ++ s) = Some (true, n, (s, match s with [] => true | _ => false end)).
Proof.
  intros E. unfold number. cbn [skip]. change (space "-"%char) with false. cbv iota. rewrite (take_show (N.to_uint n) s E : take_digits (show_N n ++ s) = _). assert (O := Unsigned.of_to n).
  destruct (show_first n) as (c & r & ES & D). destruct (N.to_uint n) eqn:EU; [exfalso; unfold show_N in ES; rewrite EU in ES; discriminate|..]; rewrite O; reflexivity.
Qed.
Lemma number_blank s : number (" "%char :: s) = number s.
Proof. unfold number. cbn [skip]. change (space " "%char) with true. reflexivity. Qed.
Lemma read_blank k s : read k (" "%char :: s, false) = read k (s, false).
Proof. unfold read. destruct k; cbv iota; rewrite ?number_blank; reflexivity. Qed.
Lemma valid_space c : valid (Char c) -> space c = false.
Proof.
  cbn [valid]. intros H. unfold space. destruct ((N_of_ascii c =? 32) || (9 <=? N_of_ascii c) && (N_of_ascii c <=? 13))%N eqn:E; [|reflexivity]. exfalso. apply H. set (n := N_of_ascii c) in *.
  apply orb_prop in E. destruct E as [E|E]; [apply N.eqb_eq in E; cbn [In]; lia|]. apply andb_prop in E. destruct E as [A B]. apply N.leb_le in A, B. cbn [In]. lia.
Qed.
Lemma unsigned_plain w n : (n < 2 ^ w)%N -> unsigned w false n = Some n.
Proof. intros H. unfold unsigned. apply N.ltb_lt in H. rewrite H. reflexivity. Qed.
(** one value is read back, and exactly its text is consumed *)
Lemma read_text i s : valid i -> ends s -> exists e, read (kind_of i) (text i ++ s, false) = Some (i, (s, e)) /\ (s <> [] -> e = false).
Proof.
  intros V E. destruct i as [z|n|n|c]; cbn [kind_of text read valid] in *.
  - exists (match s with [] => true | _ => false end). split; [|intros N; destruct s; [congruence|reflexivity]]. destruct (Z.ltb_spec z 0) as [L|G].
    + cbn [List.app]. rewrite number_minus by exact E. cbn [bind]. rewrite Z2N.id by lia. rewrite Z.opp_involutive. destruct (Z.leb_spec (- 2 ^ 31) z), (Z.ltb_spec z (2 ^ 31)); try lia. reflexivity.
    + rewrite number_show by exact E. cbn [bind]. rewrite Z2N.id by lia. destruct (Z.leb_spec (- 2 ^ 31) z), (Z.ltb_spec z (2 ^ 31)); try lia. reflexivity.
  - exists (match s with [] => true | _ => false end). split; [|intros N; destruct s; [congruence|reflexivity]]. rewrite number_show by exact E. cbn [bind]. rewrite unsigned_plain by exact V. reflexivity.
  - exists (match s with [] => true | _ => false end). split; [|intros N; destruct s; [congruence|reflexivity]]. rewrite number_show by exact E. cbn [bind]. rewrite unsigned_plain by exact V. reflexivity.
  - exists false. split; [|reflexivity]. cbn [List.app skip]. rewrite (valid_space c V). reflexivity.
Qed.
Lemma write_ends count l : (1 <= count)%N -> ends (write_from count l).
Proof. intros C. destruct l as [|i l]; [exact I|]. cbn. destruct (N.eqb_spec count 0); [lia|]. reflexivity. Qed.
Lemma write_nonempty count i l : (1 <= count)%N -> write_from count (i :: l) <> [].
Proof. intros C. cbn. destruct (N.eqb_spec count 0); [lia|]. discriminate. Qed.
Lemma count_next count l (i : item) : (count + N.of_nat (length (i :: l)) <= 2 ^ 32)%N -> l <> [] -> ((count + 1) mod 2 ^ 32 = count + 1)%N.
Proof. intros H N. apply N.mod_small. destruct l; [congruence|]. cbn [length] in H. lia. Qed.
(** the end of the text: no value can be read any more *)
Definition exhausted (st : stream) : Prop := fst st = [] /\ forall k, read k st = None.
Lemma empty_exhausted e : exhausted ([], e).
Proof. split; [reflexivity|]. intros []; destruct e; reflexivity. Qed.
Lemma read_written l : forall count e, (count + N.of_nat (length l) <= 2 ^ 32)%N -> (forall i, In i l -> valid i) -> (l <> [] -> e = false) ->
  exists st, read_all (map kind_of l) (write_from count l, e) = Some (l, st) /\ exhausted st.
Proof.
  induction l as [|i l IH]; intros count e H V E; [exists ([], e); split; [reflexivity|apply empty_exhausted]|].
  rewrite (E ltac:(discriminate)). cbn [map read_all].
  assert (R : read (kind_of i) (write_from count (i :: l), false) = read (kind_of i) (text i ++ write_from ((count + 1) mod 2 ^ 32) l, false)).
  { cbn [write_from]. destruct (count =? 0)%N; [reflexivity|]. cbn [List.app]. apply read_blank. }
  rewrite R. clear R.
  destruct l as [|j l].
  - destruct (read_text i [] (V i (or_introl eq_refl)) I) as (e' & RT & _). cbn [write_from]. rewrite RT. cbn [bind map read_all]. eexists. split; [reflexivity|]. apply empty_exhausted.
  - rewrite (count_next count (j :: l) i H) by discriminate. assert (C : (1 <= count + 1)%N) by lia.
    destruct (read_text i (write_from (count + 1) (j :: l)) (V i (or_introl eq_refl)) (write_ends _ _ C)) as (e' & RT & N). rewrite RT. cbn [bind].
    destruct (IH (count + 1)%N e') as (st & RA & X); [cbn [length] in *; lia|intros; apply V; right; assumption|intros _; apply N; apply write_nonempty; exact C|].
    rewrite RA. cbn [bind]. exists st. split; [reflexivity|exact X].
Qed.
(** everything written is read back in order, and then the archive is exhausted *)
Theorem archive_round_trip l : (N.of_nat (length l) <= 2 ^ 32)%N -> (forall i, In i l -> valid i) ->
  exists st, read_all (map kind_of l) (open (write l)) = Some (l, st) /\ exhausted st.
Proof. intros H V. apply (read_written l 0 false); [exact H|exact V|reflexivity]. Qed.
(** so the text determines the values *)
Theorem archive_injective l l' : (N.of_nat (length l) <= 2 ^ 32)%N -> (N.of_nat (length l') <= 2 ^ 32)%N -> (forall i, In i l -> valid i) -> (forall i, In i l' -> valid i) ->
  map kind_of l = map kind_of l' -> write l = write l' -> l = l'.
Proof.
  intros H H' V V' K W. destruct (archive_round_trip l H V) as (st & R & _). destruct (archive_round_trip l' H' V') as (st' & R' & _). rewrite K, W, R' in R. congruence.
Qed.
(** asking for more than was written throws *)
Theorem archive_too_many l k ks : (N.of_nat (length l) <= 2 ^ 32)%N -> (forall i, In i l -> valid i) -> read_all (map kind_of l ++ k :: ks) (open (write l)) = None.
Proof.
  intros H V. destruct (archive_round_trip l H V) as (st & R & (_ & X)). assert (G : forall ks1 s l st, read_all ks1 s = Some (l, st) -> (forall k, read k st = None) -> read_all (ks1 ++ k :: ks) s = None).
  { clear. induction ks1 as [|k1 ks1 IH]; intros s l st R X; cbn in *; [injection R as _ ->; rewrite X; reflexivity|].
    destruct (read k1 s) as [[i s']|]; [|discriminate]. cbn [bind] in *. destruct (read_all ks1 s') as [[l' s'']|] eqn:E; [|discriminate]. cbn [bind] in R. injection R as _ <-. rewrite (IH s' l' s'' E X). reflexivity. }
  exact (G _ _ _ _ R X).
Qed.
(** a blank character is lost and shifts what follows, without an error *)
Theorem archive_blank_refuted : exists st, 
  read_all [KChar; KInt; KInt] (open (write [Char " "; Int 12; Int 7])) = Some ([Char "1"; Int 2; Int 7], st).
Proof. eexists. vm_compute. reflexivity. Qed.
(** after 2^32 values the counter is zero again and two values run into each other *)
Lemma write_app count l l' : (count < 2 ^ 32)%N -> write_from count (l ++ l') = write_from count l ++ write_from ((count + N.of_nat (length l)) mod 2 ^ 32)%N l'.
Proof.
  revert count. induction l as [|i l IH]; intros count C; [cbn [List.app length]; rewrite N.add_0_r, N.mod_small by exact C; reflexivity|]. cbn [List.app write_from]. rewrite IH by (apply N.mod_lt; discriminate).
  rewrite <- !app_assoc. do 4 f_equal. cbn [length]. rewrite N.add_mod_idemp_l by discriminate. f_equal. lia.
Qed.
Theorem archive_counter_refuted l i : N.of_nat (length l) = (2 ^ 32)%N -> write (l ++ [i]) = write l ++ text i.
Proof. intros H. unfold write. rewrite write_app by reflexivity. rewrite H. cbn [write_from]. change ((0 + 2 ^ 32) mod 2 ^ 32)%N with 0%N. cbn [N.eqb]. rewrite app_nil_r. reflexivity. Qed.
(** floating point numbers are printed with six significant digits, whatever the locale: some are changed *)
Open Scope R_scope.
Definition six_digits (show : R -> R) : Prop := forall x, exists m e : Z, (Z.abs m < 10 ^ 6)%Z /\ (0 <= e)%Z /\ (show x = IZR m * IZR (10 ^ e) \/ show x = IZR m / IZR (10 ^ e)).
Theorem archive_double_refuted show : six_digits show -> show 1234567 <> 1234567.
Proof.
  intros H E. destruct (H 1234567) as (m & e & M & EP & [F|F]); rewrite E in F.
  - rewrite <- mult_IZR in F. apply eq_IZR in F. destruct (Z.eq_dec e 0) as [->|N]; [cbn in *; lia|].
    replace e with (1 + (e - 1))%Z in F by lia. rewrite Z.pow_add_r in F by lia. assert (X : (1234567 mod 10 = 0)%Z) by (rewrite F; replace (m * (10 ^ 1 * 10 ^ (e - 1)))%Z with (m * 10 ^ (e - 1) * 10)%Z by lia; apply Z.mod_mul; lia). discriminate X.
  - assert (P : (0 < 10 ^ e)%Z) by (apply Z.pow_pos_nonneg; lia). assert (P' := IZR_lt _ _ P). assert (G : IZR m = 1234567 * IZR (10 ^ e)) by (rewrite F; field; lra). rewrite <- mult_IZR in G. apply eq_IZR in G. lia.
Qed.
(** all four kinds, with extreme values *)
Example archive_case : let l := [Int (-2147483648); UInt 4294967295; ULong 18446744073709551615; Char "x"; Int 0; Char "-"; Int 5] in
  (forall i, In i l -> valid i) /\ write l = String.list_ascii_of_string "-2147483648 4294967295 18446744073709551615 x 0 - 5"%string /\
  read_all (map kind_of l) (open (write l)) = Some (l, ([], true)).
Proof.
  cbv zeta. split; [|split; vm_compute; reflexivity]. intros i. cbn [In]. intuition subst; cbn [valid]; try lia; vm_compute; intuition discriminate.
Qed.
Print Assumptions archive_round_trip. Print Assumptions archive_injective. Print Assumptions archive_too_many. Print Assumptions archive_blank_refuted. Print Assumptions archive_counter_refuted. Print Assumptions archive_double_refuted.

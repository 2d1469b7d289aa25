(** Texts of exceptions (C176). *)
From Coq Require Import NArith List Ascii String Bool Lia.
From Verif Require Import SimpleString SimpleStringProps ExceptionText.
Import ListNotations.
Local Notation text := (list ascii).

Lemma split_last (c : ascii) b : forall b' a a', ~ In c b -> ~ In c b' -> (a ++ c :: b = a' ++ c :: b')%list -> a = a' /\ b = b'.
Proof.
  assert (G : forall x x' y y', ~ In c x -> ~ In c x' -> (x ++ c :: y = x' ++ c :: y')%list -> x = x' /\ y = y').
  { induction x as [|p x IH]; intros [|p' x'] y y' N N' E.
    - injection E as E. split; [reflexivity|exact E].
    - injection E as E1 E2. exfalso. apply N'. left. symmetry. exact E1.
    - injection E as E1 E2. exfalso. apply N. left. exact E1.
    - injection E as E1 E2. subst p'. destruct (IH x' y y') as (A & B); [firstorder|firstorder|exact E2|]. subst. split; reflexivity. }
  intros b' a a' N N' E. assert (R := f_equal (@rev ascii) E). rewrite !rev_app_distr in R. cbn [rev] in R. rewrite <- !app_assoc in R. cbn [app] in R.
  destruct (G (rev b) (rev b') (rev a) (rev a')) as (B & A); [rewrite <- in_rev; exact N|rewrite <- in_rev; exact N'|exact R|].
  split; [rewrite <- (rev_involutive a), A; apply rev_involutive|rewrite <- (rev_involutive b), B; apply rev_involutive].
Qed.
Lemma digits_only u c : In c (digits u) -> digit c <> None.
Proof. induction u; cbn [digits In]; intros H; try contradiction; (destruct H as [<-|H]; [cbn; discriminate|auto]). Qed.
Lemma show_no_colon n : ~ In ":"%char (show_N n).
Proof. intros H. apply digits_only in H. apply H. reflexivity. Qed.
Lemma show_injective n n' : show_N n = show_N n' -> n = n'.
Proof.
  intros E. assert (H := number_show n [] I). assert (H' := number_show n' [] I). rewrite E, H' in H. congruence.
Qed.

(** the text determines the line *)
Theorem exception_text_line e e' : print e = print e' -> line e = line e'.
Proof.
  unfold print. intros E. apply app_inv_head in E. change (str ":") with [":"%char] in E.
  rewrite !(app_assoc (c_string _)), !(app_assoc (_ ++ _)%list (file _)) in E. cbn [app] in E. apply split_last in E; [|apply show_no_colon..]. apply show_injective, E.
Qed.
(** and, as long as no file name has a quotation mark, everything else *)
Theorem exception_text_unique e e' : ~ In """"%char (file e) -> ~ In """"%char (file e') -> ~ In zero (message e) -> ~ In zero (message e') -> print e = print e' -> e = e'.
Proof.
  assert (C : forall s, ~ In zero s -> c_string s = s).
  { induction s as [|c s IH]; intros N; [reflexivity|]. cbn [c_string]. destruct (Ascii.eqb_spec c zero) as [->|_]; [exfalso; apply N; left; reflexivity|]. rewrite IH; [reflexivity|firstorder]. }
  intros Q Q' Z Z' E. assert (L := exception_text_line e e' E). unfold print in E. rewrite L in E. rewrite (C _ Z), (C _ Z') in E. apply app_inv_head in E.
  rewrite !app_assoc in E. apply app_inv_tail in E. change (str ":") with [":"%char] in E. apply app_inv_tail in E. rewrite <- !app_assoc in E. change (str """ from ") with (""""%char :: str " from ") in E. cbn [app] in E.
  apply split_last in E.
  - destruct E as (M & F). apply app_inv_head in F. destruct e, e'; cbn in *; subst; reflexivity.
  - intros H. apply in_app_or in H. destruct H as [H|H]; [cbn in H; intuition discriminate|contradiction].
  - intros H. apply in_app_or in H. destruct H as [H|H]; [cbn in H; intuition discriminate|contradiction].
Qed.
(** with quotation marks in file names two exceptions have the same text *)
Theorem exception_text_refuted : exists e e', message e <> message e' /\ file e <> file e' /\ print e = print e'.
Proof. exists (Exc (str "m") 1 (str "a"" from b")), (Exc (str "m"" from a") 1 (str "b")). repeat split; cbn; discriminate. Qed.
(** an exception thrown with the macro is never undefined; the one for buffer overruns is, while debug messages are logged,
    and otherwise it does not say where it comes from *)
Theorem exception_null_file_refuted : (forall debug m l f, exists e, ubitrack_throw debug m l f = Some e /\ message e = m /\ line e = l /\ file e = f) /\
  throw_overrun true = None /\ exists e, throw_overrun false = Some e /\ message e = str "Buffer Overrun" /\ print e = str "Exception ""Buffer Overrun"" from :0".
Proof. split; [intros debug m l f; exists (Exc m l f); repeat split|]. split; [reflexivity|]. eexists. repeat split; reflexivity. Qed.

Example exception_case : let e := Exc (str "no such file") 42 (str "x.cpp") in
  print e = str "Exception ""no such file"" from x.cpp:42" /\ ~ In """"%char (file e) /\ ~ In zero (message e).
Proof. cbv zeta. split; [reflexivity|]. split; cbn; intuition discriminate. Qed.

Print Assumptions exception_text_line.
Print Assumptions exception_text_unique.
Print Assumptions exception_text_refuted.
Print Assumptions exception_null_file_refuted.

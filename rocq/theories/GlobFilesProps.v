(** Collecting files (C162). *)
From Coq Require Import List Ascii String Bool NArith ZArith Lia Permutation Sorted.
Import ListNotations.
From Verif Require Import GlobFiles TimestampText TimestampTextProps.
Open Scope list_scope.

(** ** The language of a pattern *)
Inductive lang : re -> name -> Prop :=
| L_eps : lang Eps []
| L_any c : lang Any [c]
| L_chr c : lang (Chr c) [c]
| L_cat r s a b : lang r a -> lang s b -> lang (Cat r s) (a ++ b)
| L_left r s a : lang r a -> lang (Alt r s) a
| L_right r s a : lang s a -> lang (Alt r s) a
| L_stop r : lang (Star r) []
| L_more r a b : lang r a -> lang (Star r) b -> lang (Star r) (a ++ b).
Lemma nullable_lang r : nullable r = true <-> lang r [].
Proof.
  induction r as [| | |c|r IHr s IHs|r IHr s IHs|r IH]; cbn; split; intros H; try discriminate; try (inversion H; fail); try solve [constructor].
  - apply andb_true_iff in H. destruct H as [A B]. change (@nil ascii) with (@nil ascii ++ []). constructor; [apply IHr|apply IHs]; assumption.
  - inversion H as [| | |? ? a b A B E1 E2| | | |]; subst. destruct a; [|discriminate]. cbn in E2. subst b. rewrite (proj2 IHr A), (proj2 IHs B). reflexivity.
  - apply orb_true_iff in H. destruct H as [A|A]; [apply L_left, IHr|apply L_right, IHs]; exact A.
  - apply orb_true_iff. inversion H; subst; [left; apply IHr|right; apply IHs]; assumption.
Qed.
Lemma star_cons r c s : lang (Star r) (c :: s) -> exists a b, s = a ++ b /\ lang r (c :: a) /\ lang (Star r) b.
Proof.
  remember (Star r) as x eqn:X. remember (c :: s) as y eqn:Y. intros H. revert X Y. induction H as [| | | | | | |r' a b A _ B IH]; try discriminate. intros X Y. injection X as ->.
  destruct a as [|c' a]; [apply IH; [reflexivity|exact Y]|]. cbn in Y. injection Y as -> <-. exists a, b. auto.
Qed.
Lemma deriv_lang c r : forall s, lang (deriv c r) s <-> lang r (c :: s).
Proof.
  induction r as [| | |d|r IHr t IHt|r IHr t IHt|r IH]; intros s; cbn [deriv].
  - split; intros H; inversion H.
  - split; intros H; inversion H.
  - split; intros H; inversion H; subst; constructor.
  - destruct (Ascii.eqb_spec c d) as [->|N]; split; intros H; inversion H; subst; try constructor; congruence.
  - assert (C : lang (Cat (deriv c r) t) s <-> exists a b, s = a ++ b /\ lang r (c :: a) /\ lang t b).
    { split.
      - intros H. inversion H as [| | |? ? a b A B E1 E2| | | |]; subst. exists a, b. split; [reflexivity|]. split; [apply IHr; exact A|exact B].
      - intros (a & b & -> & A & B). constructor; [apply IHr; exact A|exact B]. }
    assert (D : lang (Cat r t) (c :: s) <-> (exists a b, s = a ++ b /\ lang r (c :: a) /\ lang t b) \/ lang r [] /\ lang t (c :: s)).
    { split.
      - intros H. inversion H as [| | |? ? a b A B E1 E2| | | |]; subst. destruct a as [|c' a]; cbn in E2; [right; subst b; auto|]. injection E2 as -> <-. left. exists a, b. auto.
      - intros [(a & b & -> & A & B)|[A B]]; [apply (L_cat r t (c :: a) b); assumption|apply (L_cat r t [] (c :: s)); assumption]. }
    rewrite D. destruct (nullable r) eqn:N.
    + apply nullable_lang in N. split.
      * intros H. inversion H; subst; [left; apply C; assumption|right; split; [exact N|apply IHt; assumption]].
      * intros [H|[_ H]]; [apply L_left, C, H|apply L_right, IHt, H].
    + rewrite C. split; [auto|]. intros [H|[H _]]; [exact H|]. apply nullable_lang in H. congruence.
  - split; intros H; inversion H; subst; try (apply L_left, IHr; assumption); apply L_right, IHt; assumption.
  - split; intros H.
    + inversion H as [| | |? ? a b A B E1 E2| | | |]; subst. change (c :: a ++ b) with ((c :: a) ++ b). constructor; [apply IH; exact A|exact B].
    + destruct (star_cons _ _ _ H) as (a & b & -> & A & B). constructor; [apply IH; exact A|exact B].
Qed.
Theorem regex_correct r s : regex_match r s = true <-> lang r s.
Proof. revert r. induction s as [|c s IH]; intros r; cbn; [apply nullable_lang|]. rewrite IH. apply deriv_lang. Qed.

Lemma literal_lang x s : lang (literal x) s <-> s = x.
Proof.
  revert s. induction x as [|c x IH]; intros s; cbn.
  - split; intros H; [inversion H; reflexivity|subst; constructor].
  - split; intros H; [|subst; apply (L_cat (Chr c) (literal x) [c] x); [constructor|apply IH; reflexivity]].
    inversion H as [| | |? ? a b A B E1 E2| | | |]; subst. inversion A; subst. apply IH in B. subst. reflexivity.
Qed.
Lemma one_of_lang l s : lang (one_of l) s <-> In s l.
Proof.
  induction l as [|x l IH]; [cbn; split; [intros H; inversion H|tauto]|]. destruct l as [|y l].
  - cbn [one_of]. rewrite literal_lang. cbn. intuition congruence.
  - change (one_of (x :: y :: l)) with (Alt (literal x) (one_of (y :: l))). split; intros H.
    + inversion H; subst; [left; symmetry; apply literal_lang; assumption|right; apply IH; assumption].
    + destruct H as [<-|H]; [apply L_left, literal_lang; reflexivity|apply L_right, IH; exact H].
Qed.
Lemma any_star s : lang (Star Any) s.
Proof. induction s as [|c s IH]; [constructor|]. apply (L_more Any [c] s); [constructor|exact IH]. Qed.
Lemma extension_lang l s : lang (with_extension l) s <-> exists stem x, In x l /\ s = stem ++ "."%char :: x.
Proof.
  unfold with_extension. split.
  - intros H. inversion H as [| | |? ? a b A B E1 E2| | | |]; subst. inversion B as [| | |? ? p x P X E1 E2| | | |]; subst. inversion P; subst. apply one_of_lang in X. exists a, x. auto.
  - intros (a & x & X & ->). apply L_cat; [apply any_star|]. apply (L_cat (Chr ".") (one_of l) ["."%char] x); [constructor|apply one_of_lang; exact X].
Qed.
(** which file names the patterns accept *)
Theorem glob_images s : regex_match (pattern_re Images) s = true <->
  exists stem x, In x (map str ["jpg"; "JPG"; "png"; "PNG"; "bmp"; "BMP"]%string) /\ s = stem ++ str "." ++ x.
Proof. rewrite regex_correct. apply extension_lang. Qed.
Theorem glob_calibrations s : regex_match (pattern_re Calibrations) s = true <-> exists stem, s = stem ++ str ".cal".
Proof. rewrite regex_correct. unfold pattern_re. rewrite extension_lang. split; [intros (a & x & [<-|[]] & ->); exists a; reflexivity|intros (a & ->); exists a, (str "cal"); split; [left; reflexivity|reflexivity]]. Qed.
Theorem glob_boost s : regex_match (pattern_re BoostBinary) s = true <-> exists stem, s = stem ++ str ".BoostBinary".
Proof. rewrite regex_correct. unfold pattern_re. rewrite extension_lang. split; [intros (a & x & [<-|[]] & ->); exists a; reflexivity|intros (a & ->); exists a, (str "BoostBinary"); split; [left; reflexivity|reflexivity]]. Qed.
(** a mixed-case extension is overlooked *)
Theorem glob_case_refuted : regex_match (pattern_re Images) (str "photo.Jpg") = false /\ regex_match (pattern_re Images) (str "photo.jpeg") = false.
Proof. split; reflexivity. Qed.

(** ** Sorting *)
Lemma name_cmp_lex a b : name_cmp a b = lex a b.
Proof. reflexivity. Qed.
Lemma lex_antisym a b : lex b a = CompOpp (lex a b).
Proof. revert b. induction a as [|x a IH]; intros [|y b]; cbn; try reflexivity. rewrite N.compare_antisym. destruct (N.compare (N_of_ascii x) (N_of_ascii y)); cbn; auto. Qed.
Lemma lex_trans a b c : lex a b = Lt -> lex b c = Lt -> lex a c = Lt.
Proof.
  revert b c. induction a as [|x a IH]; intros [|y b] [|z c]; cbn; try discriminate; try reflexivity.
  destruct (N.compare_spec (N_of_ascii x) (N_of_ascii y)) as [E|L|G]; try discriminate; destruct (N.compare_spec (N_of_ascii y) (N_of_ascii z)) as [E'|L'|G']; try discriminate; intros A B; destruct (N.compare_spec (N_of_ascii x) (N_of_ascii z)); try reflexivity; try (exfalso; lia).
  apply (IH b); assumption.
Qed.
Lemma path_eq a b : path_cmp a b = Eq -> a = b.
Proof. revert b. induction a as [|x a IH]; intros [|y b]; cbn; try discriminate; [reflexivity|]. rewrite name_cmp_lex. destruct (lex x y) eqn:E; try discriminate. intros H. apply lex_eq in E. rewrite E, (IH b H). reflexivity. Qed.
Lemma path_antisym a b : path_cmp b a = CompOpp (path_cmp a b).
Proof. revert b. induction a as [|x a IH]; intros [|y b]; cbn; try reflexivity. change name_cmp with lex. rewrite (lex_antisym x y). destruct (lex x y); cbn; auto. Qed.
Lemma path_trans a b c : path_cmp a b = Lt -> path_cmp b c = Lt -> path_cmp a c = Lt.
Proof.
  revert b c. induction a as [|x a IH]; intros [|y b] [|z c]; cbn; try discriminate; try reflexivity. change name_cmp with lex.
  destruct (lex x y) eqn:E; try discriminate; destruct (lex y z) eqn:E'; try discriminate; intros A B.
  - apply lex_eq in E, E'. subst. rewrite lex_refl. apply (IH b); assumption.
  - apply lex_eq in E. subst. rewrite E'. reflexivity.
  - apply lex_eq in E'. subst. rewrite E. reflexivity.
  - rewrite (lex_trans _ _ _ E E'). reflexivity.
Qed.
Definition ple (a b : path) : Prop := path_cmp a b <> Gt.
Lemma ple_trans a b c : ple a b -> ple b c -> ple a c.
Proof.
  unfold ple. intros A B. destruct (path_cmp a b) eqn:E; [apply path_eq in E; subst; exact B| |congruence]. destruct (path_cmp b c) eqn:E'; [apply path_eq in E'; subst; congruence| |congruence]. rewrite (path_trans _ _ _ E E'). discriminate.
Qed.
Lemma ple_antisym a b : ple a b -> ple b a -> a = b.
Proof. unfold ple. rewrite (path_antisym a b). destruct (path_cmp a b) eqn:E; cbn; try congruence. intros _ _. apply path_eq. exact E. Qed.
Lemma insert_perm p l : Permutation (insert p l) (p :: l).
Proof. induction l as [|q l IH]; [apply Permutation_refl|]. cbn. destruct (path_cmp p q); try apply Permutation_refl. eapply perm_trans; [apply perm_skip, IH|apply perm_swap]. Qed.
Lemma sort_perm l : Permutation (sort l) l.
Proof. induction l as [|p l IH]; [constructor|]. cbn. eapply perm_trans; [apply insert_perm|apply perm_skip, IH]. Qed.
Lemma insert_sorted p l : StronglySorted ple l -> StronglySorted ple (insert p l).
Proof.
  induction l as [|q l IH]; intros S; [repeat constructor|]. cbn. inversion S as [|? ? S' F]; subst. destruct (path_cmp p q) eqn:E.
  - constructor; [exact S|]. constructor; [unfold ple; congruence|]. eapply Forall_impl; [|exact F]. intros r R. apply (ple_trans p q r); [unfold ple; congruence|exact R].
  - constructor; [exact S|]. constructor; [unfold ple; congruence|]. eapply Forall_impl; [|exact F]. intros r R. apply (ple_trans p q r); [unfold ple; congruence|exact R].
  - constructor; [apply IH, S'|]. eapply Permutation_Forall; [apply Permutation_sym, insert_perm|]. constructor; [unfold ple; rewrite path_antisym, E; discriminate|exact F].
Qed.
Lemma sort_sorted l : StronglySorted ple (sort l).
Proof. induction l as [|p l IH]; [constructor|]. cbn. apply insert_sorted, IH. Qed.
Lemma sorted_unique l : forall m, StronglySorted ple l -> StronglySorted ple m -> Permutation l m -> l = m.
Proof.
  induction l as [|p l IH]; intros m S T P; [apply Permutation_nil in P; congruence|]. destruct m as [|q m]; [apply Permutation_sym, Permutation_nil in P; discriminate|].
  inversion S as [|? ? S' F]; subst. inversion T as [|? ? T' G]; subst.
  assert (E : p = q).
  { assert (I : In p (q :: m)) by (eapply Permutation_in; [exact P|left; reflexivity]). assert (J : In q (p :: l)) by (eapply Permutation_in; [apply Permutation_sym, P|left; reflexivity]).
    destruct I as [I|I]; [congruence|]. destruct J as [J|J]; [congruence|]. rewrite Forall_forall in F, G. apply ple_antisym; auto. }
  subst q. f_equal. apply IH; try assumption. apply Permutation_cons_inv in P. exact P.
Qed.

(** ** C162 *)
(** what the caller asked for: the files of the directory that match, the subdirectories if wanted *)
Definition wanted (p : pattern) (e : entry) : Prop :=
  match p with
  | Directories => e_kind e = Directory \/ e_kind e = File /\ e_name e = []
  | Images => e_kind e = File /\ exists stem x, In x (map str ["jpg"; "JPG"; "png"; "PNG"; "bmp"; "BMP"]%string) /\ e_name e = stem ++ str "." ++ x
  | Calibrations => e_kind e = File /\ exists stem, e_name e = stem ++ str ".cal"
  | BoostBinary => e_kind e = File /\ exists stem, e_name e = stem ++ str ".BoostBinary"
  | OtherPattern => e_kind e = File /\ e_name e = []
  end.
Definition wants_directories (p : pattern) : bool := match p with Directories => true | _ => false end.
Lemma eps_match s : regex_match Eps s = true <-> s = [].
Proof. rewrite regex_correct. split; intros H; [inversion H; reflexivity|subst; constructor]. Qed.
Lemma selected_wanted p e : selected (pattern_re p) (wants_directories p) e = true <-> wanted p e.
Proof.
  unfold selected. destruct p; cbn [wanted wants_directories]; destruct (e_kind e) eqn:K; try rewrite glob_images; try rewrite glob_calibrations; try rewrite glob_boost; try (change (pattern_re Directories) with Eps; rewrite eps_match); try (change (pattern_re OtherPattern) with Eps; rewrite eps_match); intuition (try discriminate; auto).
Qed.
Lemma glob_pattern_eq dir k listing p files : glob_pattern dir k listing p files = glob dir k listing (pattern_re p) (wants_directories p) files.
Proof. destruct p; reflexivity. Qed.
(** from a directory one gets what one had and exactly the wanted entries, in order; otherwise an exception *)
Theorem glob_exact dir listing p files out : glob_pattern dir Directory listing p files = Some out ->
  (forall q, In q out <-> In q files \/ exists e, In e listing /\ wanted p e /\ q = dir ++ [e_name e]) /\ StronglySorted ple out.
Proof.
  rewrite glob_pattern_eq. unfold glob. set (l := files ++ _). intros H. assert (E : out = sort l) by (destruct (sort l); congruence). subst out. split; [|apply sort_sorted]. intros q.
  assert (X : In q (sort l) <-> In q l) by (split; apply Permutation_in; [apply sort_perm|apply Permutation_sym, sort_perm]). rewrite X. unfold l. rewrite in_app_iff, in_map_iff. split.
  - intros [I|(e & E & I)]; [left; exact I|]. apply filter_In in I. destruct I as [I S]. apply selected_wanted in S. right. exists e. auto.
  - intros [I|(e & I & W & E)]; [left; exact I|]. right. exists e. split; [congruence|]. apply filter_In. split; [exact I|]. apply selected_wanted. exact W.
Qed.
Theorem glob_fails dir listing p files : glob_pattern dir Directory listing p files = None <-> files = [] /\ forall e, In e listing -> ~ wanted p e.
Proof.
  rewrite glob_pattern_eq. unfold glob. set (l := files ++ _). assert (N : sort l = [] <-> l = []).
  { split; intros E; [assert (P := sort_perm l); rewrite E in P; apply Permutation_nil; exact P|rewrite E; reflexivity]. }
  transitivity (l = []); [rewrite <- N; destruct (sort l); intuition congruence|]. unfold l. split.
  - intros E. apply app_eq_nil in E. destruct E as [E F]. apply map_eq_nil in F. split; [exact E|]. intros e I W. apply selected_wanted in W. assert (X : In e []) by (rewrite <- F; apply filter_In; auto). destruct X.
  - intros [-> F]. cbn. replace (filter _ listing) with (@nil entry); [reflexivity|]. symmetry. clear N l. induction listing as [|e t IH]; [reflexivity|]. cbn. destruct (selected _ _ e) eqn:S; [apply selected_wanted in S; exfalso; apply (F e); [left; reflexivity|exact S]|]. apply IH. intros e' I. apply F. right. exact I.
Qed.
Lemma filter_perm {A} (f : A -> bool) l m : Permutation l m -> Permutation (filter f l) (filter f m).
Proof.
  induction 1 as [|x l m P IH|x y l|l m n P IH Q IH']; cbn; [constructor| | |].
  - destruct (f x); [apply perm_skip|]; exact IH.
  - destruct (f x), (f y); try apply perm_swap; apply Permutation_refl.
  - eapply perm_trans; eassumption.
Qed.
(** the order in which the file system lists the directory does not matter *)
Theorem glob_order dir k listing listing' p files files' : Permutation listing listing' -> Permutation files files' -> k = Directory ->
  glob_pattern dir k listing p files = glob_pattern dir k listing' p files'.
Proof.
  intros P Q ->. rewrite !glob_pattern_eq. unfold glob. rewrite (sorted_unique (sort (files ++ _)) (sort (files' ++ map (fun e => dir ++ [e_name e]) (filter (selected (pattern_re p) (wants_directories p)) listing')))); [reflexivity|apply sort_sorted|apply sort_sorted|].
  eapply perm_trans; [apply sort_perm|]. eapply perm_trans; [|apply Permutation_sym, sort_perm]. apply Permutation_app; [exact Q|]. apply Permutation_map, filter_perm, P.
Qed.
(** a path that is a file is appended unchecked *)
Theorem glob_file dir listing p files : glob_pattern dir File listing p files = Some (files ++ [dir]).
Proof. rewrite glob_pattern_eq. unfold glob. destruct files; reflexivity. Qed.
Theorem glob_missing dir listing p files : glob_pattern dir Missing listing p files = None.
Proof. rewrite glob_pattern_eq. reflexivity. Qed.
(** so a single file is taken whatever its name, even where directories were asked for, and a fruitless search is not reported if something was found before *)
Theorem glob_pattern_refuted : let f := [str "tmp"; str "notes.txt"] in
  glob_pattern f File [] Images [] = Some [f] /\ glob_pattern f File [] Directories [] = Some [f] /\
  glob_pattern [str "tmp"] Directory [Entry (str "notes.txt") File] Calibrations [[str "old.cal"]] = Some [[str "old.cal"]].
Proof. cbv zeta. repeat split; reflexivity. Qed.

(** numbered files come in the order of their numbers if these have the same number of digits *)
Theorem glob_numbered dir prefix suffix w n n' : (0 <= n < 10 ^ Z.of_nat w)%Z -> (0 <= n' < 10 ^ Z.of_nat w)%Z ->
  (n <= n')%Z <-> ple (dir ++ [prefix ++ show w n ++ suffix]) (dir ++ [prefix ++ show w n' ++ suffix]).
Proof.
  intros N N'. unfold ple. assert (D : forall d x y, path_cmp (d ++ [x]) (d ++ [y]) = lex x y).
  { intros d x y. induction d as [|e d IH]; cbn; rewrite name_cmp_lex; [destruct (lex x y); reflexivity|rewrite lex_refl; exact IH]. }
  rewrite D. rewrite lex_app by reflexivity. rewrite lex_refl. rewrite lex_app by (rewrite !show_length; reflexivity). rewrite show_lex by assumption.
  destruct (Z.compare_spec n n') as [->|L|G]; [rewrite lex_refl; split; [discriminate|lia]|split; [discriminate|lia]|split; [lia|congruence]].
Qed.
(** but not otherwise *)
Theorem glob_numbers_refuted : let d := [str "rec"] in let e s := Entry (str s) File in
  glob_pattern d Directory [e "img2.png"; e "img10.png"]%string Images [] = Some [[str "rec"; str "img10.png"]; [str "rec"; str "img2.png"]].
Proof. reflexivity. Qed.
Example glob_case : let d := [str "rec"] in
  glob_pattern d Directory [Entry (str "b.png") File; Entry (str "sub") Directory; Entry (str "a.jpg") File; Entry (str "c.txt") File; Entry (str "x.png") Missing] Images []
  = Some [[str "rec"; str "a.jpg"]; [str "rec"; str "b.png"]].
Proof. reflexivity. Qed.
Print Assumptions regex_correct. Print Assumptions glob_exact. Print Assumptions glob_fails. Print Assumptions glob_order. Print Assumptions glob_numbered. Print Assumptions glob_images. Print Assumptions glob_calibrations. Print Assumptions glob_boost.
Print Assumptions glob_file. Print Assumptions glob_missing. Print Assumptions glob_pattern_refuted. Print Assumptions glob_numbers_refuted. Print Assumptions glob_case_refuted.

(** * Properties C13, C44, C45, C46: reading the source *)
From Coq Require Import ZArith List Lia Bool String.
From Verif Require Import Base Reader.
Import ListNotations.
Open Scope Z_scope.
Local Notation length := List.length.

(** ** C13 *)
(** The directory of a path is its part up to and including the last slash, and this determines it. *)
Theorem c13_parent_directory : forall path d, file_parent_directory path = d <-> dir_prefix path d.
Proof.
  intros path d. split.
  - intros <-. apply parent_dir_prefix.
  - intros H. eapply dir_prefix_unique; [apply parent_dir_prefix|exact H].
Qed.

(** A relative include is opened at the directory of the current file followed by the name, and the
    new current directory is that of the opened file. *)
Theorem c13_include_opens : forall F r name dir r', include_file F r name dir = Some r' ->
  exists its h t, F (dir ++ name) = Some its /\ r_stack r' = h :: t /\
    e_rest h = its /\ dir_prefix (dir ++ name) (e_dir h).
Proof.
  intros F r name dir r' H. unfold include_file, str_concat in H.
  destruct (F (dir ++ name)) as [its|] eqn:E; [|discriminate]. injection H as <-.
  eexists its, _, _. split; [reflexivity|]. split; [reflexivity|]. split; [reflexivity|].
  apply parent_dir_prefix.
Qed.

Example c13_ex : file_parent_directory (zs "src/lib/a.c") = zs "src/lib/" /\
  file_parent_directory (zs "a.c") = [] /\ file_parent_directory (zs "/a") = zs "/" /\
  dir_prefix (zs "src/a.c") (zs "src/").
Proof.
  repeat split. exists (zs "a.c"). repeat split.
  - intros H. cbn in H. unfold SLASH in H. lia.
  - right. exists (zs "src"). reflexivity.
Qed.

(** ** C45 *)
(** The characters delivered from a source file are its text with every include replaced by the
    included text (recursively) and a newline, then EOF for ever. *)
Theorem c45_includes_spliced : forall F path its d o r,
  (forall p its, F p = Some its -> real_chars its) ->
  F path = Some its -> dir_prefix path d -> expands F d its o ->
  open_main F path = Some r -> delivers (gets F) r o.
Proof.
  intros F path its d o r HF Hp Hd Ho Hr. unfold open_main, include_file, str_concat in Hr.
  rewrite app_nil_l, Hp in Hr. cbn [r_stack] in Hr. injection Hr as <-.
  assert (d = file_parent_directory path) as -> by (eapply dir_prefix_unique; [exact Hd|apply parent_dir_prefix]).
  match goal with |- delivers _ ?r _ => set (r0 := r) end.
  destruct (expands_reads F HF _ _ _ Ho (HF _ _ Hp) r0
    {| e_rest := its; e_dir := file_parent_directory path; e_line := 1; e_col := 0 |} [] [])
    as (r' & h' & R & S' & E' & _); [reflexivity|symmetry; apply app_nil_r|reflexivity|].
  exists r', r'. split; [exact R|].
  assert (G : gets F r' EOFc r').
  { exists 1%nat. cbn [get_ch]. rewrite S', E'. reflexivity. }
  auto.
Qed.

(** Several files on the command line are pushed in order, so they are read last one first. *)
Theorem c45_command_line_order : forall F p1 p2 its1 its2 d1 d2 o1 o2 r1 r2,
  (forall p its, F p = Some its -> real_chars its) ->
  F p1 = Some its1 -> F p2 = Some its2 -> dir_prefix p1 d1 -> dir_prefix p2 d2 ->
  expands F d1 its1 o1 -> expands F d2 its2 o2 ->
  open_main F p1 = Some r1 -> include_file F r1 p2 [] = Some r2 ->
  delivers (gets F) r2 (o2 ++ NL :: o1).
Proof.
  intros F p1 p2 its1 its2 d1 d2 o1 o2 r1 r2 HF H1 H2 D1 D2 E1 E2 Hr1 Hr2.
  unfold open_main, include_file, str_concat in Hr1, Hr2.
  rewrite app_nil_l, H1 in Hr1. cbn [r_stack] in Hr1. injection Hr1 as <-.
  rewrite app_nil_l, H2 in Hr2. cbn [r_stack] in Hr2. injection Hr2 as <-. cbn [e_rest e_dir r_line r_col].
  assert (d1 = file_parent_directory p1) as -> by (eapply dir_prefix_unique; [exact D1|apply parent_dir_prefix]).
  assert (d2 = file_parent_directory p2) as -> by (eapply dir_prefix_unique; [exact D2|apply parent_dir_prefix]).
  match goal with |- delivers _ ?r _ => set (r0 := r) end.
  set (e1 := {| e_rest := its1; e_dir := file_parent_directory p1; e_line := 1; e_col := 1 |}).
  destruct (expands_reads F HF _ _ _ E2 (HF _ _ H2) r0
    {| e_rest := its2; e_dir := file_parent_directory p2; e_line := 1; e_col := 0 |} [e1] [])
    as (r' & h' & R & S' & E' & _); [reflexivity|symmetry; apply app_nil_r|reflexivity|].
  set (r3 := {| r_stack := [e1]; r_line := 1; r_col := 1 |}).
  assert (G : gets F r' NL r3).
  { exists 1%nat. cbn [get_ch]. rewrite S', E'. reflexivity. }
  destruct (expands_reads F HF _ _ _ E1 (HF _ _ H1) r3 e1 [] [])
    as (r4 & h4 & R4 & S4 & E4 & _); [reflexivity|symmetry; apply app_nil_r|reflexivity|].
  exists r4, r4. split.
  - eapply reads_app; [exact R|]. econstructor; [exact G|discriminate|exact R4].
  - assert (G4 : gets F r4 EOFc r4).
    { exists 1%nat. cbn [get_ch]. rewrite S4, E4. reflexivity. }
    auto.
Qed.

(** Reading is deterministic, so "delivers" describes the only possible run. *)
Theorem c45_deterministic : forall F r c1 r1 c2 r2, gets F r c1 r1 -> gets F r c2 r2 -> c1 = c2 /\ r1 = r2.
Proof. exact gets_fun. Qed.

(** ** C46: the line number used in messages *)
(** After reading a prefix [a] of a file (with everything it includes), the line number is one more
    than the number of newlines of that file read so far, and the files including it are untouched. *)
Theorem c46_line_number : forall F dir a b o r h t,
  (forall p its, F p = Some its -> real_chars its) -> real_chars a ->
  r_stack r = h :: t -> e_rest h = a ++ b -> e_dir h = dir -> expands F dir a o ->
  exists r' h', reads (gets F) r o r' /\ r_stack r' = h' :: t /\ e_rest h' = b /\
    r_line r' = r_line r + own_lines a.
Proof.
  intros F dir a b o r h t HF Ha Hs Hr Hd He.
  destruct (expands_reads F HF dir a o He Ha r h t b Hs Hr Hd) as (r' & h' & R & S' & E' & _ & L').
  exists r', h'. auto.
Qed.

(** A file starts at line 1, and leaving it restores the line of the file that included it. *)
Theorem c46_include_and_return : forall F r name r' h t, r_stack r = h :: t ->
  include_file F r name (e_dir h) = Some r' ->
  r_line r' = 1 /\ exists e h', r_stack r' = e :: h' :: t /\ e_rest h' = e_rest h /\
    forall r2 e2, r_stack r2 = e2 :: h' :: t -> e_rest e2 = [] ->
      exists r3, gets F r2 NL r3 /\ r_line r3 = r_line r /\ r_stack r3 = h' :: t.
Proof.
  intros F r name r' h t Hs H. unfold include_file in H. destruct (F _) as [its|]; [|discriminate].
  rewrite Hs in H. injection H as <-. split; [reflexivity|].
  eexists _, _. split; [reflexivity|]. split; [reflexivity|].
  intros r2 e2 Hs2 He2. eexists. split; [exists 1%nat; cbn [get_ch]; rewrite Hs2, He2; reflexivity|].
  split; reflexivity.
Qed.

(** The column number is not the number of characters since the line start: on the first line of a
    file it is one too large, on the following ones it is right. *)
Theorem c46_column_refuted : exists F path r r1 r3,
  open_main F path = Some r /\ gets F r 97 r1 /\ r_col r1 = 2 /\
  reads (gets F) r [97; NL; 97] r3 /\ r_col r3 = 1.
Proof.
  exists (fun _ => Some [Ch 97; Ch NL; Ch 97]), []. eexists _, _, _.
  split; [reflexivity|]. split; [exists 1%nat; reflexivity|]. split; [reflexivity|]. split.
  - econstructor; [exists 1%nat; reflexivity|discriminate|].
    econstructor; [exists 1%nat; reflexivity|discriminate|].
    econstructor; [exists 1%nat; reflexivity|discriminate|constructor].
  - reflexivity.
Qed.

(** Non-vacuity: d/m.c includes "s/h" which includes "k", found next to it. *)
Definition exfs : fs := fun p =>
  if list_eq_dec Z.eq_dec p (zs "d/m.c") then Some [Ch 97; Ch NL; Inc (zs "s/h"); Ch 98]
  else if list_eq_dec Z.eq_dec p (zs "d/s/h") then Some [Inc (zs "k"); Ch 99]
  else if list_eq_dec Z.eq_dec p (zs "d/s/k") then Some [Ch 100; Ch NL] else None.
Lemma exfs_real : forall p its, exfs p = Some its -> real_chars its.
Proof.
  intros p its. unfold exfs. repeat destruct (list_eq_dec _ _ _); intros [= <-];
  repeat (apply Forall_cons; [try exact I; discriminate|]); apply Forall_nil.
Qed.
Lemma dp_ex a b : ~ In SLASH b -> dir_prefix ((a ++ [SLASH]) ++ b) (a ++ [SLASH]).
Proof. intros. exists b. split; [reflexivity|]. split; [assumption|]. right. eauto. Qed.
Example c45_ex : exists r, exfs (zs "d/m.c") = Some [Ch 97; Ch NL; Inc (zs "s/h"); Ch 98] /\
  dir_prefix (zs "d/m.c") (zs "d/") /\
  expands exfs (zs "d/") [Ch 97; Ch NL; Inc (zs "s/h"); Ch 98] [97; 10; 100; 10; 10; 99; 10; 98] /\
  open_main exfs (zs "d/m.c") = Some r.
Proof.
  eexists. split; [reflexivity|]. split.
  { apply (dp_ex (zs "d") (zs "m.c")). cbn. unfold SLASH. lia. }
  split; [|reflexivity].
  do 2 constructor. change [100; 10; 10; 99; 10; 98] with ([100; 10; 10; 99] ++ NL :: [98]).
  econstructor; [reflexivity|apply (dp_ex (zs "d/s") (zs "h")); cbn; unfold SLASH; lia| |].
  - change [100; 10; 10; 99] with ([100; 10] ++ NL :: [99]).
    econstructor; [reflexivity|apply (dp_ex (zs "d/s") (zs "k")); cbn; unfold SLASH; lia| |].
    + repeat constructor.
    + repeat constructor.
  - repeat constructor.
Qed.

(** ** C44 *)
Theorem c44_splice_partial : forall l, Forall (fun c => c <> EOFc) l -> no_double l ->
  delivers gets_lc (l, None) (splice l).
Proof. intros l. now apply (splice_delivers (length l)). Qed.

(** A backslash just before a backslash-newline: C removes the pair, the code keeps it. *)
Theorem c44_double_backslash_refuted : exists l o, Forall (fun c => c <> EOFc) l /\ splice l = [92; 97] /\ delivers gets_lc (l, None) o /\ o = [92; 92; 10; 97].
Proof.
  exists [92; 92; 10; 97], [92; 92; 10; 97]. split; [repeat constructor; discriminate|].
  split; [reflexivity|]. split; [|reflexivity]. exists ([], None), ([], None). split.
  - do 4 (econstructor; [exists 1%nat; reflexivity|discriminate|]). constructor.
  - split; exists 1%nat; reflexivity.
Qed.

Example c44_ex : no_double (zs "#define A \" ++ [10] ++ zs "  1\n" ++ [92; 10; 92; 10; 120]) /\
  splice (zs "#define A \" ++ [10] ++ zs "  1\n" ++ [92; 10; 92; 10; 120]) = zs "#define A   1\nx".
Proof.
  split; [|vm_compute; reflexivity]. vm_compute. repeat split; intros (H1 & H2 & H3); discriminate.
Qed.

Print Assumptions c13_parent_directory.
Print Assumptions c13_include_opens.
Print Assumptions c44_splice_partial.
Print Assumptions c45_includes_spliced.
Print Assumptions c45_command_line_order.
Print Assumptions c46_line_number.
Print Assumptions c46_include_and_return.

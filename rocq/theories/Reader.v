(** * Source reading: paths, include stack, line numbers, line continuation (pnut.c:740-962) *)
From Coq Require Import ZArith List Lia Bool.
From Verif Require Import Base.
Import ListNotations.
Open Scope Z_scope.

Definition NL := 10.
Definition SLASH := 47.
Definition BACKSLASH := 92.
Definition EOFc := -1.

(** ** Paths (pnut.c:892-928).  A path is the list of its characters, without the NUL. *)

(** pnut.c:892-898 [substr]. *)
Definition substr (s : list Z) (start end_ : Z) : list Z :=
  firstn (Z.to_nat (end_ - start)) (skipn (Z.to_nat start) s).

(** pnut.c:900-908 [str_concat]. *)
Definition str_concat (s1 s2 : list Z) : list Z := s1 ++ s2.

(** pnut.c:914-919: the scan of [file_parent_directory]. *)
Fixpoint scan_slash (s : list Z) (i last : Z) : Z :=
  match s with
  | [] => last
  | c :: r => scan_slash r (i + 1) (if c =? SLASH then i else last)
  end.

(** pnut.c:913-928 [file_parent_directory]. *)
Definition file_parent_directory (path : list Z) : list Z :=
  let last := scan_slash path 0 (-1) in
  if last =? -1 then [] else substr path 0 (last + 1).

(** ** The include stack *)

(** A source file as the reader sees it: characters, and the points at which the tokenizer has
    just finished an #include directive and calls [include_file] with the given name
    (pnut.c:1420-1446; what the directive's own characters look like does not matter here). *)
Inductive item := Ch (c : Z) | Inc (name : list Z).

(** struct IncludeStack (pnut.c:150-160): unread part of [fp], [dirname], saved position. *)
Record entry := { e_rest : list item; e_dir : list Z; e_line : Z; e_col : Z }.

(** Globals: the stack (its head is [include_stack]), [line_number], [column_number]. *)
Record reader := { r_stack : list entry; r_line : Z; r_col : Z }.

Definition fs := list Z -> option (list item).

(** pnut.c:930-962 [fopen_source_file] and [include_file]; [None] is the fatal error
    "Could not open file".  The path opened is [relative_to] followed by the name. *)
Definition include_file (F : fs) (r : reader) (name relative_to : list Z) : option reader :=
  let path := str_concat relative_to name in
  match F path with
  | None => None
  | Some its =>
      let e := {| e_rest := its; e_dir := file_parent_directory path; e_line := 1; e_col := 0 |} in
      let old := match r_stack r with
                 | [] => []
                 | h :: t => {| e_rest := e_rest h; e_dir := e_dir h; e_line := r_line r; e_col := r_col r |} :: t
                 end in
      Some {| r_stack := e :: old; r_line := 1; r_col := 1 |}
  end.

(** pnut.c:828-857 [get_ch] without line continuation: the character read and the new state.
    When the tokenizer reaches an [Inc] point the include is performed first, relative to the
    directory of the current file (pnut.c:1422).  [None]: fatal error, or out of fuel. *)
Fixpoint get_ch (fuel : nat) (F : fs) (r : reader) : option (Z * reader) :=
  match fuel with
  | O => None
  | S f =>
    match r_stack r with
    | [] => None
    | h :: t =>
      match e_rest h with
      | Inc name :: rest =>
          let h' := {| e_rest := rest; e_dir := e_dir h; e_line := e_line h; e_col := e_col h |} in
          match include_file F {| r_stack := h' :: t; r_line := r_line r; r_col := r_col r |} name (e_dir h) with
          | Some r' => get_ch f F r'
          | None => None
          end
      | Ch c :: rest =>
          let h' := {| e_rest := rest; e_dir := e_dir h; e_line := e_line h; e_col := e_col h |} in
          if c =? NL
          then Some (c, {| r_stack := h' :: t; r_line := r_line r + 1; r_col := 0 |})
          else Some (c, {| r_stack := h' :: t; r_line := r_line r; r_col := r_col r + 1 |})
      | [] =>
          match t with
          | [] => Some (EOFc, r)
          | h2 :: _ => Some (NL, {| r_stack := t; r_line := e_line h2; r_col := e_col h2 |})
          end
      end
    end
  end.

(** main opens the file named on the command line (pnut.c:4065-4072: include_file(argv[i], 0)). *)
Definition open_main (F : fs) (path : list Z) : option reader :=
  include_file F {| r_stack := []; r_line := 1; r_col := 0 |} path [].

(** ** Line continuation (pnut.c:799-823), on one file: unread characters and the saved character *)
Definition lc_state := (list Z * option Z)%type.
Definition read_raw (l : list Z) : Z * list Z :=
  match l with [] => (EOFc, []) | c :: r => (c, r) end.

Fixpoint get_ch_lc_loop (fuel : nat) (l : list Z) : option (Z * lc_state) :=
  match fuel with
  | O => None
  | S f =>
      let '(ch, l) := read_raw l in
      if ch =? BACKSLASH then
        let '(ch, l) := read_raw l in
        if ch =? NL then get_ch_lc_loop f l
        else Some (BACKSLASH, (l, Some ch))
      else Some (ch, (l, None))
  end.
Definition get_ch_lc (fuel : nat) (s : lc_state) : option (Z * lc_state) :=
  match s with
  | (l, Some ch) => Some (ch, (l, None))
  | (l, None) => get_ch_lc_loop fuel l
  end.

(** ** Specifications *)

(** The directory prefix of a path: [d] ends the path's last slash, or is empty. *)
Definition dir_prefix (path d : list Z) : Prop :=
  exists base, path = d ++ base /\ ~ In SLASH base /\ (d = [] \/ exists d', d = d' ++ [SLASH]).

(** What a file with includes expands to: included text, then a newline. *)
Inductive expands (F : fs) : list Z -> list item -> list Z -> Prop :=
| ex_nil dir : expands F dir [] []
| ex_ch dir c r o : expands F dir r o -> expands F dir (Ch c :: r) (c :: o)
| ex_inc dir name r its d o1 o2 :
    F (dir ++ name) = Some its -> dir_prefix (dir ++ name) d ->
    expands F d its o1 -> expands F dir r o2 ->
    expands F dir (Inc name :: r) (o1 ++ NL :: o2).

(** [reads step s o s']: successive calls give the characters [o] and lead to state [s']. *)
Inductive reads {S : Type} (step : S -> Z -> S -> Prop) : S -> list Z -> S -> Prop :=
| rd_nil s : reads step s [] s
| rd_cons s c s1 o s2 : step s c s1 -> c <> EOFc -> reads step s1 o s2 -> reads step s (c :: o) s2.

(** [delivers step s o]: successive calls give the characters [o], then EOF for ever. *)
Definition delivers {S : Type} (step : S -> Z -> S -> Prop) (s : S) (o : list Z) : Prop :=
  exists s1 s2, reads step s o s1 /\ step s1 EOFc s2 /\ step s2 EOFc s2.

(** Newlines of the file itself, not of what it includes. *)
Fixpoint own_lines (l : list item) : Z :=
  match l with
  | [] => 0
  | Ch c :: r => (if c =? NL then 1 else 0) + own_lines r
  | Inc _ :: r => own_lines r
  end.

(** All characters in the file system are characters, not EOF. *)
Definition real_chars (l : list item) : Prop := Forall (fun i => match i with Ch c => c <> EOFc | Inc _ => True end) l.

(** Removing backslash-newline pairs (C11 5.1.1.2, phase 2). *)
Fixpoint splice (l : list Z) : list Z :=
  match l with
  | [] => []
  | c :: r => if c =? BACKSLASH then
                match r with
                | d :: r' => if d =? NL then splice r' else c :: splice r
                | [] => [c]
                end
              else c :: splice r
  end.

(** ** Proofs: paths *)
Lemma scan_slash_ok s : forall i last,
  (~ In SLASH s -> scan_slash s i last = last) /\
  (forall a b, s = a ++ SLASH :: b -> ~ In SLASH b -> scan_slash s i last = i + Z.of_nat (length a)).
Proof.
  induction s as [|c s IH]; intros i last; cbn [scan_slash].
  - split; [reflexivity|]. intros a b E. destruct a; discriminate.
  - split.
    + intros H. destruct (Z.eqb_spec c SLASH) as [->|]; [exfalso; apply H; now left|].
      apply IH. intros ?. apply H. now right.
    + intros a b E Hb. destruct a as [|x a]; cbn [app] in E; injection E as -> ->.
      * rewrite Z.eqb_refl. rewrite (proj1 (IH _ _) Hb). cbn. lia.
      * rewrite (proj2 (IH (i + 1) _) a b eq_refl Hb). cbn [length]. lia.
Qed.

Lemma last_slash s : ~ In SLASH s \/ exists a b, s = a ++ SLASH :: b /\ ~ In SLASH b.
Proof.
  induction s as [|c s IH]; [left; tauto|].
  destruct IH as [Hn|(a & b & -> & Hb)].
  - destruct (Z.eq_dec c SLASH) as [->|].
    + right. exists [], s. auto.
    + left. intros [?|?]; [congruence|tauto].
  - right. exists (c :: a), b. auto.
Qed.

Lemma parent_dir_prefix path : dir_prefix path (file_parent_directory path).
Proof.
  unfold file_parent_directory. destruct (last_slash path) as [Hn|(a & b & -> & Hb)].
  - rewrite (proj1 (scan_slash_ok path 0 (-1)) Hn). cbn. exists path. cbn. auto.
  - rewrite (proj2 (scan_slash_ok _ 0 (-1)) a b eq_refl Hb).
    destruct (Z.eqb_spec (0 + Z.of_nat (length a)) (-1)); [lia|].
    unfold substr. cbn [skipn Z.to_nat].
    replace (Z.to_nat (0 + Z.of_nat (length a) + 1 - 0)) with (length (a ++ [SLASH]))
      by (rewrite app_length; cbn; lia).
    exists b. replace (a ++ SLASH :: b) with ((a ++ [SLASH]) ++ b) by (rewrite <- app_assoc; reflexivity).
    rewrite firstn_app, firstn_all, Nat.sub_diag. cbn [firstn]. rewrite app_nil_r. split; [reflexivity|].
    split; [exact Hb|]. right. eauto.
Qed.

Lemma dir_prefix_unique path d1 d2 : dir_prefix path d1 -> dir_prefix path d2 -> d1 = d2.
Proof.
  assert (K : forall d1 b1 d2 b2, d1 ++ b1 = d2 ++ b2 -> ~ In SLASH b1 ->
     (d2 = [] \/ exists d', d2 = d' ++ [SLASH]) -> (length d2 <= length d1)%nat).
  { intros e1 b1 e2 b2 E Hb [->|(d' & ->)]; [cbn; lia|].
    destruct (Nat.le_gt_cases (length (d' ++ [SLASH])) (length e1)) as [|Hgt]; [assumption|exfalso].
    rewrite app_length in Hgt. cbn in Hgt.
    apply Hb. 
    assert (Hs : skipn (length e1) (e1 ++ b1) = skipn (length e1) ((d' ++ [SLASH]) ++ b2)) by now rewrite E.
    rewrite skipn_app, skipn_all, Nat.sub_diag in Hs. cbn [skipn app] in Hs.
    rewrite <- app_assoc in Hs. rewrite skipn_app in Hs.
    replace (length e1 - length d')%nat with O in Hs by lia. cbn [skipn app] in Hs.
    rewrite Hs. apply in_app_iff. right. now left. }
  intros (b1 & E1 & H1 & D1) (b2 & E2 & H2 & D2).
  assert (E : d1 ++ b1 = d2 ++ b2) by congruence.
  assert (length d1 = length d2).
  { apply Nat.le_antisymm; [apply (K d2 b2 d1 b1)|apply (K d1 b1 d2 b2)]; auto. }
  clear - E H. revert d2 E H. induction d1 as [|x d1 IH]; intros [|y d2] E H; try discriminate; auto.
  cbn in *. injection E as -> E. f_equal. apply IH; auto.
Qed.

(** ** Proofs: include stack *)
Definition gets (F : fs) (r : reader) (c : Z) (r' : reader) : Prop :=
  exists fuel, get_ch fuel F r = Some (c, r').

Lemma get_ch_mono F : forall fuel fuel' r x, get_ch fuel F r = Some x -> (fuel <= fuel')%nat ->
  get_ch fuel' F r = Some x.
Proof.
  induction fuel as [|f IH]; intros fuel' r x H Hf; [discriminate|]. destruct fuel' as [|f']; [lia|].
  cbn [get_ch] in *. destruct (r_stack r) as [|h t]; [discriminate|].
  destruct (e_rest h) as [|[c|name] rest]; auto.
  destruct (include_file _ _ _ _) as [r'|]; [|discriminate]. apply IH; [exact H|lia].
Qed.

Lemma gets_fun F r c1 r1 c2 r2 : gets F r c1 r1 -> gets F r c2 r2 -> c1 = c2 /\ r1 = r2.
Proof.
  intros (f1 & H1) (f2 & H2).
  apply get_ch_mono with (fuel' := (f1 + f2)%nat) in H1; [|lia].
  apply get_ch_mono with (fuel' := (f1 + f2)%nat) in H2; [|lia].
  rewrite H1 in H2. injection H2 as -> ->. auto.
Qed.

Lemma reads_app {S} (step : S -> Z -> S -> Prop) s1 o1 s2 o2 s3 :
  reads step s1 o1 s2 -> reads step s2 o2 s3 -> reads step s1 (o1 ++ o2) s3.
Proof.
  induction 1 as [|s c s' o s'' Hs Hc _ IH]; intros H2; [exact H2|].
  cbn [app]. econstructor; eauto.
Qed.

Lemma reads_first {S} (step : S -> Z -> S -> Prop) s s' o s2 :
  (forall c s1, step s' c s1 -> step s c s1) -> o <> [] -> reads step s' o s2 -> reads step s o s2.
Proof. intros H Hne R. inversion R; subst; [congruence|]. econstructor; eauto. Qed.

Lemma gets_ch F r h t c rest : r_stack r = h :: t -> e_rest h = Ch c :: rest ->
  gets F r c {| r_stack := {| e_rest := rest; e_dir := e_dir h; e_line := e_line h; e_col := e_col h |} :: t;
                r_line := r_line r + (if c =? NL then 1 else 0);
                r_col := if c =? NL then 0 else r_col r + 1 |}.
Proof.
  intros Hs Hr. exists 1%nat. cbn [get_ch]. rewrite Hs, Hr. destruct (Z.eqb_spec c NL); [reflexivity|].
  now rewrite Z.add_0_r.
Qed.

Lemma expands_real F dir a o : expands F dir a o ->
  real_chars a -> (forall p its, F p = Some its -> real_chars its) -> Forall (fun c => c <> EOFc) o.
Proof.
  induction 1 as [dir|dir c r o _ IH|dir name r its d o1 o2 HF _ _ IH1 _ IH2]; intros Ha HFr.
  - constructor.
  - inversion Ha; subst. constructor; auto.
  - inversion Ha; subst. apply Forall_app. split; [eauto|]. constructor; [discriminate|auto].
Qed.

Lemma expands_reads F : (forall p its, F p = Some its -> real_chars its) ->
  forall dir a o, expands F dir a o -> real_chars a ->
  forall r h t b, r_stack r = h :: t -> e_rest h = a ++ b -> e_dir h = dir ->
  exists r' h', reads (gets F) r o r' /\ r_stack r' = h' :: t /\ e_rest h' = b /\ e_dir h' = dir /\
    r_line r' = r_line r + own_lines a.
Proof.
  intros HF. induction 1 as [dir|dir c r0 o _ IH|dir name r0 its d o1 o2 HFn Hd _ IH1 _ IH2];
    intros Hreal r h t b Hs Hr Hdir.
  - exists r, h. split; [constructor|]. cbn [app own_lines] in *. repeat split; auto. lia.
  - inversion Hreal; subst. cbn [app] in Hr.
    pose proof (gets_ch F r h t c (r0 ++ b) Hs Hr) as G.
    match type of G with gets _ _ _ ?r1 =>
      match r1 with context [?hh :: t] =>
        destruct (IH ltac:(assumption) r1 hh t b eq_refl eq_refl eq_refl)
          as (r' & h' & R & S' & E' & D' & L') end end.
    exists r', h'. split; [econstructor; eassumption|]. cbn [own_lines] in *.
    repeat split; auto. rewrite L'. cbn [r_line]. lia.
  - inversion Hreal; subst. cbn [app] in Hr.
    set (h1 := {| e_rest := r0 ++ b; e_dir := e_dir h; e_line := r_line r; e_col := r_col r |}).
    set (e := {| e_rest := its; e_dir := file_parent_directory (e_dir h ++ name); e_line := 1; e_col := 0 |}).
    set (r1 := {| r_stack := e :: h1 :: t; r_line := 1; r_col := 1 |}).
    assert (T : forall c s1, gets F r1 c s1 -> gets F r c s1).
    { intros c s1 (fuel & G). exists (S fuel). cbn [get_ch]. rewrite Hs, Hr.
      unfold include_file, str_concat. rewrite HFn. exact G. }
    assert (d = file_parent_directory (e_dir h ++ name)) as ->
      by (eapply dir_prefix_unique; [exact Hd|apply parent_dir_prefix]).
    destruct (IH1 (HF _ _ HFn) r1 e (h1 :: t) []) as (r2 & h2 & R2 & S2 & E2 & D2 & L2);
      [reflexivity|symmetry; apply app_nil_r|reflexivity|].
    set (r3 := {| r_stack := h1 :: t; r_line := r_line r; r_col := r_col r |}).
    assert (G3 : gets F r2 NL r3).
    { exists 1%nat. cbn [get_ch]. rewrite S2, E2. reflexivity. }
    destruct (IH2 ltac:(assumption) r3 h1 t b) as (r4 & h4 & R4 & S4 & E4 & D4 & L4);
      [reflexivity|reflexivity|reflexivity|].
    exists r4, h4. split; [|repeat split; auto].
    + eapply reads_first; [exact T|destruct o1; discriminate|].
      eapply reads_app; [exact R2|]. econstructor; [exact G3|discriminate|exact R4].
Qed.

(** ** Proofs: line continuation *)
Definition gets_lc (s : lc_state) (c : Z) (s' : lc_state) : Prop :=
  exists fuel, get_ch_lc fuel s = Some (c, s').

(** No backslash immediately before a backslash-newline. *)
Fixpoint no_double (l : list Z) : Prop :=
  match l with
  | [] => True
  | c :: r => match r with
              | d :: e :: _ => ~ (c = BACKSLASH /\ d = BACKSLASH /\ e = NL)
              | _ => True
              end /\ no_double r
  end.

Lemma gets_lc_skip l c s : gets_lc (l, None) c s -> gets_lc (BACKSLASH :: NL :: l, None) c s.
Proof. intros (f & H). exists (S f). exact H. Qed.

Lemma splice_delivers : forall n l, (length l <= n)%nat -> Forall (fun c => c <> EOFc) l -> no_double l ->
  delivers gets_lc (l, None) (splice l).
Proof.
  induction n as [|n IH]; intros l Hl Hc Hd.
  - destruct l; [|cbn in Hl; lia]. exists ([], None), ([], None). split; [constructor|].
    split; exists 1%nat; reflexivity.
  - destruct l as [|c l].
    { exists ([], None), ([], None). split; [constructor|]. split; exists 1%nat; reflexivity. }
    inversion Hc; subst. cbn [length] in Hl. cbn [no_double] in Hd. destruct Hd as (Hd1 & Hd2).
    cbn [splice]. destruct (Z.eqb_spec c BACKSLASH) as [->|Hne].
    + destruct l as [|d l].
      * exists ([], Some EOFc), ([], None). split.
        -- econstructor; [exists 1%nat; reflexivity|discriminate|constructor].
        -- split; exists 1%nat; reflexivity.
      * destruct (Z.eqb_spec d NL) as [->|Hd].
        -- destruct (IH l) as (s1 & s2 & R & E1 & E2); [cbn [length] in Hl; lia|inversion H2; auto|cbn [no_double] in Hd2; tauto|].
           destruct (splice l) as [|x o] eqn:Es.
           ++ inversion R; subst. exists (BACKSLASH :: NL :: l, None), s2. split; [constructor|].
              split; [now apply gets_lc_skip|assumption].
           ++ inversion R; subst. exists s1, s2. split; [|auto].
              econstructor; [apply gets_lc_skip; eassumption|assumption|assumption].
        -- (* backslash followed by something else: two characters *)
           inversion H2; subst.
           assert (Hsp : splice (d :: l) = d :: splice l).
           { cbn [splice]. destruct (Z.eqb_spec d BACKSLASH) as [->|]; [|reflexivity].
             destruct l as [|e l]; [reflexivity|]. destruct (Z.eqb_spec e NL) as [->|]; [|reflexivity].
             exfalso. apply Hd1. auto. }
           rewrite Hsp.
           destruct (IH l) as (s1 & s2 & R & E1 & E2); [cbn [length] in Hl; lia|assumption|cbn [no_double] in Hd2; tauto|].
           exists s1, s2. split; [|auto].
           econstructor.
           ++ exists 1%nat. cbn [get_ch_lc get_ch_lc_loop read_raw]. rewrite Z.eqb_refl.
              destruct (Z.eqb_spec d NL); [contradiction|reflexivity].
           ++ discriminate.
           ++ econstructor; [exists 1%nat; reflexivity|assumption|exact R].
    + destruct (IH l) as (s1 & s2 & R & E1 & E2); [lia|assumption|assumption|].
      exists s1, s2. split; [|auto]. econstructor; [|eassumption|exact R].
      exists 1%nat. cbn [get_ch_lc get_ch_lc_loop read_raw].
      destruct (Z.eqb_spec c BACKSLASH); [contradiction|reflexivity].
Qed.

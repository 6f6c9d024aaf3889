(** * #define and #undef: model of handle_define (pnut.c:1232-1271) and of the #undef case of
      handle_preprocessor_directive (pnut.c:1496-1507)

    The symbol table holds two cells per name: its kind (heap[val + 2]) and, for a macro, its definition (heap[val + 3]).
    The directive's line is given as its tokens, read with macro expansion off and up to the new-line (get_tok_macro,
    pnut.c:1158-1172).  Simplification: the value of a token that is neither a name nor a literal is not recorded in the
    replacement list (nothing looks at it). *)
From Coq Require Import ZArith List Lia Bool Arith.
From Verif Require Import Macro.
Import ListNotations.
Local Notation length := List.length.

(** ** Model *)
(** The kind of a name: keyword (300-499), IDENTIFIER (500), TYPE (501), MACRO (502). *)
Inductive kind := KKey | KId | KType | KMac.
Definition is_mac (k : kind) : bool := match k with KMac => true | _ => false end.
(** A token of the line: a name, a literal (kind and value) or a punctuator (C is its code, 44 a comma, 41 a closing parenthesis). *)
Inductive ptok := PId (n : name) | PLit (c v : Z) | PPun (c : Z).
Definition HASH_HASH : Z := 256.    (* any code other than those of the punctuators used here *)
(** The global [val]: the last name or the last literal's value. *)
Inductive vl := VN (n : name) | VZ (v : Z).
Definition set_vl (t : option ptok) (v : vl) : vl := match t with Some (PId n) => VN n | Some (PLit _ z) => VZ z | _ => v end.
Record pst := PS { kinds : name -> kind; defs : name -> macro }.
Definition updn {A} (f : name -> A) (n : name) (v : A) : name -> A := fun m => if Nat.eqb m n then v else f m.
(** pnut.c:1248-1266: the parameters, after the opening parenthesis; [v] is [val].  Result: the parameters, last first,
    their number, and the rest of the line. *)
Fixpoint params (l : list ptok) (v : vl) (args : list vl) (count : nat) : list vl * nat * list ptok :=
  match l with
  | [] => (args, count, [])
  | PPun 44 :: l => params l v args count
  | PPun 41 :: l => (args, count, l)
  | t :: l => let v := set_vl (Some t) v in
              let v := set_vl (hd_error l) v in      (* get_tok_macro() comes before cons(val, args) *)
              params l v (v :: args) (S count)
  end.
Fixpoint vl_ix (args : list vl) (n : name) (ix : nat) : option nat :=
  match args with
  | [] => None
  | VN a :: r => if Nat.eqb a n then Some ix else vl_ix r n (S ix)
  | VZ _ :: r => vl_ix r n (S ix)
  end.
(** pnut.c:1185-1201 [lookup_macro_token]: keywords are below IDENTIFIER. *)
Definition ptok_mac (kn : name -> kind) (args : list vl) (t : ptok) : mtok :=
  match t with
  | PId n => match kn n with
             | KKey => TId n
             | _ => match vl_ix args n 0 with Some ix => TArg ix | None => TId n end
             end
  | PLit c v => TT c v
  | PPun c => TT c 0
  end.
Definition is_hh (t : ptok) : bool := match t with PPun c => Z.eqb c HASH_HASH | _ => false end.
(** pnut.c:1203-1228 [read_macro_tokens]; [None]: "## cannot appear at either end". *)
Definition read_toks (kn : name -> kind) (args : list vl) (l : list ptok) : option (list mtok) :=
  match l with
  | [] => Some []
  | t :: _ => if is_hh t || is_hh (last l t) then None else Some (map (ptok_mac kn args) l)
  end.
(** pnut.c:1232-1271 [handle_define]; [paren]: the character after the name is an opening parenthesis.  Then [rest] are the
    tokens after that parenthesis. *)
Definition def_macro (s : pst) (n : name) (paren : bool) (rest : list ptok) : option pst :=
  match kinds s n with
  | KType => None
  | _ =>
      let kn := updn (kinds s) n KMac in
      if paren then
        let '(args, count, body) := params rest (VN n) [] 0 in
        match read_toks kn args body with Some ts => Some (PS kn (updn (defs s) n (Macro ts (Some count)))) | None => None end
      else match read_toks kn [] rest with Some ts => Some (PS kn (updn (defs s) n (Macro ts None))) | None => None end
  end.
(** pnut.c:1496-1507 #undef *)
Definition undef_macro (s : pst) (n : name) : option pst :=
  match kinds s n with
  | KId | KMac => Some (PS (updn (kinds s) n KId) (defs s))
  | _ => None
  end.
Inductive line := LDef (n : name) (paren : bool) (rest : list ptok) | LUndef (n : name).
Definition do_line (s : pst) (l : line) : option pst :=
  match l with LDef n p rest => def_macro s n p rest | LUndef n => undef_macro s n end.
Fixpoint do_lines (s : pst) (ls : list line) : option pst :=
  match ls with [] => Some s | l :: ls => match do_line s l with Some s => do_lines s ls | None => None end end.
(** The macros in force: those that attempt_macro_expansion and #ifdef see. *)
Definition table (s : pst) : mtable := fun n => if is_mac (kinds s n) then Some (defs s n) else None.

(** ** Specification (C11 6.10.3) *)
(** A directive: its parameters ([None]: object-like) and replacement list; and its text. *)
Inductive directive := Define (n : name) (ps : option (list name)) (body : list ptok) | Undef (n : name).
Fixpoint comma_list (ps : list name) : list ptok :=
  match ps with [] => [] | [p] => [PId p] | p :: ps => PId p :: PPun 44 :: comma_list ps end.
Definition text (d : directive) : line :=
  match d with
  | Define n None body => LDef n false body
  | Define n (Some ps) body => LDef n true (comma_list ps ++ PPun 41 :: body)
  | Undef n => LUndef n
  end.
Definition tok_of (t : ptok) : mtok := match t with PId n => TId n | PLit c v => TT c v | PPun c => TT c 0 end.
(** The definitions in force after some directives: the last one of the name, unless it was undefined since. *)
Fixpoint in_force (ds : list directive) (n : name) (d0 : option mdef) : option mdef :=
  match ds with
  | [] => d0
  | Define m ps body :: ds => in_force ds n (if Nat.eqb n m then Some (Def ps (map tok_of body)) else d0)
  | Undef m :: ds => in_force ds n (if Nat.eqb n m then None else d0)
  end.
(** Well-formed, in a program whose keywords and typedef names are not used as macro names or parameters. *)
Definition ends_ok (body : list ptok) : Prop := forall t, (hd_error body = Some t \/ body <> [] /\ last body t = t /\ In t body) -> is_hh t = false.
Definition well (kn : name -> kind) (d : directive) : Prop :=
  match d with
  | Define n ps body => (kn n = KId \/ kn n = KMac) /\ ends_ok body /\
      match ps with Some ps => Forall (fun p => kn p <> KKey) ps | None => True end
  | Undef n => kn n = KId \/ kn n = KMac
  end.

(** ** Proofs *)
Lemma params_text ps : forall v args count body,
  params (comma_list ps ++ PPun 41 :: body) v args count = (map VN (rev ps) ++ args, length ps + count, body).
Proof.
  induction ps as [|p ps IH]; intros v args count body; [reflexivity|].
  destruct ps as [|q ps].
  - reflexivity.
  - change (comma_list (p :: q :: ps)) with (PId p :: PPun 44 :: comma_list (q :: ps)). cbn [app].
    cbn [params set_vl hd_error]. rewrite IH. change (rev (p :: q :: ps)) with (rev (q :: ps) ++ [p]).
    rewrite map_app. cbn [map]. rewrite <- app_assoc. cbn [app]. f_equal. f_equal. cbn [length]. lia.
Qed.
Lemma vl_ix_names ps n : forall ix, vl_ix (map VN ps) n ix = lookup_ix ps n ix.
Proof. induction ps as [|p ps IH]; intros ix; cbn [map vl_ix lookup_ix]; [reflexivity|]. destruct (Nat.eqb p n); auto. Qed.
Lemma lookup_none ps n ix : ~ In n ps -> lookup_ix ps n ix = None.
Proof.
  revert ix. induction ps as [|p ps IH]; intros ix H; cbn [lookup_ix]; [reflexivity|].
  destruct (Nat.eqb_spec p n); [exfalso; apply H; now left|]. apply IH. intros X. apply H. now right.
Qed.
Lemma ptok_mac_ok kn ps t : Forall (fun p => kn p <> KKey) ps -> ptok_mac kn (map VN ps) t = lookup_macro_token ps (tok_of t).
Proof.
  intros F. destruct t as [n|c v|c]; cbn [ptok_mac tok_of lookup_macro_token]; auto. rewrite vl_ix_names.
  destruct (kn n) eqn:E; auto. rewrite lookup_none; [reflexivity|]. intros Hn. rewrite Forall_forall in F. exact (F n Hn E).
Qed.
Lemma last_in {A} (l : list A) : forall d, l <> [] -> In (last l d) l.
Proof. induction l as [|a [|b l] IH]; intros d H; [contradiction|now left|]. right. apply (IH d). discriminate. Qed.
Lemma last_last {A} (l : list A) d : l <> [] -> last l (last l d) = last l d.
Proof. induction l as [|a [|b l] IH]; intros H; [contradiction|reflexivity|]. cbn [last] in *. apply IH. discriminate. Qed.
Lemma read_toks_ok kn ps body : ends_ok body -> Forall (fun p => kn p <> KKey) ps ->
  read_toks kn (map VN ps) body = Some (read_macro_tokens ps (map tok_of body)).
Proof.
  intros He F. assert (E : map (ptok_mac kn (map VN ps)) body = read_macro_tokens ps (map tok_of body)).
  { unfold read_macro_tokens. rewrite map_map. apply map_ext. intros t. now apply ptok_mac_ok. }
  destruct body as [|t l]; [reflexivity|]. unfold read_toks. rewrite (He t) by (left; reflexivity).
  rewrite (He (last (t :: l) t)); [cbn [orb]; now rewrite E|].
  right. split; [discriminate|]. split; [apply last_last|apply last_in]; discriminate.
Qed.
(** What the symbol table says: the macros are those in force; other names keep their kind. *)
Definition rel (k0 : name -> kind) (s : pst) (cd : name -> option mdef) : Prop :=
  (forall n, table s n = table_of cd n) /\ (forall n, (kinds s n = KId \/ kinds s n = KMac) /\ (k0 n = KId \/ k0 n = KMac) \/ kinds s n = k0 n /\ kinds s n <> KMac).
Definition step_defs (cd : name -> option mdef) (d : directive) : name -> option mdef :=
  match d with Define m ps body => updn cd m (Some (Def ps (map tok_of body))) | Undef m => updn cd m None end.
Lemma updn_same {A} (f : name -> A) n v : updn f n v n = v.
Proof. unfold updn. now rewrite Nat.eqb_refl. Qed.
Lemma updn_other {A} (f : name -> A) n v m : m <> n -> updn f n v m = f m.
Proof. intros H. unfold updn. destruct (Nat.eqb_spec m n); [contradiction|reflexivity]. Qed.
Lemma step_ok k0 s cd d : rel k0 s cd -> well k0 d -> exists s', do_line s (text d) = Some s' /\ rel k0 s' (step_defs cd d).
Proof.
  intros [T K] Hw.
  assert (Kn : forall n, (k0 n = KId \/ k0 n = KMac) -> kinds s n = KId \/ kinds s n = KMac).
  { intros n Hn. destruct (K n) as [[H _]|[H1 H2]]; [exact H|]. rewrite H1. exact Hn. }
  assert (Ky : forall n m, k0 n <> KKey -> updn (kinds s) m KMac n <> KKey).
  { intros n m Hn. unfold updn. destruct (Nat.eqb n m); [discriminate|]. destruct (K n) as [[[H|H] _]|[H _]]; rewrite H; auto; discriminate. }
  assert (R : forall n mc d', (k0 n = KId \/ k0 n = KMac) -> handle_define d' = mc -> rel k0 (PS (updn (kinds s) n KMac) (updn (defs s) n mc)) (updn cd n (Some d'))).
  { intros n mc d' Hk <-. split.
    - intros m. unfold table, table_of. cbn [kinds defs]. destruct (Nat.eq_dec m n) as [->|Hm].
      + rewrite !updn_same. reflexivity.
      + rewrite !updn_other by assumption. specialize (T m). exact T.
    - intros m. cbn [kinds]. destruct (Nat.eq_dec m n) as [->|Hm]; [rewrite updn_same; left; auto|rewrite updn_other by assumption; apply K]. }
  destruct d as [n ps body|n]; cbn [well] in Hw.
  - destruct Hw as (Hk & He & Hp). cbn [text].
    destruct ps as [ps|]; cbn [do_line]; unfold def_macro.
    + rewrite params_text, app_nil_r, read_toks_ok; [|exact He|apply Forall_rev; eapply Forall_impl; [|exact Hp]; intros p; apply Ky].
      exists (PS (updn (kinds s) n KMac) (updn (defs s) n (Macro (read_macro_tokens (rev ps) (map tok_of body)) (Some (length ps + 0))))).
      split; [destruct (Kn n Hk) as [-> | ->]; reflexivity|]. apply R; [exact Hk|]. cbn [handle_define d_params d_body]. now rewrite Nat.add_0_r.
    + change (@nil vl) with (map VN []). rewrite read_toks_ok; [|exact He|constructor].
      eexists. split; [destruct (Kn n Hk) as [-> | ->]; reflexivity|]. apply R; [exact Hk|reflexivity].
  - cbn [text do_line]. unfold undef_macro. exists (PS (updn (kinds s) n KId) (defs s)).
    split; [destruct (Kn n Hw) as [-> | ->]; reflexivity|]. split.
    + intros m. unfold table, table_of. cbn [kinds defs step_defs]. destruct (Nat.eq_dec m n) as [->|Hm].
      * rewrite !updn_same. reflexivity.
      * rewrite !updn_other by assumption. specialize (T m). exact T.
    + intros m. cbn [kinds]. destruct (Nat.eq_dec m n) as [->|Hm]; [rewrite updn_same; left; auto|rewrite updn_other by assumption; apply K].
Qed.
Lemma in_force_steps ds n : forall cd, in_force ds n (cd n) = fold_left step_defs ds cd n.
Proof.
  induction ds as [|d ds IH]; intros cd; [reflexivity|]. cbn [fold_left]. rewrite <- IH. destruct d as [m ps body|m]; cbn [in_force step_defs]; reflexivity.
Qed.
Lemma steps_ok k0 : forall ds s cd, rel k0 s cd -> Forall (well k0) ds -> exists s', do_lines s (map text ds) = Some s' /\ rel k0 s' (fold_left step_defs ds cd).
Proof.
  induction ds as [|d ds IH]; intros s cd R F; [exists s; split; [reflexivity|exact R]|]. inversion F as [|? ? W F']; subst.
  cbn [map do_lines fold_left]. destruct (step_ok k0 s cd d R W) as (s1 & -> & R1). exact (IH s1 _ R1 F').
Qed.

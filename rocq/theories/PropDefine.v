(** * Property C55: #define and #undef keep the macro definitions in force *)
From Coq Require Import ZArith List Lia Bool Arith.
From Verif Require Import Macro Define.
Import ListNotations.
Local Notation length := List.length.

(** After any sequence of well-formed directives the macros in force are exactly C's, with their parameters and replacement
    lists: the table is the one the theorems on macro expansion (C10-C12) are about.  [none]: no macro at the start. *)
Theorem c55_definitions_partial : forall kn dm ds, (forall n, kn n <> KMac) -> Forall (well kn) ds ->
  exists s, do_lines (PS kn dm) (map text ds) = Some s /\
    (forall n, table s n = match in_force ds n None with Some d => Some (handle_define d) | None => None end) /\
    (forall n, kn n = KKey \/ kn n = KType -> kinds s n = kn n).
Proof.
  intros kn dm ds H F. destruct (steps_ok kn ds (PS kn dm) (fun _ => None)) as (s & E & T & K).
  - split.
    + intros n. unfold table, table_of. cbn [kinds]. specialize (H n). destruct (kn n); try reflexivity. congruence.
    + intros n. right. split; [reflexivity|apply H].
  - exact F.
  - exists s. split; [exact E|]. split.
    + intros n. rewrite T. unfold table_of. rewrite <- in_force_steps. reflexivity.
    + intros n Hn. destruct (K n) as [[_ [A|A]]|[A _]]; [rewrite A in Hn; destruct Hn; discriminate|rewrite A in Hn; destruct Hn; discriminate|exact A].
Qed.
(** [#ifdef] and [defined] look at the kind: a name counts as defined exactly if a definition is in force. *)
Theorem c55_ifdef : forall kn dm ds s n, (forall n, kn n <> KMac) -> Forall (well kn) ds -> do_lines (PS kn dm) (map text ds) = Some s ->
  (kinds s n = KMac <-> exists d, in_force ds n None = Some d).
Proof.
  intros kn dm ds s n H F E. destruct (c55_definitions_partial kn dm ds H F) as (s' & E' & T & _). rewrite E in E'. injection E' as <-.
  specialize (T n). unfold table in T. destruct (kinds s n), (in_force ds n None); cbn [is_mac] in T; try discriminate T; split; intros X; try discriminate X; eauto; destruct X; discriminate.
Qed.
(** The replacement list, token by token: a parameter's name becomes a reference to the argument at its position
    (counted from the last one), every other token is kept. *)
Theorem c55_replacement : forall kn dm n ps body s i t, kn n = KId -> Forall (fun p => kn p <> KKey) ps -> NoDup ps -> ends_ok body ->
  do_lines (PS kn dm) [text (Define n (Some ps) body)] = Some s ->
  m_argc (defs s n) = Some (length ps) /\ length (m_toks (defs s n)) = length body /\
  (nth_error body i = Some t ->
   nth_error (m_toks (defs s n)) i = Some match t with
     | PId x => match find (fun j => Nat.eqb (nth j ps (S x)) x) (seq 0 (length ps)) with Some j => TArg (length ps - 1 - j) | None => TId x end
     | _ => tok_of t end).
Proof.
  intros kn dm n ps body s i t Hk Hp Nd He E. cbn [map text do_lines do_line] in E. unfold def_macro in E. cbn [kinds Define.defs] in E. rewrite Hk in E.
  rewrite params_text, app_nil_r, read_toks_ok in E; [|exact He|].
  2: { apply Forall_rev. eapply Forall_impl; [|exact Hp]. cbn beta. intros p Hpp. unfold updn. destruct (Nat.eqb p n); [discriminate|exact Hpp]. }
  injection E as <-. cbn [Define.defs]. rewrite updn_same. cbn [m_argc m_toks]. unfold read_macro_tokens. rewrite !map_length. split; [f_equal; lia|]. split; [reflexivity|].
  intros Hi. rewrite map_map. rewrite (map_nth_error (fun x => lookup_macro_token (rev ps) (tok_of x)) _ _ Hi). f_equal.
  destruct t as [x|c v|c]; try reflexivity. cbn [tok_of lookup_macro_token].
  assert (L : forall l k, lookup_ix l x k = match lookup_ix l x 0 with Some j => Some (k + j) | None => None end).
  { induction l as [|a l IH]; intros k; cbn [lookup_ix]; [reflexivity|]. destruct (Nat.eqb a x); [f_equal; lia|]. rewrite IH, (IH 1). destruct (lookup_ix l x 0); [f_equal; lia|reflexivity]. }
  assert (A : forall l, NoDup l -> lookup_ix (rev l) x 0 = match find (fun j => Nat.eqb (nth j l (S x)) x) (seq 0 (length l)) with Some j => Some (length l - 1 - j) | None => None end).
  { intros l. induction l as [|a l IH] using rev_ind; intros Hn; [reflexivity|].
    apply NoDup_remove in Hn as [Hn Ha]. rewrite app_nil_r in Hn, Ha. rewrite rev_app_distr. cbn [rev app lookup_ix].
    rewrite app_length. cbn [length]. rewrite seq_app. cbn [Nat.add seq].
    assert (F1 : find (fun j => Nat.eqb (nth j (l ++ [a]) (S x)) x) (seq 0 (length l)) = find (fun j => Nat.eqb (nth j l (S x)) x) (seq 0 (length l))).
    { assert (G : forall q, (forall j, In j q -> j < length l) -> find (fun j => Nat.eqb (nth j (l ++ [a]) (S x)) x) q = find (fun j => Nat.eqb (nth j l (S x)) x) q).
      { induction q as [|j q IHq]; intros Hq; [reflexivity|]. cbn [find]. rewrite app_nth1 by (apply Hq; now left). rewrite IHq by (intros; apply Hq; now right). reflexivity. }
      apply G. intros j Hj. apply in_seq in Hj. lia. }
    assert (F2 : forall (f : nat -> bool) q r, find f (q ++ r) = match find f q with Some j => Some j | None => find f r end).
    { intros f q r. induction q as [|j q IHq]; [reflexivity|]. cbn [app find]. destruct (f j); auto. }
    rewrite F2, F1. cbn [find]. rewrite app_nth2, Nat.sub_diag by lia. cbn [nth].
    destruct (Nat.eqb_spec a x) as [->|Hax].
    - destruct (find _ (seq 0 (length l))) as [j|] eqn:Ef; [|f_equal; lia].
      apply find_some in Ef as [Hj Ej]. apply in_seq in Hj. apply Nat.eqb_eq in Ej. exfalso. apply Ha. rewrite <- Ej. apply nth_In. lia.
    - rewrite L, IH by exact Hn. destruct (find _ (seq 0 (length l))) as [j|] eqn:Ef; [|reflexivity].
      apply find_some in Ef as [Hj _]. apply in_seq in Hj. f_equal. lia. }
  rewrite A by exact Nd. destruct (find _ _); reflexivity.
Qed.

(** ** Where the code departs from C *)
Definition k0 (n : name) : kind := if Nat.eqb n 1 then KKey else if Nat.eqb n 2 then KType else KId.
Definition d0 (n : name) : macro := Macro [] None.
(** A keyword that has been a macro is a keyword no longer once it is undefined: #define int long / #undef int *)
Theorem c55_keyword_refuted : exists s, do_lines (PS k0 d0) [text (Define 1 None [PId 5]); text (Undef 1)] = Some s /\ k0 1 = KKey /\ kinds s 1 = KId.
Proof. eexists. split; [reflexivity|]. split; reflexivity. Qed.
(** A parameter with the name of a keyword is not replaced: #define f(int) int *)
Theorem c55_keyword_parameter_refuted : exists s, do_lines (PS k0 d0) [text (Define 3 (Some [1]) [PId 1])] = Some s /\ m_toks (defs s 3) = [TId 1].
Proof. eexists. split; reflexivity. Qed.
(** A typedef name cannot be defined, nor undefined; a keyword that is no macro cannot be undefined. *)
Theorem c55_typedef_refuted : do_lines (PS k0 d0) [text (Define 2 None [PId 5])] = None /\ do_lines (PS k0 d0) [text (Undef 2)] = None /\ do_lines (PS k0 d0) [text (Undef 1)] = None.
Proof. repeat split. Qed.
(** Malformed parameter lists are accepted: "f(a b)" has one parameter more than names can match, "f(a," has no end. *)
Theorem c55_malformed_refuted : exists s s',
  do_lines (PS k0 d0) [LDef 3 true [PId 5; PId 6; PPun 41; PId 5]] = Some s /\ m_toks (defs s 3) = [TId 5] /\ m_argc (defs s 3) = Some 2 /\
  do_lines (PS k0 d0) [LDef 3 true [PId 5; PPun 44]] = Some s' /\ m_argc (defs s' 3) = Some 1.
Proof. eexists _, _. repeat split. Qed.

(** An instance: #define f(a,b) b+a / #define X 1 / #undef X *)
Theorem c55_instance : let ds := [Define 3 (Some [5; 6]) [PId 6; PPun 43; PId 5]; Define 4 None [PLit 401 1]; Undef 4] in
  Forall (well k0) ds /\ (forall n, k0 n <> KMac) /\
  exists s, do_lines (PS k0 d0) (map text ds) = Some s /\ table s 3 = Some (Macro [TArg 0; TT 43 0; TArg 1] (Some 2)) /\ table s 4 = None.
Proof.
  cbv zeta. split; [|split].
  - assert (E : forall b, (forall t, In t b -> is_hh t = false) -> ends_ok b).
    { intros b H t [Ht|(_ & _ & Ht)]; [destruct b; [discriminate|injection Ht as ->; apply H; now left]|auto]. }
    repeat constructor; try (left; reflexivity); try discriminate; apply E; intros t H; repeat (destruct H as [<-|H]; [reflexivity|]); destruct H.
  - intros n. unfold k0. destruct (Nat.eqb n 1), (Nat.eqb n 2); discriminate.
  - eexists. repeat split.
Qed.

Print Assumptions c55_definitions_partial.
Print Assumptions c55_ifdef.
Print Assumptions c55_replacement.

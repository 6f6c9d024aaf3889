(** * Properties C05, C06, C17: symbols, strings and syntax-tree storage *)
From Coq Require Import ZArith List Lia Bool String.
From Verif Require Import Base Store StoreProof.
Import ListNotations.
Open Scope Z_scope.

(** ** C05 *)
(** In any history, two reads are given the same symbol iff the spellings are the same. *)
Theorem c05_intern_iff : forall st a h s1 r1 s2 r2, reach st a h ->
  In (Intern s1, r1) h -> In (Intern s2, r2) h -> (r1 = r2 <-> s1 = s2).
Proof. exact intern_faithful. Qed.

(** At any later time a symbol still has its spelling, length, kind and tag. *)
Theorem c05_symbols_keep_contents : forall st a h p y, reach st a h ->
  In (p, y) (syms a) -> sym_agrees st p y.
Proof.
  intros st a h p y Hr Hin. destruct (reach_inv _ _ _ Hr) as [bk I].
  exact (proj1 (inv_agrees _ _ _ I) p y Hin).
Qed.

Theorem c05_interned_is_symbol : forall st a h s r, reach st a h -> In (Intern s, r) h ->
  exists y, In (r, y) (syms a) /\ sym_name y = s.
Proof. exact reach_intern. Qed.

(** The bucket index never leaves the table, even for characters that are negative as chars. *)
Theorem c05_hash_in_table : forall s, Forall (fun c => -128 <= c < 256) s ->
  0 <= fold_left hash_step s 0 < HASH_PRIME.
Proof.
  intros s H. replace (fold_left hash_step s 0) with (hash_from 0 s).
  - apply hash_from_range; [exact H|unfold HASH_PRIME; lia].
  - generalize 0. clear H. induction s as [|c r IH]; intros z; [reflexivity|]. cbn. apply IH.
Qed.

(** Interning fails only when one of the stores is exhausted. *)
Theorem c05_intern_progress : forall st a h s, reach st a h -> clean s ->
  heap_alloc st + 5 <= HEAP_SIZE ->
  s = [] \/ pool_alloc st + Z.of_nat (List.length s) < STRING_POOL_SIZE ->
  exists st' r, intern st s = Some (st', r).
Proof. intros st a h s Hr. destruct (reach_inv _ _ _ Hr) as [bk I]. now apply (intern_total bk st a). Qed.

(** Non-vacuity: a history with two spellings that fall into the same bucket, an update of a
    symbol, a node creation, and a re-read. *)
Definition ex_ops : list op :=
  [Intern (zs "foo"); Intern (zs "bar"); NewObj [1067; 3]; SetKind 1009 502; Intern (zs "foo")].
Fixpoint run (st : store) (a : astore) (ops : list op) : option (store * astore * list Z) :=
  match ops with
  | [] => Some (st, a, [])
  | o :: r => match step st o with
              | Some (st', x) => match run st' (astep a o x) r with
                                 | Some (st2, a2, xs) => Some (st2, a2, x :: xs)
                                 | None => None
                                 end
              | None => None
              end
  end.
Example c05_ex_results : option_map (fun '(_, _, xs) => xs) (run store0 astore0 ex_ops)
  = Some [1009; 1014; 1019; 0; 1009].
Proof. vm_compute. reflexivity. Qed.
Example c05_ex_reach : exists st a h, reach st a h /\
  In (Intern (zs "foo"), 1009) h /\ In (Intern (zs "bar"), 1014) h.
Proof.
  assert (C : forall s, forallb (fun c => (0 <? c) && (c <? 256)) s = true -> clean s).
  { intros s H. apply Forall_forall. intros c Hc. rewrite forallb_forall in H.
    apply H in Hc. apply andb_true_iff in Hc. lia. }
  do 3 eexists. split.
  - eapply reach_step with (o := Intern (zs "bar")).
    + eapply reach_step with (o := Intern (zs "foo")).
      * apply reach_init.
      * apply C. reflexivity.
      * vm_compute. reflexivity.
    + apply C. reflexivity.
    + vm_compute. reflexivity.
  - cbn. auto.
Qed.

(** ** C06: string literals share the interning table, so the same theorems give them their own
    bytes -- provided they contain no NUL.  With an embedded NUL the claim is false: the literal
    "a\0bd" read after "a\0aa" is given the object holding "a\0aa". *)
Theorem c06_string_literals_partial : forall st a h s1 r1 s2 r2, reach st a h ->
  In (Intern s1, r1) h -> In (Intern s2, r2) h -> (r1 = r2 <-> s1 = s2).
Proof. exact intern_faithful. Qed.

Theorem c06_embedded_nul_refuted : exists s1 s2 st1 r1 st2 r2,
  s1 <> s2 /\ Forall (fun c => 0 <= c < 256) (s1 ++ s2) /\
  intern store0 s1 = Some (st1, r1) /\ intern st1 s2 = Some (st2, r2) /\ r1 = r2.
Proof.
  exists [97; 0; 97; 97], [97; 0; 98; 100]. do 4 eexists.
  split; [discriminate|]. split; [repeat constructor; lia|].
  split; [vm_compute; reflexivity|]. split; vm_compute; reflexivity.
Qed.

(** ** C17 *)
(** After any history every object holds the words last written to it. *)
Theorem c17_objects_faithful : forall st a h p ws, reach st a h ->
  In (p, ws) (objs a) -> obj_agrees st p ws.
Proof.
  intros st a h p ws Hr Hin. destruct (reach_inv _ _ _ Hr) as [bk I].
  exact (proj2 (inv_agrees _ _ _ I) p ws Hin).
Qed.

(** Objects and symbols occupy pairwise disjoint cells, inside the heap array and away from
    the hash table. *)
Theorem c17_no_aliasing : forall st a h p ws q vs, reach st a h ->
  In (p, ws) (objs a) -> In (q, vs) (objs a) -> p <> q ->
  forall i j, (i < List.length ws)%nat -> (j < List.length vs)%nat ->
  p + Z.of_nat i <> q + Z.of_nat j.
Proof.
  intros st a h p ws q vs Hr Hp Hq Hne i j Hi Hj. destruct (reach_inv _ _ _ Hr) as [bk I].
  destruct (i_doo _ _ _ I _ _ _ _ Hp Hq) as [[E _]|D]; [contradiction|]. unfold disjoint in D. lia.
Qed.

Theorem c17_in_bounds : forall st a h p ws, reach st a h -> In (p, ws) (objs a) ->
  HASH_PRIME <= p /\ p + Z.of_nat (List.length ws) <= HEAP_SIZE.
Proof.
  intros st a h p ws Hr Hp. destruct (reach_inv _ _ _ Hr) as [bk I].
  destruct (i_obj _ _ _ I _ _ Hp) as (O1 & O2 & _).
  pose proof (reach_heap_bound _ _ _ Hr). lia.
Qed.

(** Operator, arity and children of a node are read back exactly. *)
Theorem c17_node_read_back : forall st a h p opc cs, reach st a h ->
  In (p, ast_words opc cs) (objs a) -> 0 <= opc < 1024 ->
  get_op st p = opc /\ get_nb_children st p = Z.of_nat (List.length cs) /\
  forall i, (i < List.length cs)%nat -> get_child st p (Z.of_nat i) = nth i cs 0.
Proof.
  intros st a h p opc cs Hr Hin Ho.
  pose proof (c17_objects_faithful st a h p _ Hr Hin) as Ha.
  assert (E0 : heap st p = opc + 1024 * Z.of_nat (List.length cs)).
  { rewrite <- (Z.add_0_r p). apply (Ha 0%nat). cbn. lia. }
  destruct (header_decode opc (Z.of_nat (List.length cs)) Ho ltac:(lia)) as [D1 D2].
  unfold get_op, get_nb_children, get_child. rewrite E0. repeat split; auto.
  intros i Hi. specialize (Ha (S i) ltac:(cbn; lia)). cbn [ast_words nth] in Ha.
  rewrite <- Ha. f_equal. lia.
Qed.

(** A clone is a fresh object equal to its original, and nothing else changes. *)
Theorem c17_clone : forall st a h p opc ws, reach st a h -> In (p, ws) (objs a) ->
  0 <= opc < 1024 ->
  (exists v, ws = leaf_words opc v) \/ (exists cs, cs <> [] /\ ws = ast_words opc cs) ->
  forall st' q, clone_ast st p = Some (st', q) ->
  q = heap_alloc st /\ heap_alloc st' = heap_alloc st + Z.of_nat (List.length ws) /\
  (forall x, x < heap_alloc st -> heap st' x = heap st x) /\ obj_agrees st' q ws.
Proof. exact clone_ok. Qed.

(** The string pool, however, can be overrun without a report: with the pool exactly full, an
    empty string's terminator is written one cell past the array. *)
Theorem c17_pool_overrun_refuted : ~ (forall st a h s st' r,
  reach st a h -> client_ok a (Intern s) -> step st (Intern s) = Some (st', r) ->
  pool_alloc st + Z.of_nat (List.length s) < STRING_POOL_SIZE).
Proof.
  intros H. set (big := repeat 97 (Z.to_nat 499999)).
  assert (Hlen : Z.of_nat (List.length big) = 499999)
    by (unfold big; rewrite repeat_length; lia).
  assert (Hcl : clean big).
  { apply Forall_forall. intros c Hc. apply repeat_spec in Hc. lia. }
  destruct (intern_first big Hcl) as (st1 & r1 & E1 & P1 & A1).
  { right. rewrite Hlen. unfold STRING_POOL_SIZE. lia. }
  pose proof (reach_step _ _ _ (Intern big) st1 r1 reach_init Hcl E1) as R1.
  destruct (reach_inv _ _ _ R1) as [bk I].
  destruct (intern_total bk st1 _ [] I ltac:(constructor)) as (st2 & r2 & E2).
  { rewrite A1. unfold HASH_PRIME, HEAP_SIZE. lia. }
  { now left. }
  specialize (H _ _ _ [] st2 r2 R1 ltac:(constructor) E2).
  rewrite P1, Hlen in H. cbn in H. unfold STRING_POOL_SIZE in H. lia.
Qed.

Example c17_ex : exists st a h, reach st a h /\ In (1009, ast_words 43 [7; 8]) (objs a).
Proof.
  do 3 eexists. split.
  - eapply reach_step with (o := NewObj (ast_words 43 [7; 8]));
      [apply reach_init|exact Logic.I|vm_compute; reflexivity].
  - cbn. auto.
Qed.

Print Assumptions c05_intern_iff.
Print Assumptions c05_intern_progress.
Print Assumptions c06_embedded_nul_refuted.
Print Assumptions c17_no_aliasing.
Print Assumptions c17_clone.
Print Assumptions c17_pool_overrun_refuted.

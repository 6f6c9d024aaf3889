(** * Proofs about the stores *)
From Coq Require Import ZArith List Lia Bool.
From Verif Require Import Base Store.
Import ListNotations.
Open Scope Z_scope.

(** ** Strings in the pool *)
Fixpoint str_at (pl : Z -> Z) (a : Z) (s : list Z) : Prop :=
  match s with
  | [] => pl a = 0
  | c :: r => pl a = s8 c /\ str_at pl (a + 1) r
  end.

Lemma str_at_nth pl s : forall a, str_at pl a s <->
  (forall i, (i < length s)%nat -> pl (a + Z.of_nat i) = s8 (nth i s 0)) /\
  pl (a + Z.of_nat (length s)) = 0.
Proof.
  induction s as [|c r IH]; intros a; cbn [str_at length].
  - rewrite Z.add_0_r. split; [intros H; split; [intros i Hi; lia|exact H]|tauto].
  - rewrite IH. split.
    + intros (Hc & Hi & Hl). split.
      * intros [|i] H; cbn [nth].
        -- now rewrite Z.add_0_r.
        -- rewrite <- Hi by lia. f_equal. lia.
      * rewrite <- Hl. f_equal. lia.
    + intros (Hi & Hl). split; [|split].
      * specialize (Hi 0%nat ltac:(lia)). cbn [nth] in Hi. rewrite <- Hi. f_equal. lia.
      * intros i H. specialize (Hi (S i) ltac:(lia)). cbn [nth] in Hi. rewrite <- Hi. f_equal. lia.
      * rewrite <- Hl. f_equal. lia.
Qed.

Lemma str_at_frame pl pl' s : forall a,
  (forall x, a <= x <= a + Z.of_nat (length s) -> pl' x = pl x) ->
  str_at pl a s -> str_at pl' a s.
Proof.
  induction s as [|c r IH]; intros a Hf; cbn [str_at length] in *.
  - intros H. rewrite Hf; [exact H|lia].
  - intros (Hc & Hr). split; [rewrite Hf; [exact Hc|lia]|].
    apply IH; [|exact Hr]. intros x Hx. apply Hf. lia.
Qed.

Lemma s8_inj c d : 0 <= c < 256 -> 0 <= d < 256 -> s8 c = s8 d -> c = d.
Proof.
  unfold s8. intros Hc Hd H. assert ((c + 128) mod 256 = (d + 128) mod 256) as E by lia.
  pose proof (Z.div_mod (c + 128) 256 ltac:(lia)). pose proof (Z.div_mod (d + 128) 256 ltac:(lia)).
  lia.
Qed.
Lemma s8_0 : s8 0 = 0. Proof. reflexivity. Qed.

Lemma same_string_ok pl s : clean s -> forall t a b fuel,
  clean t -> str_at pl a s -> str_at pl b t -> (length s < fuel)%nat ->
  same_string fuel pl a b = Some (name_eqb s t).
Proof.
  unfold name_eqb. intros Hs. induction Hs as [|c r Hc _ IH]; intros t a b fuel Ht Ha Hb Hf;
    (destruct fuel as [|f]; [cbn in Hf; lia|]); cbn [same_string].
  - cbn in Ha. rewrite Ha. destruct t as [|d u]; cbn in Hb.
    + rewrite Hb. reflexivity.
    + destruct Hb as [Hb _]. inversion Ht; subst. rewrite Hb.
      destruct (Z.eqb_spec 0 (s8 d)) as [E|E].
      * rewrite <- s8_0 in E at 1. apply s8_inj in E; lia.
      * destruct (list_eq_dec Z.eq_dec [] (d :: u)); [discriminate|reflexivity].
  - cbn in Ha. destruct Ha as [Ha Ha']. rewrite Ha. destruct t as [|d u]; cbn in Hb.
    + rewrite Hb. destruct (Z.eqb_spec (s8 c) 0) as [E|E].
      * rewrite <- s8_0 in E. apply s8_inj in E; lia.
      * destruct (list_eq_dec Z.eq_dec (c :: r) []); [discriminate|reflexivity].
    + destruct Hb as [Hb Hb']. inversion Ht as [|? ? Hd Hu]; subst. rewrite Hb.
      destruct (Z.eqb_spec (s8 c) (s8 d)) as [E|E].
      * apply s8_inj in E; try lia. subst d.
        destruct (Z.eqb_spec (s8 c) 0) as [E0|E0].
        { rewrite <- s8_0 in E0. apply s8_inj in E0; lia. }
        rewrite (IH u (a + 1) (b + 1) f) by (auto; cbn in Hf; lia).
        destruct (list_eq_dec Z.eq_dec r u), (list_eq_dec Z.eq_dec (c :: r) (c :: u)); congruence.
      * destruct (list_eq_dec Z.eq_dec (c :: r) (d :: u)); [congruence|reflexivity].
Qed.

(** ** Hash *)
Fixpoint hash_from (h : Z) (s : list Z) : Z :=
  match s with [] => h | c :: r => hash_from (hash_step h c) r end.

Lemma lxor_param h : 0 <= h < HASH_PRIME -> 1024 <= Z.lxor h HASH_PARAM < 2048.
Proof.
  unfold HASH_PRIME, HASH_PARAM. intros H.
  assert (0 <= Z.lxor h 1026) by (apply Z.lxor_nonneg; lia).
  assert (B : Z.testbit (Z.lxor h 1026) 10 = true).
  { rewrite Z.lxor_spec. replace (Z.testbit h 10) with false; [reflexivity|].
    symmetry. destruct (Z.eq_dec h 0) as [->|]; [reflexivity|].
    apply Z.bits_above_log2; [lia|]. apply Z.log2_lt_pow2; lia. }
  split.
  - destruct (Z_lt_le_dec (Z.lxor h 1026) 1024) as [L|]; [|lia]. exfalso.
    destruct (Z.eq_dec (Z.lxor h 1026) 0) as [E|].
    + rewrite E in B. discriminate.
    + rewrite Z.bits_above_log2 in B; [discriminate|lia|]. apply Z.log2_lt_pow2; lia.
  - destruct (Z_lt_le_dec (Z.lxor h 1026) 2048) as [|L]; [assumption|]. exfalso.
    assert (11 <= Z.log2 (Z.lxor h 1026)) by (apply Z.log2_le_pow2; lia).
    pose proof (Z.log2_lxor h 1026 ltac:(lia) ltac:(lia)) as Hm.
    change (Z.log2 1026) with 10 in Hm.
    destruct (Z.eq_dec h 0) as [->|]; [cbn in *; lia|].
    assert (Z.log2 h < 10) by (apply Z.log2_lt_pow2; lia). lia.
Qed.

(** the bucket index is always inside the table, even for characters read as negative *)
Lemma hash_step_range h c : 0 <= h < HASH_PRIME -> -128 <= c < 256 -> 0 <= hash_step h c < HASH_PRIME.
Proof.
  intros Hh Hc. pose proof (lxor_param h Hh). unfold hash_step.
  apply Z.rem_bound_pos; unfold HASH_PRIME; lia.
Qed.

Lemma hash_from_range s : Forall (fun c => -128 <= c < 256) s -> forall h, 0 <= h < HASH_PRIME ->
  0 <= hash_from h s < HASH_PRIME.
Proof.
  induction 1 as [|c r Hc _ IH]; intros h Hh; [exact Hh|]. cbn. apply IH. now apply hash_step_range.
Qed.

(** ** Accumulating the characters of a string *)
Lemma accum_all_ok s : forall st h st' h', accum_all st h s = Some (st', h') ->
  h' = hash_from h s /\ heap st' = heap st /\ heap_alloc st' = heap_alloc st /\
  pool_alloc st' = pool_alloc st + Z.of_nat (length s) /\
  (forall x, x < pool_alloc st -> pool st' x = pool st x) /\
  (forall i, (i < length s)%nat -> pool st' (pool_alloc st + Z.of_nat i) = s8 (nth i s 0)).
Proof.
  induction s as [|c r IH]; intros st h st' h'; cbn [accum_all].
  - intros [= <- <-]. cbn. repeat split; try lia.
  - unfold accum_string. cbn [pool_alloc].
    destruct (Z.leb_spec STRING_POOL_SIZE (pool_alloc st + 1)); [discriminate|].
    intros H0. apply IH in H0. cbn [heap heap_alloc pool pool_alloc] in H0.
    destruct H0 as (-> & Hh & Ha & Hp & Hx & Hi).
    cbn [hash_from length]. repeat split; auto.
    + lia.
    + intros x Hlt. rewrite Hx by lia. apply upd_other. lia.
    + intros [|i] Hi'; cbn [nth].
      * rewrite Z.add_0_r, Hx by lia. apply upd_same.
      * rewrite <- Hi by lia. f_equal. lia.
Qed.

(** ** Chains *)
Fixpoint chain (h : Z -> Z) (a : Z) (l : list Z) : Prop :=
  match l with
  | [] => h a = 0
  | p :: r => h a = p /\ p <> 0 /\ chain h p r
  end.

Lemma chain_frame h h' l : forall a, (forall x, x = a \/ In x l -> h' x = h x) ->
  chain h a l -> chain h' a l.
Proof.
  induction l as [|p r IH]; intros a Hf; cbn [chain].
  - intros H. rewrite Hf; auto.
  - intros (Ha & Hp & Hr). split; [rewrite Hf; auto|]. split; [exact Hp|].
    apply IH; [|exact Hr]. intros x [->|Hx]; apply Hf; right; [now left|now right].
Qed.

Lemma last_cons (r : list Z) : forall q a, last (q :: r) a = last r q.
Proof. induction r as [|y r IH]; intros q a; [reflexivity|]. change (last (y :: r) a = last (y :: r) q). now rewrite !IH. Qed.

Lemma chain_snoc h l p : forall a, NoDup (a :: l) -> ~ In p (a :: l) -> p <> 0 ->
  chain h a l -> chain (upd (upd h (last l a) p) p 0) a (l ++ [p]).
Proof.
  induction l as [|q r IH]; intros a Hnd Hin Hp; cbn [chain app].
  - intros _. split; [|split; [exact Hp|apply upd_same]].
    rewrite upd_other; [apply upd_same|]. intros ->. apply Hin. now left.
  - intros (Ha & Hq & Hr).
    rewrite last_cons.
    inversion Hnd as [|? ? Hna Hnd']; subst x l.
    split; [|split; [exact Hq|apply IH; auto]].
    + rewrite upd_other by (intros E; apply Hin; now left).
      rewrite upd_other; [exact Ha|].
      intros E. apply Hna. rewrite E. clear.
      revert q. induction r as [|y r IH]; intros q; [now left|]. right. rewrite last_cons. apply IH.
    + intros Hi. apply Hin. now right.
Qed.

(** ** Invariant *)
Definition disjoint (p n q m : Z) : Prop := p + n <= q \/ q + m <= p.

Record inv (bk : Z -> list Z) (st : store) (a : astore) : Prop := {
  i_chain : forall h, 0 <= h < HASH_PRIME -> chain (heap st) h (bk h);
  i_nodup : forall h, 0 <= h < HASH_PRIME -> NoDup (bk h);
  i_bk : forall h p, 0 <= h < HASH_PRIME ->
     (In p (bk h) <-> exists y, In (p, y) (syms a) /\ hash_from 0 (sym_name y) = h);
  i_alloc : HASH_PRIME <= heap_alloc st /\ 0 <= pool_alloc st;
  i_sym : forall p y, In (p, y) (syms a) ->
     HASH_PRIME <= p /\ p + 5 <= heap_alloc st /\
     heap st (p + 2) = sym_kind y /\ heap st (p + 3) = sym_tag y /\
     heap st (p + 4) = Z.of_nat (length (sym_name y)) /\
     str_at (pool st) (heap st (p + 1)) (sym_name y) /\
     0 <= heap st (p + 1) /\
     heap st (p + 1) + Z.of_nat (length (sym_name y)) + 1 <= pool_alloc st /\
     clean (sym_name y);
  i_names : forall p y q z, In (p, y) (syms a) -> In (q, z) (syms a) ->
     sym_name y = sym_name z -> p = q;
  i_dss : forall p y q z, In (p, y) (syms a) -> In (q, z) (syms a) ->
     (p = q /\ y = z) \/ disjoint p 5 q 5;
  i_obj : forall p ws, In (p, ws) (objs a) ->
     HASH_PRIME <= p /\ p + Z.of_nat (length ws) <= heap_alloc st /\ obj_agrees st p ws;
  i_dso : forall p y q ws, In (p, y) (syms a) -> In (q, ws) (objs a) ->
     disjoint p 5 q (Z.of_nat (length ws));
  i_doo : forall p ws q vs, In (p, ws) (objs a) -> In (q, vs) (objs a) ->
     (p = q /\ ws = vs) \/ disjoint p (Z.of_nat (length ws)) q (Z.of_nat (length vs))
}.

Lemma inv0 : inv (fun _ => []) store0 astore0.
Proof.
  split; cbn; intros; try contradiction; try (constructor; fail); auto.
  - split; [contradiction|]. intros (y & [] & _).
  - unfold HASH_PRIME. lia.
Qed.

Lemma find_name_some l s p : find_name l s = Some p -> exists y, In (p, y) l /\ sym_name y = s.
Proof.
  induction l as [|[q y] r IH]; cbn; [discriminate|]. unfold name_eqb.
  destruct (list_eq_dec Z.eq_dec (sym_name y) s).
  - intros [= ->]. exists y. auto.
  - intros H. destruct (IH H) as (z & ? & ?). eauto.
Qed.
Lemma find_name_none l s : find_name l s = None -> forall p y, In (p, y) l -> sym_name y <> s.
Proof.
  induction l as [|[q z] r IH]; cbn; [tauto|]. unfold name_eqb.
  destruct (list_eq_dec Z.eq_dec (sym_name z) s); [discriminate|].
  intros H p y [[= <- <-]|Hin]; eauto.
Qed.
Lemma find_name_in l s p y : In (p, y) l -> sym_name y = s -> find_name l s <> None.
Proof. intros Hin E H. exact (find_name_none _ _ H _ _ Hin E). Qed.

(** hset_list effect *)
Lemma hset_list_spec ws : forall st a,
  heap_alloc (hset_list st a ws) = heap_alloc st /\ pool (hset_list st a ws) = pool st /\
  pool_alloc (hset_list st a ws) = pool_alloc st /\
  (forall x, x < a \/ a + Z.of_nat (length ws) <= x -> heap (hset_list st a ws) x = heap st x) /\
  (forall i, (i < length ws)%nat -> heap (hset_list st a ws) (a + Z.of_nat i) = nth i ws 0).
Proof.
  induction ws as [|w r IH]; intros st a; cbn [hset_list length].
  - repeat split; auto. intros i Hi. lia.
  - destruct (IH (hset st a w) (a + 1)) as (H1 & H2 & H3 & H4 & H5).
    repeat split; auto.
    + intros x Hx. rewrite H4 by lia. cbn. apply upd_other. lia.
    + intros [|i] Hi; cbn [nth].
      * rewrite Z.add_0_r, H4 by lia. cbn. apply upd_same.
      * rewrite <- H5 by lia. f_equal. lia.
Qed.

Lemma alloc_obj_inv st n st' p : alloc_obj st n = Some (st', p) ->
  p = heap_alloc st /\ st' = mkStore (heap st) (heap_alloc st + n) (pool st) (pool_alloc st).
Proof.
  unfold alloc_obj. cbn. destruct (HEAP_SIZE <? heap_alloc st + n); [discriminate|].
  intros [= <- <-]. auto.
Qed.

(** probing *)
Lemma probe_chain_ok st cf start s (nm : Z -> list Z) : forall l fuel prev,
  (length l <= fuel)%nat -> chain (heap st) prev l ->
  (forall p, In p l -> same_string cf (pool st) start (heap st (p + 1)) = Some (name_eqb s (nm p))) ->
  (exists p, In p l /\ nm p = s /\ probe_chain fuel cf st start prev (heap st prev) = Some (Found p)) \/
  ((forall p, In p l -> nm p <> s) /\
   probe_chain fuel cf st start prev (heap st prev) = Some (NotFound (last l prev))).
Proof.
  induction l as [|q r IH]; intros fuel prev Hf Hc Hs.
  - right. split; [intros p []|]. cbn in Hc. rewrite Hc. destruct fuel; reflexivity.
  - cbn [chain] in Hc. destruct Hc as (Hq & Hnz & Hr).
    destruct fuel as [|f]; [cbn in Hf; lia|]. rewrite Hq. cbn [probe_chain].
    destruct (Z.eqb_spec q 0); [contradiction|].
    rewrite (Hs q) by now left. unfold name_eqb.
    destruct (list_eq_dec Z.eq_dec s (nm q)) as [E|E].
    + left. exists q. split; [now left|]. split; auto.
    + destruct (IH f q) as [(p & Hp & En & Ep)|(Hn & Ep)].
      * cbn in Hf. lia.
      * exact Hr.
      * intros p Hp. apply Hs. now right.
      * left. exists p. split; [now right|]. auto.
      * right. split.
        -- intros p [<-|Hp]; [congruence|auto].
        -- rewrite Ep. now rewrite last_cons.
Qed.

(** a duplicate-free list of positions below [n] has at most [n] elements *)
Lemma nodup_bound l n : NoDup l -> (forall x, In x l -> 0 <= x < n) -> (length l <= Z.to_nat n)%nat.
Proof.
  intros Hnd Hb.
  assert (incl l (map Z.of_nat (seq 0 (Z.to_nat n)))).
  { intros x Hx. apply Hb in Hx. apply in_map_iff. exists (Z.to_nat x). split; [lia|].
    apply in_seq. lia. }
  apply NoDup_incl_length in H; auto. rewrite map_length, seq_length in H. exact H.
Qed.

Lemma last_in (l : list Z) d : last l d = d /\ l = [] \/ In (last l d) l.
Proof.
  destruct l as [|z r]; [left; auto|]. right. revert z.
  induction r as [|y r IH]; intros z; [now left|]. right. exact (IH y).
Qed.

Definition nm_of (a : astore) (p : Z) : list Z :=
  match find (fun e => fst e =? p) (syms a) with Some e => sym_name (snd e) | None => [] end.

Lemma nm_of_ok bk st a p y : inv bk st a -> In (p, y) (syms a) -> nm_of a p = sym_name y.
Proof.
  intros I Hin. unfold nm_of. destruct (find _ (syms a)) as [[q z]|] eqn:E.
  - apply find_some in E as [Hz Eq]. cbn in *. apply Z.eqb_eq in Eq. subst q.
    destruct (i_dss _ _ _ I _ _ _ _ Hin Hz) as [[_ ->]|D]; [reflexivity|].
    unfold disjoint in D. lia.
  - eapply find_none in E; eauto. cbn in E. rewrite Z.eqb_refl in E. discriminate.
Qed.

Lemma clean_ext s : clean s -> Forall (fun c => -128 <= c < 256) s.
Proof. apply Forall_impl. intros; lia. Qed.

(** The step of interning: what it returns and that the invariant is kept. *)
Lemma intern_step bk st a s st' r :
  inv bk st a -> clean s -> intern st s = Some (st', r) ->
  (match find_name (syms a) s with
   | Some p => r = p
   | None => forall p y, In (p, y) (syms a) -> r <> p
   end) /\
  exists bk', inv bk' st' (astep a (Intern s) r).
Proof.
  intros I Hcl. unfold intern.
  destruct (accum_all st 0 s) as [[st1 h]|] eqn:Eacc; [|discriminate].
  apply accum_all_ok in Eacc. destruct Eacc as (-> & Hh & Hha & Hpa & Hpx & Hpi).
  destruct (i_alloc _ _ _ I) as [Ial1 Ial2].
  assert (Hhr : 0 <= hash_from 0 s < HASH_PRIME)
    by (apply hash_from_range; [now apply clean_ext|unfold HASH_PRIME; lia]).
  set (h := hash_from 0 s) in *.
  unfold end_ident. cbn [heap heap_alloc pool pool_alloc].
  set (st2 := mkStore (heap st1) (heap_alloc st1) (upd (pool st1) (pool_alloc st1) 0) (pool_alloc st1 + 1)).
  assert (Hpool2 : forall x, x < pool_alloc st -> pool st2 x = pool st x).
  { intros x Hx. cbn. rewrite upd_other by lia. auto. }
  assert (Hnew : str_at (pool st2) (pool_alloc st) s).
  { apply str_at_nth. split.
    - intros i Hi. cbn. rewrite upd_other by lia. auto.
    - cbn. rewrite Hpa. apply upd_same. }
  assert (Hsame : forall p, In p (bk h) ->
     same_string (Z.to_nat (pool_alloc st1 + 1)) (pool st2) (pool_alloc st) (heap st2 (p + 1)) =
     Some (name_eqb s (nm_of a p))).
  { intros p Hp. apply (i_bk _ _ _ I) in Hp; [|exact Hhr]. destruct Hp as (y & Hy & _).
    rewrite (nm_of_ok _ _ _ _ _ I Hy).
    destruct (i_sym _ _ _ I _ _ Hy) as (S1 & S2 & S3 & S4 & S5 & S6 & S7 & S8 & S9).
    apply same_string_ok; auto.
    - cbn. rewrite Hh. eapply str_at_frame; [|exact S6].
      intros x Hx. apply Hpool2. lia.
    - lia. }
  destruct (probe_chain_ok st2 (Z.to_nat (pool_alloc st1 + 1)) (pool_alloc st) s (nm_of a)
              (bk h) (Z.to_nat (heap_alloc st1)) h) as [(p & Hp & En & Ep)|(Hn & Ep)].
  - rewrite Hha. apply nodup_bound; [now apply (i_nodup _ _ _ I)|].
    intros x Hx. apply (i_bk _ _ _ I) in Hx; [|exact Hhr]. destruct Hx as (y & Hy & _).
    destruct (i_sym _ _ _ I _ _ Hy) as (S1 & S2 & _). unfold HASH_PRIME in *. lia.
  - cbn. rewrite Hh. now apply (i_chain _ _ _ I).
  - exact Hsame.
  - (* found *)
    change (heap st2 h) with (heap st1 h) in Ep. rewrite Ep. intros [= <- <-].
    apply (i_bk _ _ _ I) in Hp; [|exact Hhr]. destruct Hp as (y & Hy & Hyh).
    rewrite (nm_of_ok _ _ _ _ _ I Hy) in En.
    destruct (find_name (syms a) s) as [q|] eqn:Ef.
    2:{ exfalso. exact (find_name_in _ _ _ _ Hy En Ef). }
    destruct (find_name_some _ _ _ Ef) as (z & Hz & Ez).
    split; [eapply (i_names _ _ _ I); eauto; congruence|].
    exists bk. cbn [astep]. rewrite Ef.
    split; cbn [heap heap_alloc pool pool_alloc]; try (apply I).
    + intros x Hx. rewrite Hh. now apply (i_chain _ _ _ I).
    + rewrite Hha. auto.
    + intros x w Hx. rewrite Hh, Hha. destruct (i_sym _ _ _ I _ _ Hx) as (S1 & S2 & S3 & S4 & S5 & S6 & S7 & S8 & S9).
      repeat split; auto. eapply str_at_frame; [|exact S6]. intros u Hu. apply Hpool2. lia.
    + intros x w Hx. rewrite Hha. destruct (i_obj _ _ _ I _ _ Hx) as (O1 & O2 & O3).
      repeat split; auto. intros i Hi. cbn [heap]. rewrite Hh. auto.
  - (* new *)
    change (heap st2 h) with (heap st1 h) in Ep. rewrite Ep.
    destruct (alloc_obj st2 5) as [[st3 p]|] eqn:Eal; [|discriminate].
    apply alloc_obj_inv in Eal as [-> ->]. cbn [heap_alloc heap pool pool_alloc st2].
    intros [= <- <-].
    assert (Hfn : find_name (syms a) s = None).
    { destruct (find_name (syms a) s) as [q|] eqn:Ef; [|reflexivity]. exfalso.
      destruct (find_name_some _ _ _ Ef) as (z & Hz & Ez).
      apply (Hn q).
      - apply (i_bk _ _ _ I); [exact Hhr|]. exists z. unfold h. now rewrite Ez.
      - now rewrite (nm_of_ok _ _ _ _ _ I Hz). }
    rewrite Hfn. cbn [astep]. rewrite Hfn.
    set (p := heap_alloc st1) in *.
    assert (Hpalloc : p = heap_alloc st) by exact Hha.
    split.
    { intros q y Hq ->. destruct (i_sym _ _ _ I _ _ Hq) as (S1 & S2 & _). lia. }
    set (prev := last (bk h) h) in *.
    assert (Hprev : prev = h \/ In prev (bk h)).
    { destruct (last_in (bk h) h) as [[E _]|E]; [left; exact E|right; exact E]. }
    assert (Hprev_lt : 0 <= prev /\ prev + (if prev <? HASH_PRIME then 1 else 5) <= p).
    { destruct Hprev as [->|Hin].
      - destruct (Z.ltb_spec h HASH_PRIME); lia.
      - apply (i_bk _ _ _ I) in Hin; [|exact Hhr]. destruct Hin as (y & Hy & _).
        destruct (i_sym _ _ _ I _ _ Hy) as (S1 & S2 & _).
        destruct (Z.ltb_spec prev HASH_PRIME); lia. }
    set (base := mkStore (upd (heap st1) prev p) (p + 5) (upd (pool st1) (pool_alloc st1) 0) (pool_alloc st1 + 1)).
    set (fields := [0; pool_alloc st; IDENTIFIER; 0; pool_alloc st1 + 1 - pool_alloc st - 1]).
    change (mkStore (upd (heap st1) prev p) (p + 5) (upd (pool st1) (pool_alloc st1) 0)
             (pool_alloc st1 + 1)) with base.
    replace (hset (mkStore (heap st1) (p + 5) (upd (pool st1) (pool_alloc st1) 0) (pool_alloc st1 + 1)) prev p)
      with base by reflexivity.
    set (fin := hset_list base p fields).
    destruct (hset_list_spec fields base p) as (F1 & F2 & F3 & F4 & F5).
    fold fin in F1, F2, F3, F4, F5. cbn [heap heap_alloc pool pool_alloc base] in F1, F2, F3, F4.
    change (Z.of_nat (length fields)) with 5 in F4.
    assert (G0 : heap fin p = 0) by (rewrite <- (Z.add_0_r p); exact (F5 0%nat ltac:(cbn; lia))).
    assert (G1 : heap fin (p + 1) = pool_alloc st) by exact (F5 1%nat ltac:(cbn; lia)).
    assert (G2 : heap fin (p + 2) = IDENTIFIER) by exact (F5 2%nat ltac:(cbn; lia)).
    assert (G3 : heap fin (p + 3) = 0) by exact (F5 3%nat ltac:(cbn; lia)).
    assert (G4 : heap fin (p + 4) = pool_alloc st1 + 1 - pool_alloc st - 1) by exact (F5 4%nat ltac:(cbn; lia)).
    assert (Hout : forall x, (x < p \/ p + 5 <= x) -> x <> prev -> heap fin x = heap st x).
    { intros x Hx Hne. rewrite F4 by exact Hx. rewrite upd_other by exact Hne. now rewrite Hh. }
    (* a field of an old symbol other than the link is not [prev] *)
    assert (Hsymf : forall q y k, In (q, y) (syms a) -> 1 <= k < 5 -> heap fin (q + k) = heap st (q + k)).
    { intros q y k Hq Hk. destruct (i_sym _ _ _ I _ _ Hq) as (S1 & S2 & _).
      apply Hout; [lia|]. destruct Hprev as [->|Hin]; [lia|].
      apply (i_bk _ _ _ I) in Hin; [|exact Hhr]. destruct Hin as (z & Hz & _).
      destruct (i_dss _ _ _ I _ _ _ _ Hq Hz) as [[E _]|D]; [lia|]. unfold disjoint in D. lia. }
    exists (fun x => if x =? h then bk h ++ [p] else bk x).
    assert (Hpn : ~ In p (h :: bk h)).
    { intros [E|Hin]; [lia|]. apply (i_bk _ _ _ I) in Hin; [|exact Hhr]. destruct Hin as (y & Hy & _).
      destruct (i_sym _ _ _ I _ _ Hy) as (S1 & S2 & _). lia. }
    assert (Hhn : ~ In h (bk h)).
    { intros Hin. apply (i_bk _ _ _ I) in Hin; [|exact Hhr]. destruct Hin as (y & Hy & _).
      destruct (i_sym _ _ _ I _ _ Hy) as (S1 & S2 & _). lia. }
    match goal with |- inv ?b _ ?x => change (inv b fin x) end.
    clearbody fin. split; cbn [syms objs].
    + (* chains *)
      intros x Hx. destruct (Z.eqb_spec x h) as [->|Hne].
      * assert (C : chain (upd (upd (heap st) prev p) p 0) h (bk h ++ [p])).
        { apply chain_snoc; auto.
          - constructor; [exact Hhn|]. now apply (i_nodup _ _ _ I).
          - unfold HASH_PRIME in *; lia.
          - now apply (i_chain _ _ _ I). }
        eapply chain_frame; [|exact C]. intros u Hu.
        assert (Hup : u = p \/ u < p).
        { destruct Hu as [->|Hu]; [lia|]. apply in_app_iff in Hu. destruct Hu as [Hu|[<-|[]]]; [|auto].
          apply (i_bk _ _ _ I) in Hu; [|exact Hhr]. destruct Hu as (y & Hy & _).
          destruct (i_sym _ _ _ I _ _ Hy) as (S1 & S2 & _). lia. }
        destruct Hup as [->|Hlt].
        -- rewrite upd_same. exact G0.
        -- rewrite F4 by lia. rewrite (upd_other _ p 0) by lia. unfold upd. now rewrite Hh.
      * eapply chain_frame; [|now apply (i_chain _ _ _ I)]. intros u Hu.
        apply Hout.
        -- destruct Hu as [->|Hu]; [lia|]. apply (i_bk _ _ _ I) in Hu; [|exact Hx].
           destruct Hu as (y & Hy & _). destruct (i_sym _ _ _ I _ _ Hy) as (S1 & S2 & _). lia.
        -- intros ->. destruct Hu as [E|Hu].
           ++ destruct Hprev as [E'|Hin]; [congruence|].
              apply (i_bk _ _ _ I) in Hin; [|exact Hhr]. destruct Hin as (y & Hy & _).
              destruct (i_sym _ _ _ I _ _ Hy) as (S1 & _). lia.
           ++ apply (i_bk _ _ _ I) in Hu; [|exact Hx]. destruct Hu as (y & Hy & Ey).
              destruct Hprev as [E'|Hin].
              ** destruct (i_sym _ _ _ I _ _ Hy) as (S1 & _). lia.
              ** apply (i_bk _ _ _ I) in Hin; [|exact Hhr]. destruct Hin as (z & Hz & Ez).
                 destruct (i_dss _ _ _ I _ _ _ _ Hy Hz) as [[_ ->]|D]; [congruence|].
                 unfold disjoint in D. lia.
    + intros x Hx. destruct (Z.eqb_spec x h) as [->|Hne]; [|now apply (i_nodup _ _ _ I)].
      assert (N : NoDup (bk h)) by now apply (i_nodup _ _ _ I).
      apply (NoDup_Add (a := p) (l := bk h)).
      * pose proof (Add_app p (bk h) []) as A. rewrite app_nil_r in A. exact A.
      * split; [exact N|]. intros Hin. apply Hpn. now right.
    + intros x q Hx. cbn [syms]. destruct (Z.eqb_spec x h) as [->|Hne].
      * rewrite in_app_iff. rewrite (i_bk _ _ _ I) by exact Hhr. split.
        -- intros [(y & Hy & Ey)|[<-|[]]].
           ++ exists y. split; [now right|exact Ey].
           ++ eexists. split; [now left|]. reflexivity.
        -- intros (y & [[= <- <-]|Hy] & Ey); [right; now left|left; eauto].
      * rewrite (i_bk _ _ _ I) by exact Hx. split.
        -- intros (y & Hy & Ey). exists y. split; [now right|exact Ey].
        -- intros (y & [[= <- <-]|Hy] & Ey); [cbn in Ey; unfold h in Hne; congruence|eauto].
    + rewrite F1, F3. lia.
    + intros q y [[= <- <-]|Hq].
      * rewrite F1, F3. cbn [sym_name sym_kind sym_tag]. rewrite G1, G2, G3, G4.
        repeat split; auto; try lia.
        rewrite F2. exact Hnew.
      * destruct (i_sym _ _ _ I _ _ Hq) as (S1 & S2 & S3 & S4 & S5 & S6 & S7 & S8 & S9).
        rewrite !(Hsymf q y) by (auto; lia). rewrite F1, F3.
        repeat split; auto; try lia.
        rewrite F2. eapply str_at_frame; [|exact S6]. intros x Hx.
        apply (Hpool2 x). lia.
    + intros q y q' z [[= <- <-]|Hq] [[= <- <-]|Hq'] E; auto.
      * exfalso. cbn in E. exact (find_name_none _ _ Hfn _ _ Hq' (eq_sym E)).
      * exfalso. cbn in E. exact (find_name_none _ _ Hfn _ _ Hq E).
      * eapply (i_names _ _ _ I); eauto.
    + intros q y q' z [[= <- <-]|Hq] [[= <- <-]|Hq']; auto.
      * right. destruct (i_sym _ _ _ I _ _ Hq') as (S1 & S2 & _). unfold disjoint. lia.
      * right. destruct (i_sym _ _ _ I _ _ Hq) as (S1 & S2 & _). unfold disjoint. lia.
      * eapply (i_dss _ _ _ I); eauto.
    + intros q ws Hq. destruct (i_obj _ _ _ I _ _ Hq) as (O1 & O2 & O3). rewrite F1.
      repeat split; auto; try lia.
      intros i Hi. rewrite <- (O3 i Hi). apply Hout; [lia|].
      intros E. destruct Hprev as [E'|Hin]; [lia|].
      apply (i_bk _ _ _ I) in Hin; [|exact Hhr]. destruct Hin as (z & Hz & _).
      pose proof (i_dso _ _ _ I _ _ _ _ Hz Hq) as D. unfold disjoint in D. lia.
    + intros q y q' ws [[= <- <-]|Hq] Hq'.
      * destruct (i_obj _ _ _ I _ _ Hq') as (O1 & O2 & _). unfold disjoint. lia.
      * eapply (i_dso _ _ _ I); eauto.
    + apply I.
Qed.

Lemma new_object_step bk st a ws st' r :
  inv bk st a -> new_object st ws = Some (st', r) ->
  r = heap_alloc st /\ inv bk st' (astep a (NewObj ws) r).
Proof.
  intros I. unfold new_object.
  destruct (alloc_obj st (Z.of_nat (length ws))) as [[st1 p]|] eqn:E; [|discriminate].
  apply alloc_obj_inv in E as [-> ->]. intros [= <- <-]. split; [reflexivity|].
  set (base := mkStore (heap st) (heap_alloc st + Z.of_nat (length ws)) (pool st) (pool_alloc st)).
  destruct (hset_list_spec ws base (heap_alloc st)) as (F1 & F2 & F3 & F4 & F5).
  set (fin := hset_list base (heap_alloc st) ws) in *.
  cbn [heap heap_alloc pool pool_alloc base] in F1, F2, F3, F4.
  destruct (i_alloc _ _ _ I) as [Ial1 Ial2].
  assert (Hlow : forall x, x < heap_alloc st -> heap fin x = heap st x) by (intros; apply F4; lia).
  cbn [astep]. split; cbn [syms objs]; try apply I.
  - intros h Hh. eapply chain_frame; [|now apply (i_chain _ _ _ I)].
    intros x [->|Hx]; apply Hlow; [lia|]. apply (i_bk _ _ _ I) in Hx; [|exact Hh].
    destruct Hx as (y & Hy & _). destruct (i_sym _ _ _ I _ _ Hy) as (S1 & S2 & _). lia.
  - rewrite F1, F3. lia.
  - intros q y Hq. destruct (i_sym _ _ _ I _ _ Hq) as (S1 & S2 & S3 & S4 & S5 & S6 & S7 & S8 & S9).
    rewrite !Hlow by lia. rewrite F1, F2, F3. repeat split; auto; lia.
  - intros q vs [[= <- <-]|Hq].
    + rewrite F1. repeat split; [lia|lia|exact F5].
    + destruct (i_obj _ _ _ I _ _ Hq) as (O1 & O2 & O3). rewrite F1. repeat split; [lia|lia|].
      intros i Hi. rewrite Hlow by lia. auto.
  - intros q y q' vs Hq [[= <- <-]|Hq'].
    + destruct (i_sym _ _ _ I _ _ Hq) as (S1 & S2 & _). unfold disjoint. lia.
    + eapply (i_dso _ _ _ I); eauto.
  - intros q vs q' us [[= <- <-]|Hq] [[= <- <-]|Hq']; auto.
    + right. destruct (i_obj _ _ _ I _ _ Hq') as (O1 & O2 & _). unfold disjoint. lia.
    + right. destruct (i_obj _ _ _ I _ _ Hq) as (O1 & O2 & _). unfold disjoint. lia.
    + eapply (i_doo _ _ _ I); eauto.
Qed.

Lemma list_set_length ws : forall i v, length (list_set ws i v) = length ws.
Proof. induction ws as [|w r IH]; intros [|i] v; cbn; auto. Qed.
Lemma list_set_nth ws : forall i j v, (i < length ws)%nat ->
  nth j (list_set ws i v) 0 = if Nat.eqb j i then v else nth j ws 0.
Proof.
  induction ws as [|w r IH]; intros i j v Hi; [cbn in Hi; lia|].
  destruct i, j; cbn; auto. apply IH. cbn in Hi. lia.
Qed.

Lemma in_map_at {A} p (f : A -> A) l q x : In (q, x) (map_at p f l) ->
  exists y, In (q, y) l /\ x = (if q =? p then f y else y).
Proof.
  unfold map_at. rewrite in_map_iff. intros ([q' y] & E & Hin). cbn in E.
  destruct (Z.eqb_spec q' p); injection E as <- <-; exists y; (split; [exact Hin|]).
  - subst. now rewrite Z.eqb_refl.
  - destruct (Z.eqb_spec q' p); [contradiction|reflexivity].
Qed.

Lemma in_map_at_fwd {A} p (f : A -> A) l q y : In (q, y) l ->
  In (q, if q =? p then f y else y) (map_at p f l).
Proof.
  unfold map_at. rewrite in_map_iff. intros Hin. exists (q, y). split; [|exact Hin]. cbn.
  destruct (q =? p); reflexivity.
Qed.

Lemma set_field_step bk st a q i v ws :
  inv bk st a -> In (q, ws) (objs a) -> 0 <= i < Z.of_nat (length ws) ->
  inv bk (hset st (q + i) v) (astep a (SetField q i v) 0).
Proof.
  intros I Hin Hi. destruct (i_obj _ _ _ I _ _ Hin) as (O1 & O2 & O3).
  assert (Hsym : forall p y k, In (p, y) (syms a) -> 0 <= k < 5 -> heap (hset st (q + i) v) (p + k) = heap st (p + k)).
  { intros p y k Hp Hk. cbn. apply upd_other.
    pose proof (i_dso _ _ _ I _ _ _ _ Hp Hin) as D. unfold disjoint in D. lia. }
  cbn [astep]. split; cbn [syms objs]; try apply I.
  - intros h Hh. eapply chain_frame; [|now apply (i_chain _ _ _ I)].
    intros x [->|Hx].
    + cbn. apply upd_other. lia.
    + apply (i_bk _ _ _ I) in Hx; [|exact Hh]. destruct Hx as (y & Hy & _).
      rewrite <- (Z.add_0_r x). apply (Hsym x y 0 Hy). lia.
  - intros p y Hp. rewrite !(Hsym p y) by (auto; lia). cbn [pool pool_alloc heap_alloc hset].
    now apply (i_sym _ _ _ I).
  - intros p us Hp. apply in_map_at in Hp as (vs & Hvs & ->).
    destruct (i_obj _ _ _ I _ _ Hvs) as (P1 & P2 & P3).
    destruct (Z.eqb_spec p q) as [->|Hne].
    + rewrite list_set_length. repeat split; auto. intros j Hj. rewrite list_set_length in Hj.
      destruct (i_doo _ _ _ I _ _ _ _ Hvs Hin) as [[_ ->]|D].
      * rewrite list_set_nth by lia. cbn. unfold upd.
        destruct (Nat.eqb_spec j (Z.to_nat i)) as [->|Hne].
        -- destruct (Z.eqb_spec (q + Z.of_nat (Z.to_nat i)) (q + i)); [reflexivity|lia].
        -- destruct (Z.eqb_spec (q + Z.of_nat j) (q + i)); [lia|]. apply P3. exact Hj.
      * unfold disjoint in D. lia.
    + repeat split; auto. intros j Hj. cbn. rewrite upd_other; [apply P3; exact Hj|].
      destruct (i_doo _ _ _ I _ _ _ _ Hvs Hin) as [[E _]|D]; [contradiction|]. unfold disjoint in D. lia.
  - intros p y q' us Hp Hq. apply in_map_at in Hq as (vs & Hvs & ->).
    replace (length (if q' =? q then _ else _)) with (length vs)
      by (destruct (q' =? q); [now rewrite list_set_length|reflexivity]).
    eapply (i_dso _ _ _ I); eauto.
  - intros p us q' us' Hp Hq. apply in_map_at in Hp as (vs & Hvs & ->).
    apply in_map_at in Hq as (vs' & Hvs' & ->).
    destruct (i_doo _ _ _ I _ _ _ _ Hvs Hvs') as [[-> ->]|D]; [left; auto|]. right.
    replace (length (if p =? q then _ else _)) with (length vs)
      by (destruct (p =? q); [now rewrite list_set_length|reflexivity]).
    replace (length (if q' =? q then _ else _)) with (length vs')
      by (destruct (q' =? q); [now rewrite list_set_length|reflexivity]).
    exact D.
Qed.

Lemma set_attr_step bk st a p v y0 k (f : sym -> sym) :
  inv bk st a -> In (p, y0) (syms a) -> (k = 2 \/ k = 3) ->
  (forall y, sym_name (f y) = sym_name y) ->
  (forall y, sym_kind (f y) = if k =? 2 then v else sym_kind y) ->
  (forall y, sym_tag (f y) = if k =? 3 then v else sym_tag y) ->
  inv bk (hset st (p + k) v) (mkA (map_at p f (syms a)) (objs a)).
Proof.
  intros I Hp Hk Fn Fk Ft. destruct (i_sym _ _ _ I _ _ Hp) as (P1 & P2 & _).
  assert (Hname : forall q y, sym_name (if q =? p then f y else y) = sym_name y)
    by (intros q y; destruct (q =? p); auto).
  split; cbn [syms objs].
  - intros h Hh. eapply chain_frame; [|now apply (i_chain _ _ _ I)].
    intros x [->|Hx]; cbn; apply upd_other; [unfold HASH_PRIME in *; lia|].
    apply (i_bk _ _ _ I) in Hx; [|exact Hh]. destruct Hx as (y & Hy & _).
    destruct (i_dss _ _ _ I _ _ _ _ Hy Hp) as [[-> _]|D]; [lia|]. unfold disjoint in D. lia.
  - apply I.
  - intros h q Hh. rewrite (i_bk _ _ _ I) by exact Hh. split.
    + intros (y & Hy & E). exists (if q =? p then f y else y).
      split; [now apply in_map_at_fwd|]. now rewrite Hname.
    + intros (y & Hy & E). apply in_map_at in Hy as (z & Hz & ->). exists z. split; [exact Hz|].
      now rewrite Hname in E.
  - apply I.
  - intros q y Hq. apply in_map_at in Hq as (z & Hz & ->). rewrite Hname.
    destruct (i_sym _ _ _ I _ _ Hz) as (S1 & S2 & S3 & S4 & S5 & S6 & S7 & S8 & S9).
    assert (Hf : forall j, 1 <= j < 5 -> (q = p -> j <> k) -> heap (hset st (p + k) v) (q + j) = heap st (q + j)).
    { intros j Hj Hne. cbn. apply upd_other.
      destruct (i_dss _ _ _ I _ _ _ _ Hz Hp) as [[-> _]|D]; [specialize (Hne eq_refl); lia|].
      unfold disjoint in D. lia. }
    rewrite (Hf 1), (Hf 4) by lia. cbn [pool pool_alloc heap_alloc hset].
    repeat split; auto.
    + destruct (Z.eqb_spec q p) as [->|Hne].
      * rewrite Fk. destruct (Z.eqb_spec k 2) as [->|].
        -- cbn. apply upd_same.
        -- rewrite Hf by lia. exact S3.
      * rewrite Hf by lia. exact S3.
    + destruct (Z.eqb_spec q p) as [->|Hne].
      * rewrite Ft. destruct (Z.eqb_spec k 3) as [->|].
        -- cbn. apply upd_same.
        -- rewrite Hf by lia. exact S4.
      * rewrite Hf by lia. exact S4.
  - intros q y q' z Hq Hq'. apply in_map_at in Hq as (y1 & Hy1 & ->).
    apply in_map_at in Hq' as (z1 & Hz1 & ->). rewrite !Hname. now apply (i_names _ _ _ I).
  - intros q y q' z Hq Hq'. apply in_map_at in Hq as (y1 & Hy1 & ->).
    apply in_map_at in Hq' as (z1 & Hz1 & ->).
    destruct (i_dss _ _ _ I _ _ _ _ Hy1 Hz1) as [[-> ->]|D]; auto.
  - intros q ws Hq. destruct (i_obj _ _ _ I _ _ Hq) as (O1 & O2 & O3).
    repeat split; auto. intros i Hi. cbn. rewrite upd_other; [now apply O3|].
    pose proof (i_dso _ _ _ I _ _ _ _ Hp Hq) as D. unfold disjoint in D. lia.
  - intros q y q' ws Hq Hq'. apply in_map_at in Hq as (y1 & Hy1 & _). eapply (i_dso _ _ _ I); eauto.
  - apply I.
Qed.

Lemma reach_inv st a h : reach st a h -> exists bk, inv bk st a.
Proof.
  induction 1 as [|st a h o st' r _ [bk I] Hok Hs].
  - exists (fun _ => []). exact inv0.
  - destruct o as [s|ws|q i v|p v|p v]; cbn [step client_ok] in *.
    + destruct (intern_step _ _ _ _ _ _ I Hok Hs) as [_ ?]. assumption.
    + destruct (new_object_step _ _ _ _ _ _ I Hs) as [_ ?]. eauto.
    + destruct Hok as (ws & Hin & Hi). injection Hs as <- <-. exists bk. eapply set_field_step; eauto.
    + destruct Hok as (y & Hy). injection Hs as <- <-. exists bk. cbn [astep].
      eapply set_attr_step; eauto.
    + destruct Hok as (y & Hy). injection Hs as <- <-. exists bk. cbn [astep].
      eapply set_attr_step; eauto.
Qed.

Lemma inv_agrees bk st a : inv bk st a -> agrees st a.
Proof.
  intros I. split.
  - intros p y Hp. destruct (i_sym _ _ _ I _ _ Hp) as (S1 & S2 & S3 & S4 & S5 & S6 & S7 & S8 & S9).
    apply str_at_nth in S6 as [T1 T2]. repeat split; auto.
  - intros p ws Hp. apply (i_obj _ _ _ I _ _ Hp).
Qed.

(** An interned name is in the abstract table for ever after, with the returned id. *)
Lemma astep_keeps_name a o r p y : In (p, y) (syms a) ->
  exists y', In (p, y') (syms (astep a o r)) /\ sym_name y' = sym_name y.
Proof.
  intros Hin. destruct o as [s|ws|q i v|q v|q v]; cbn [astep].
  - destruct (find_name (syms a) s); cbn [syms]; [eauto|]. exists y. split; [now right|reflexivity].
  - eauto.
  - eauto.
  - cbn [syms]. eexists. split; [eapply in_map_at_fwd; eauto|]. destruct (p =? q); reflexivity.
  - cbn [syms]. eexists. split; [eapply in_map_at_fwd; eauto|]. destruct (p =? q); reflexivity.
Qed.

Lemma reach_intern st a h s r : reach st a h -> In (Intern s, r) h ->
  exists y, In (r, y) (syms a) /\ sym_name y = s.
Proof.
  induction 1 as [|st a h o st' r' Hr IH Hok Hs]; [intros []|].
  intros [[= -> ->]|Hin].
  - destruct (reach_inv _ _ _ Hr) as [bk I]. cbn [step client_ok] in *.
    destruct (intern_step _ _ _ _ _ _ I Hok Hs) as [Hres _]. cbn [astep].
    destruct (find_name (syms a) s) as [p|] eqn:Ef.
    + subst p. apply find_name_some. exact Ef.
    + cbn [syms]. eexists. split; [now left|reflexivity].
  - destruct (IH Hin) as (y & Hy & Ey).
    destruct (astep_keeps_name a o r' _ _ Hy) as (y' & Hy' & Ey'). exists y'. split; [exact Hy'|congruence].
Qed.

Lemma intern_faithful st a h s1 r1 s2 r2 : reach st a h ->
  In (Intern s1, r1) h -> In (Intern s2, r2) h -> (r1 = r2 <-> s1 = s2).
Proof.
  intros Hr H1 H2. destruct (reach_inv _ _ _ Hr) as [bk I].
  destruct (reach_intern _ _ _ _ _ Hr H1) as (y1 & Y1 & E1).
  destruct (reach_intern _ _ _ _ _ Hr H2) as (y2 & Y2 & E2). split.
  - intros ->. destruct (i_dss _ _ _ I _ _ _ _ Y1 Y2) as [[_ ->]|D]; [congruence|].
    unfold disjoint in D. lia.
  - intros ->. eapply (i_names _ _ _ I); eauto. congruence.
Qed.

(** ** Node encoding *)
Lemma header_decode opc n : 0 <= opc < 1024 -> 0 <= n ->
  Z.land (opc + 1024 * n) 1023 = opc /\ Z.shiftr (opc + 1024 * n) 10 = n.
Proof.
  intros Ho Hn. change 1023 with (Z.ones 10). rewrite Z.land_ones by lia.
  rewrite Z.shiftr_div_pow2 by lia. change (2 ^ 10) with 1024.
  replace (opc + 1024 * n) with (opc + n * 1024) by ring.
  rewrite Z.mod_add, Z.div_add by lia. rewrite Z.mod_small, Z.div_small by lia. lia.
Qed.

(** clone: the fresh object's words are those of the original *)
Lemma copy_children_spec src dst n : forall k i st,
  0 <= i -> (dst + 1 + i + Z.of_nat k <= src \/ src + 1 + n <= dst) -> i + Z.of_nat k <= n ->
  let st' := copy_children k i st dst src in
  heap_alloc st' = heap_alloc st /\ pool st' = pool st /\ pool_alloc st' = pool_alloc st /\
  (forall x, x <= dst + i \/ dst + i + Z.of_nat k < x -> heap st' x = heap st x) /\
  (forall j, i <= j < i + Z.of_nat k -> heap st' (dst + j + 1) = heap st (src + j + 1)).
Proof.
  induction k as [|k IH]; intros i st Hi Hd Hn.
  - cbn. repeat split; auto. intros j Hj. lia.
  - cbn [copy_children]. set (st1 := set_child st dst i (get_child st src i)).
    destruct (IH (i + 1) st1) as (H1 & H2 & H3 & H4 & H5); [lia|lia|lia|].
    cbn zeta. repeat split; try assumption.
    + intros x Hx. rewrite H4 by lia. unfold st1, set_child, hset. cbn. apply upd_other. lia.
    + intros j Hj. destruct (Z.eq_dec j i) as [->|Hne].
      * rewrite H4 by lia. unfold st1, set_child, hset. cbn. rewrite upd_same. reflexivity.
      * rewrite H5 by lia. unfold st1, set_child, hset. cbn. apply upd_other. lia.
Qed.

(** ** Progress: interning fails only when a store is exhausted *)
Lemma accum_all_total s : forall st h,
  (s = [] \/ pool_alloc st + Z.of_nat (length s) < STRING_POOL_SIZE) ->
  exists st' h', accum_all st h s = Some (st', h').
Proof.
  induction s as [|c r IH]; intros st h Hlen; cbn [accum_all]; [eauto|].
  destruct Hlen as [Hlen|Hlen]; [discriminate|]. cbn [length] in Hlen.
  unfold accum_string. cbn [pool_alloc].
  destruct (Z.leb_spec STRING_POOL_SIZE (pool_alloc st + 1)); [lia|].
  apply IH. cbn [pool_alloc]. right. lia.
Qed.

Lemma intern_total bk st a s :
  inv bk st a -> clean s -> heap_alloc st + 5 <= HEAP_SIZE ->
  (s = [] \/ pool_alloc st + Z.of_nat (length s) < STRING_POOL_SIZE) ->
  exists st' r, intern st s = Some (st', r).
Proof.
  intros I Hcl Hheap Hlen. unfold intern.
  destruct (accum_all_total s st 0 Hlen) as (st1 & h & Eacc). rewrite Eacc.
  apply accum_all_ok in Eacc. destruct Eacc as (-> & Hh & Hha & Hpa & Hpx & Hpi).
  destruct (i_alloc _ _ _ I) as [Ial1 Ial2].
  assert (Hhr : 0 <= hash_from 0 s < HASH_PRIME)
    by (apply hash_from_range; [now apply clean_ext|unfold HASH_PRIME; lia]).
  set (h := hash_from 0 s) in *.
  unfold end_ident. cbn [heap heap_alloc pool pool_alloc].
  set (st2 := mkStore (heap st1) (heap_alloc st1) (upd (pool st1) (pool_alloc st1) 0) (pool_alloc st1 + 1)).
  destruct (probe_chain_ok st2 (Z.to_nat (pool_alloc st1 + 1)) (pool_alloc st) s (nm_of a)
              (bk h) (Z.to_nat (heap_alloc st1)) h) as [(p & Hp & En & Ep)|(Hn & Ep)].
  - rewrite Hha. apply nodup_bound; [now apply (i_nodup _ _ _ I)|].
    intros x Hx. apply (i_bk _ _ _ I) in Hx; [|exact Hhr]. destruct Hx as (y & Hy & _).
    destruct (i_sym _ _ _ I _ _ Hy) as (S1 & S2 & _). unfold HASH_PRIME in *. lia.
  - cbn. rewrite Hh. now apply (i_chain _ _ _ I).
  - intros p Hp. apply (i_bk _ _ _ I) in Hp; [|exact Hhr]. destruct Hp as (y & Hy & _).
    rewrite (nm_of_ok _ _ _ _ _ I Hy).
    destruct (i_sym _ _ _ I _ _ Hy) as (S1 & S2 & S3 & S4 & S5 & S6 & S7 & S8 & S9).
    apply same_string_ok; auto.
    + apply str_at_nth. split.
      * intros i Hi. cbn. rewrite upd_other by lia. auto.
      * cbn. rewrite Hpa. apply upd_same.
    + cbn. rewrite Hh. eapply str_at_frame; [|exact S6].
      intros x Hx. cbn. rewrite upd_other by lia. apply Hpx. lia.
    + lia.
  - change (heap st2 h) with (heap st1 h) in Ep. rewrite Ep. eauto.
  - change (heap st2 h) with (heap st1 h) in Ep. rewrite Ep.
    unfold alloc_obj. cbn [heap_alloc st2].
    destruct (Z.ltb_spec HEAP_SIZE (heap_alloc st1 + 5)); [lia|]. eauto.
Qed.

Lemma intern_new_pool st s st' r : intern st s = Some (st', r) ->
  pool_alloc st' = pool_alloc st \/ pool_alloc st' = pool_alloc st + Z.of_nat (length s) + 1.
Proof.
  unfold intern. destruct (accum_all st 0 s) as [[st1 h]|] eqn:E; [|discriminate].
  apply accum_all_ok in E. destruct E as (_ & _ & _ & Hpa & _).
  unfold end_ident. cbn [heap heap_alloc pool pool_alloc].
  destruct (probe_chain _ _ _ _ _ _) as [[p|prev]|]; [| |discriminate].
  - intros [= <- <-]. now left.
  - destruct (alloc_obj _ 5) as [[st3 p]|] eqn:Ea; [|discriminate].
    apply alloc_obj_inv in Ea as [-> ->]. intros [= <- <-]. right. cbn. lia.
Qed.

(** From the empty store the first string is always new. *)
Lemma intern_first s : clean s -> (s = [] \/ Z.of_nat (length s) < STRING_POOL_SIZE) ->
  exists st' r, intern store0 s = Some (st', r) /\ pool_alloc st' = Z.of_nat (length s) + 1 /\
                heap_alloc st' = HASH_PRIME + 5.
Proof.
  intros Hcl Hlen. unfold intern.
  destruct (accum_all_total s store0 0) as (st1 & h & Eacc); [cbn; tauto|]. rewrite Eacc.
  apply accum_all_ok in Eacc. destruct Eacc as (-> & Hh & Hha & Hpa & _).
  unfold end_ident. cbn [heap heap_alloc pool pool_alloc].
  assert (E : forall f cf st x y, probe_chain f cf st x y 0 = Some (NotFound y))
    by (intros [|f] ? ? ? ?; reflexivity).
  replace (heap st1 (hash_from 0 s)) with 0 by (rewrite Hh; reflexivity). rewrite E.
  unfold alloc_obj. cbn [heap_alloc].
  rewrite Hha. cbn [heap_alloc store0]. change (HEAP_SIZE <? HASH_PRIME + 5) with false.
  do 2 eexists. split; [reflexivity|]. cbn. rewrite Hpa. cbn. lia.
Qed.

Lemma reach_heap_bound st a h : reach st a h -> heap_alloc st <= HEAP_SIZE.
Proof.
  induction 1 as [|st a h o st' r Hr IH Hok Hs]; [cbn; unfold HASH_PRIME, HEAP_SIZE; lia|].
  destruct o as [s|ws|q i v|p v|p v]; cbn [step] in Hs; try (injection Hs as <- <-; exact IH).
  - unfold intern in Hs. destruct (accum_all st 0 s) as [[st1 hh]|] eqn:E; [|discriminate].
    apply accum_all_ok in E. destruct E as (_ & Hh & Hha & Hpa & _).
    unfold end_ident in Hs. cbn [heap heap_alloc pool pool_alloc] in Hs.
    destruct (probe_chain _ _ _ _ _ _) as [[p|prev]|]; [| |discriminate].
    + injection Hs as <- <-. cbn. lia.
    + unfold alloc_obj in Hs. cbn [heap_alloc] in Hs.
      destruct (Z.ltb_spec HEAP_SIZE (heap_alloc st1 + 5)); [discriminate|].
      injection Hs as <- <-. cbn. lia.
  - unfold new_object, alloc_obj in Hs. cbn [heap_alloc] in Hs.
    destruct (Z.ltb_spec HEAP_SIZE (heap_alloc st + Z.of_nat (length ws))); [discriminate|].
    injection Hs as <- <-.
    destruct (hset_list_spec ws (mkStore (heap st) (heap_alloc st + Z.of_nat (length ws)) (pool st) (pool_alloc st)) (heap_alloc st)) as (F1 & _).
    rewrite F1. cbn. lia.
Qed.

Lemma clone_ok st a h p opc ws : reach st a h -> In (p, ws) (objs a) ->
  0 <= opc < 1024 ->
  (exists v, ws = leaf_words opc v) \/ (exists cs, cs <> [] /\ ws = ast_words opc cs) ->
  forall st' q, clone_ast st p = Some (st', q) ->
  q = heap_alloc st /\ heap_alloc st' = heap_alloc st + Z.of_nat (length ws) /\
  (forall x, x < heap_alloc st -> heap st' x = heap st x) /\ obj_agrees st' q ws.
Proof.
  intros Hr Hin Ho Hws st' q. destruct (reach_inv _ _ _ Hr) as [bk I].
  destruct (i_obj _ _ _ I _ _ Hin) as (O1 & O2 & O3).
  set (n := Z.of_nat (length ws) - 1).
  assert (Hn : 1 <= n /\ (let nb := get_nb_children st p in if nb =? 0 then 1 else nb) = n).
  { unfold get_nb_children.
    assert (E0 : heap st p = nth 0 ws 0).
    { rewrite <- (Z.add_0_r p) at 1. apply (O3 0%nat). destruct Hws as [[v ->]|[cs [_ ->]]]; cbn; lia. }
    rewrite E0.
    destruct Hws as [[v ->]|[cs [Hne ->]]].
    - cbn [leaf_words nth]. destruct (header_decode opc 0 Ho ltac:(lia)) as [_ Hd].
      rewrite Z.mul_0_r, Z.add_0_r in Hd. rewrite Hd. cbn. unfold n. cbn. lia.
    - cbn [ast_words nth]. destruct (header_decode opc (Z.of_nat (length cs)) Ho ltac:(lia)) as [_ Hd].
      rewrite Hd. unfold n. cbn [ast_words length]. destruct cs as [|c cs]; [contradiction|].
      cbn [length]. cbv zeta. destruct (Z.eqb_spec (Z.of_nat (S (length cs))) 0); lia. }
  destruct Hn as [Hn1 Hn2]. unfold clone_ast. cbv zeta in Hn2. rewrite Hn2.
  destruct (alloc_obj st (n + 1)) as [[st1 q']|] eqn:Ea; [|discriminate].
  apply alloc_obj_inv in Ea as [-> ->]. cbn [heap]. intros [= <- <-].
  set (st1 := hset _ _ _).
  destruct (copy_children_spec p (heap_alloc st) n (Z.to_nat n) 0 st1) as (H1 & H2 & H3 & H4 & H5); try lia.
  split; [reflexivity|]. split; [rewrite H1; cbn; unfold n; lia|]. split.
  - intros x Hx. rewrite H4 by lia. cbn. apply upd_other. lia.
  - intros [|i] Hi.
    + rewrite Z.add_0_r, H4 by lia. cbn. rewrite upd_same. rewrite <- (Z.add_0_r p) at 1. apply (O3 0%nat). lia.
    + replace (heap_alloc st + Z.of_nat (S i)) with (heap_alloc st + Z.of_nat i + 1) by lia.
      rewrite H5 by lia. unfold st1, hset. cbn [heap]. rewrite upd_other by lia.
      rewrite <- (O3 (S i) Hi). f_equal. lia.
Qed.

(** * C18: deferred text is printed in order and exactly once *)
From Coq Require Import ZArith List Lia Bool.
From Verif Require Import Base Numerals Output AsmProof Text.
Import ListNotations.
Open Scope Z_scope.

(** [rep cm s t d]: the handle [t] stands for the document [d] in pool [s]. *)
Inductive rep (cm : Z -> Z) (s : tp) : Z -> doc -> Prop :=
| r_empty : rep cm s 0 DEmpty
| r_char c : 1 <= c <= 255 -> rep cm s (- c) (DChar c)
| r_int t n : 1 <= t -> t + 2 <= talloc s -> pool s t = TEXT_INTEGER -> pool s (t + 1) = n -> int_range n -> rep cm s t (DInt n)
| r_hex t n : 1 <= t -> t + 2 <= talloc s -> pool s t = TEXT_INTEGER_HEX -> pool s (t + 1) = n -> rep cm s t (DHex n)
| r_oct t n : 1 <= t -> t + 2 <= talloc s -> pool s t = TEXT_INTEGER_OCT -> pool s (t + 1) = n -> rep cm s t (DOct n)
| r_str t l : 1 <= t -> t + 3 <= talloc s -> pool s t = TEXT_STRING -> pool s (t + 2) = 0 ->
    at_ cm (pool s (t + 1)) (l ++ [0]) -> Forall (fun c => 1 <= c <= 255) l -> rep cm s t (DStr l)
| r_sub t l nx : 1 <= t -> t + 3 <= talloc s -> pool s t = TEXT_STRING -> pool s (t + 2) = pool s (t + 1) + zlen l ->
    pool s (t + 2) mod 4294967296 <> 0 ->
    at_ cm (pool s (t + 1)) (l ++ [nx]) -> Forall (fun c => 0 <= c <= 255) l -> rep cm s t (DSub l nx)
| r_cat t l : 1 <= t -> t + 2 + zlen l <= talloc s -> pool s t = TEXT_TREE -> pool s (t + 1) = zlen l ->
    reps cm s (t + 2) l -> rep cm s t (DCat l)
| r_esc t d (fp : bool) : 1 <= t -> t + 3 <= talloc s -> pool s t = TEXT_ESCAPED -> pool s (t + 2) = (if fp then 1 else 0) ->
    rep cm s (pool s (t + 1)) d -> rep cm s t (DEsc d fp)
with reps (cm : Z -> Z) (s : tp) : Z -> list doc -> Prop :=
| rs_nil a : reps cm s a []
| rs_cons a d l : rep cm s (pool s a) d -> reps cm s (a + 1) l -> reps cm s a (d :: l).
Scheme rep_m := Minimality for rep Sort Prop with reps_m := Minimality for reps Sort Prop.
Combined Scheme rep_mut from rep_m, reps_m.

Definition ext (s s' : tp) : Prop := talloc s <= talloc s' /\ forall x, 1 <= x < talloc s -> pool s' x = pool s x.
Lemma rep_ext cm s s' : ext s s' ->
  (forall t d, rep cm s t d -> rep cm s' t d) /\
  (forall a l, reps cm s a l -> 1 <= a -> a + zlen l <= talloc s -> reps cm s' a l).
Proof.
  intros [E1 E2].
  apply rep_mut; intros;
    repeat match goal with H : context [pool s ?x] |- _ => rewrite <- (E2 x) in H by lia end.
  all: try (econstructor; eauto; lia).
  - pose proof (zlen_nonneg l). apply r_cat; auto; try lia; rewrite ?E2 by lia; auto. apply H4; lia.
  - rewrite zlen_cons in *. pose proof (zlen_nonneg l). constructor; [|apply H2; lia]. rewrite E2 by lia. exact H0.
Qed.

(** A document that may be printed: escaped at most once, and a piece of a string outside an escape ends
    where the string does. *)
Fixpoint okd (e : bool) (d : doc) : bool :=
  match d with
  | DSub _ nx => e || (nx =? 0)
  | DCat l => forallb (okd e) l
  | DEsc d _ => negb e && okd true d
  | _ => true
  end.

Lemma byte_small c : 0 <= c <= 255 -> byte c = c.
Proof. intros. unfold byte. apply Z.mod_small. lia. Qed.
Lemma schar_neg c : 1 <= c <= 255 -> byte (- schar (- c)) = c.
Proof.
  intros H. unfold byte, schar.
  replace (- ((- c + 128) mod 256 - 128)) with (c + (((- c + 128) / 256)) * 256) by (pose proof (Z.div_mod (- c + 128) 256); lia).
  rewrite Z.mod_add by lia. apply Z.mod_small. lia.
Qed.
Lemma pec_byte a b fp : byte a = byte b -> print_escaped_char a fp = print_escaped_char b fp.
Proof. unfold print_escaped_char. now intros ->. Qed.

Section Strings.
Variable cm : Z -> Z.
Lemma putstr_ok : forall l p, at_ cm p (l ++ [0]) -> Forall (fun c => 1 <= c <= 255) l ->
  forall n, (length l < n)%nat -> putstr cm n p = Some l.
Proof.
  induction l as [|c l IH]; intros p H F n Hn; (destruct n as [|n]; [lia|]); cbn [putstr app at_ length] in *.
  - destruct H as [-> _]. reflexivity.
  - destruct H as [-> H]. inversion F; subst. destruct (Z.eqb_spec c 0); [lia|].
    rewrite (IH (p + 1)) by (auto; lia). cbn. rewrite byte_small by lia. reflexivity.
Qed.
Lemma pes_nul_ok fp : forall l p, at_ cm p (l ++ [0]) -> Forall (fun c => 1 <= c <= 255) l ->
  forall n, (length l < n)%nat -> pes_nul cm n p fp = Some (flat_map (fun c => print_escaped_char c fp) l).
Proof.
  induction l as [|c l IH]; intros p H F n Hn; (destruct n as [|n]; [lia|]); cbn [pes_nul app at_ length flat_map] in *.
  - destruct H as [-> _]. reflexivity.
  - destruct H as [-> H]. inversion F; subst. destruct (Z.eqb_spec c 0); [lia|].
    rewrite (IH (p + 1)) by (auto; lia). reflexivity.
Qed.
Lemma pes_end_ok fp nx : forall l p, at_ cm p (l ++ [nx]) ->
  forall n, (length l < n)%nat -> pes_end cm n p (p + zlen l) fp = Some (flat_map (fun c => print_escaped_char c fp) l).
Proof.
  induction l as [|c l IH]; intros p H n Hn; (destruct n as [|n]; [lia|]); cbn [pes_end app at_ length flat_map] in *.
  - change (zlen (@nil Z)) with 0. destruct (Z.ltb_spec p (p + 0)); [lia|]. reflexivity.
  - destruct H as [-> H]. rewrite zlen_cons. pose proof (zlen_nonneg l). destruct (Z.ltb_spec p (p + (1 + zlen l))); [|lia].
    replace (p + (1 + zlen l)) with (p + 1 + zlen l) by lia. rewrite (IH (p + 1)) by (auto; lia). reflexivity.
Qed.
Lemma put_until_ok : forall l p, at_ cm p (l ++ [0]) -> Forall (fun c => 0 <= c <= 255) l ->
  forall n, (length l < n)%nat -> put_until cm n p (p + zlen l) = Some l.
Proof.
  induction l as [|c l IH]; intros p H F n Hn; (destruct n as [|n]; [lia|]); cbn [put_until app at_ length] in *.
  - destruct H as [-> _]. change (zlen (@nil Z)) with 0. destruct (Z.ltb_spec p (p + 0)); [lia|]. reflexivity.
  - destruct H as [-> H]. inversion F; subst. rewrite zlen_cons. pose proof (zlen_nonneg l). destruct (Z.ltb_spec p (p + (1 + zlen l))); [|lia].
    cbn [orb]. replace (p + (1 + zlen l)) with (p + 1 + zlen l) by lia. rewrite (IH (p + 1)) by (auto; lia). cbn.
    rewrite byte_small by lia. reflexivity.
Qed.
End Strings.

Definition kids (g : Z -> option (list Z)) (s : tp) (a : Z) (n : nat) : list (option (list Z)) :=
  map (fun i => g (pool s (a + Z.of_nat i))) (seq 0 n).
Lemma kids_S g s a n : kids g s a (S n) = g (pool s a) :: kids g s (a + 1) n.
Proof.
  unfold kids. cbn [seq map]. rewrite Z.add_0_r. f_equal. rewrite <- seq_shift, map_map. apply map_ext.
  intros i. do 2 f_equal. lia.
Qed.

Definition even (P : nat -> Prop) : Prop := exists n0, forall n, (n0 <= n)%nat -> P n.
Lemma flat_map_one (l : list Z) : flat_map (fun c => [c]) l = l.
Proof. induction l as [|c l IH]; cbn; congruence. Qed.
Lemma rep_neg cm s t d : rep cm s t d -> t < 0 -> exists c, d = DChar c /\ t = - c /\ 1 <= c <= 255.
Proof. intros H Ht. inversion H; subst; try lia. eauto. Qed.

(** Escaped printing. *)
Lemma pet_ok cm s fp :
  (forall t d, rep cm s t d -> okd true d = true -> exists o, shows (fun c => print_escaped_char c fp) d o /\
     even (fun n => print_escaped_text cm s n t fp = Some o)) /\
  (forall a l, reps cm s a l -> forallb (okd true) l = true -> exists o, showl (fun c => print_escaped_char c fp) l o /\
     even (fun n => cat_opt (kids (fun x => if x <? 0 then Some (print_escaped_char (- schar x) fp) else print_escaped_text cm s n x fp) s a (length l)) = Some o)).
Proof.
  apply rep_mut.
  - intros _. eexists. split; [constructor|]. exists 1%nat. intros [|n] Hn; [lia|]. reflexivity.
  - intros c Hc _. eexists. split; [constructor|]. exists 1%nat. intros [|n] Hn; [lia|]. cbn [print_escaped_text].
    destruct (Z.eqb_spec (- c) 0); [lia|]. destruct (Z.ltb_spec (- c) 0); [|lia]. now rewrite Z.opp_involutive.
  - intros t n Ht _ Hk Hv Hn _. destruct (putint_ok n Hn) as (ds & E & Hd). eexists. split; [apply sh_int; exact Hd|].
    exists 1%nat. intros [|m] Hm; [lia|]. cbn [print_escaped_text]. destruct (Z.eqb_spec t 0); [lia|]. destruct (Z.ltb_spec t 0); [lia|].
    rewrite Hk, Hv. exact E.
  - intros t n Ht _ Hk Hv _. destruct (puthex_ok 9 n) as (ds & E & Hd); [lia|pose proof (u32_range n); cbn; lia|].
    eexists. split; [constructor; exact Hd|].
    exists 1%nat. intros [|m] Hm; [lia|]. cbn [print_escaped_text]. destruct (Z.eqb_spec t 0); [lia|]. destruct (Z.ltb_spec t 0); [lia|].
    rewrite Hk, Hv. cbn [Z.eqb TEXT_INTEGER_HEX TEXT_TREE TEXT_INTEGER Pos.eqb]. rewrite E. reflexivity.
  - intros t n Ht _ Hk Hv _. destruct (putoct_ok 12 n) as (ds & E & Hd); [lia|pose proof (u32_range n); cbn; lia|].
    eexists. split; [constructor; exact Hd|].
    exists 1%nat. intros [|m] Hm; [lia|]. cbn [print_escaped_text]. destruct (Z.eqb_spec t 0); [lia|]. destruct (Z.ltb_spec t 0); [lia|].
    rewrite Hk, Hv. cbn [Z.eqb TEXT_INTEGER_HEX TEXT_INTEGER_OCT TEXT_TREE TEXT_INTEGER Pos.eqb]. rewrite E. reflexivity.
  - intros t l Ht _ Hk He Hat F _. eexists. split; [constructor|].
    exists (2 + length l)%nat. intros [|m] Hm; [lia|]. cbn [print_escaped_text]. destruct (Z.eqb_spec t 0); [lia|]. destruct (Z.ltb_spec t 0); [lia|].
    rewrite Hk, He. cbn [Z.eqb TEXT_INTEGER_HEX TEXT_INTEGER_OCT TEXT_TREE TEXT_INTEGER TEXT_STRING Pos.eqb].
    unfold print_escaped_string. cbn [Z.eqb]. apply pes_nul_ok; auto. lia.
  - intros t l nx Ht _ Hk He Hm0 Hat F _. eexists. split; [constructor|].
    exists (2 + length l)%nat. intros [|m] Hm; [lia|]. cbn [print_escaped_text]. destruct (Z.eqb_spec t 0); [lia|]. destruct (Z.ltb_spec t 0); [lia|].
    rewrite Hk. cbn [Z.eqb TEXT_INTEGER_HEX TEXT_INTEGER_OCT TEXT_TREE TEXT_INTEGER TEXT_STRING Pos.eqb].
    unfold print_escaped_string. destruct (Z.eqb_spec (pool s (t + 2)) 0) as [E|E]; [rewrite E in Hm0; now elim Hm0|].
    rewrite He. eapply pes_end_ok; eauto. lia.
  - intros t l Ht _ Hk Hn Hr IH Ok. destruct (IH Ok) as (o & Ho & n0 & Hn0). exists o. split; [apply sh_cat; exact Ho|].
    exists (S n0). intros [|m] Hm; [lia|]. cbn [print_escaped_text]. destruct (Z.eqb_spec t 0); [lia|]. destruct (Z.ltb_spec t 0); [lia|].
    rewrite Hk, Hn. cbn [Z.eqb TEXT_TREE]. rewrite <- (Hn0 m) by lia. unfold kids, zlen. rewrite Nat2Z.id.
    f_equal. apply map_ext. intros i. replace (t + Z.of_nat i + 2) with (t + 2 + Z.of_nat i) by lia. reflexivity.
  - intros t d fp0 _ _ _ _ _ _ Ok. cbn in Ok. discriminate.
  - intros a _. eexists. split; [constructor|]. exists 0%nat. reflexivity.
  - intros a d l Hd IHd _ IHl Ok. cbn [forallb] in Ok. apply andb_true_iff in Ok as [O1 O2].
    destruct (IHd O1) as (o1 & S1 & n1 & H1). destruct (IHl O2) as (o2 & S2 & n2 & H2). exists (o1 ++ o2). split; [now constructor|].
    exists (S n1 + n2)%nat. intros n Hn. cbn [length]. rewrite kids_S. cbn [cat_opt]. rewrite H2 by lia.
    destruct (Z.ltb_spec (pool s a) 0) as [Hneg|Hpos].
    + destruct (rep_neg _ _ _ _ Hd Hneg) as (c & -> & Ec & Hc). inversion S1; subst.
      rewrite Ec. rewrite (pec_byte _ c) by (rewrite schar_neg by lia; symmetry; apply byte_small; lia). reflexivity.
    + rewrite H1 by lia. reflexivity.
Qed.

(** Plain printing. *)
Scheme shows_m := Minimality for shows Sort Prop with showl_m := Minimality for showl Sort Prop.

Lemma pt_ok cm s :
  (forall t d, rep cm s t d -> okd false d = true -> exists o, prints d o /\ even (fun n => print_text cm s n t = Some o)) /\
  (forall a l, reps cm s a l -> forallb (okd false) l = true -> exists o, printl l o /\
     even (fun n => cat_opt (kids (fun x => if x <? 0 then Some [byte (- schar x)] else print_text cm s n x) s a (length l)) = Some o)).
Proof.
  apply rep_mut.
  - intros _. eexists. split; [apply pr_plain; constructor|]. exists 1%nat. intros [|n] Hn; [lia|]. reflexivity.
  - intros c Hc _. eexists. split; [apply pr_plain; constructor|]. exists 1%nat. intros [|n] Hn; [lia|]. cbn [print_text].
    destruct (Z.eqb_spec (- c) 0); [lia|]. destruct (Z.ltb_spec (- c) 0); [|lia]. rewrite Z.opp_involutive, byte_small by lia. reflexivity.
  - intros t n Ht _ Hk Hv Hn _. destruct (putint_ok n Hn) as (ds & E & Hd). eexists. split; [apply pr_plain, sh_int; exact Hd|].
    exists 1%nat. intros [|m] Hm; [lia|]. cbn [print_text]. destruct (Z.eqb_spec t 0); [lia|]. destruct (Z.ltb_spec t 0); [lia|].
    rewrite Hk, Hv. exact E.
  - intros t n Ht _ Hk Hv _. destruct (puthex_ok 9 n) as (ds & E & Hd); [lia|pose proof (u32_range n); cbn; lia|].
    eexists. split; [apply pr_plain; constructor; exact Hd|].
    exists 1%nat. intros [|m] Hm; [lia|]. cbn [print_text]. destruct (Z.eqb_spec t 0); [lia|]. destruct (Z.ltb_spec t 0); [lia|].
    rewrite Hk, Hv. cbn [Z.eqb TEXT_INTEGER_HEX TEXT_TREE TEXT_INTEGER Pos.eqb]. rewrite E. reflexivity.
  - intros t n Ht _ Hk Hv _. destruct (putoct_ok 12 n) as (ds & E & Hd); [lia|pose proof (u32_range n); cbn; lia|].
    eexists. split; [apply pr_plain; constructor; exact Hd|].
    exists 1%nat. intros [|m] Hm; [lia|]. cbn [print_text]. destruct (Z.eqb_spec t 0); [lia|]. destruct (Z.ltb_spec t 0); [lia|].
    rewrite Hk, Hv. cbn [Z.eqb TEXT_INTEGER_HEX TEXT_INTEGER_OCT TEXT_TREE TEXT_INTEGER Pos.eqb]. rewrite E. reflexivity.
  - intros t l Ht _ Hk He Hat F _. eexists. split; [apply pr_plain; constructor|].
    exists (2 + length l)%nat. intros [|m] Hm; [lia|]. cbn [print_text]. destruct (Z.eqb_spec t 0); [lia|]. destruct (Z.ltb_spec t 0); [lia|].
    rewrite Hk, He. cbn [Z.eqb TEXT_INTEGER_HEX TEXT_INTEGER_OCT TEXT_TREE TEXT_INTEGER TEXT_STRING Pos.eqb].
    change (0 mod 4294967296 =? 0) with true. cbv iota. rewrite flat_map_one. apply putstr_ok; auto. lia.
  - intros t l nx Ht _ Hk He Hm0 Hat F Ok. cbn in Ok. apply Z.eqb_eq in Ok. subst nx. eexists. split; [apply pr_plain; constructor|].
    exists (2 + length l)%nat. intros [|m] Hm; [lia|]. cbn [print_text]. destruct (Z.eqb_spec t 0); [lia|]. destruct (Z.ltb_spec t 0); [lia|].
    rewrite Hk. cbn [Z.eqb TEXT_INTEGER_HEX TEXT_INTEGER_OCT TEXT_TREE TEXT_INTEGER TEXT_STRING Pos.eqb].
    destruct (Z.eqb_spec (pool s (t + 2) mod 4294967296) 0) as [E|E]; [contradiction|].
    rewrite He, flat_map_one. apply put_until_ok; auto. lia.
  - intros t l Ht _ Hk Hn Hr IH Ok. destruct (IH Ok) as (o & Ho & n0 & Hn0). exists o. split; [now apply pr_cat|].
    exists (S n0). intros [|m] Hm; [lia|]. cbn [print_text]. destruct (Z.eqb_spec t 0); [lia|]. destruct (Z.ltb_spec t 0); [lia|].
    rewrite Hk, Hn. cbn [Z.eqb TEXT_TREE]. rewrite <- (Hn0 m) by lia. unfold kids, zlen. rewrite Nat2Z.id.
    f_equal. apply map_ext. intros i. replace (t + Z.of_nat i + 2) with (t + 2 + Z.of_nat i) by lia. reflexivity.
  - intros t d fp Ht _ Hk Hfp Hr _ Ok. cbn in Ok.
    destruct (proj1 (pet_ok cm s fp) _ _ Hr Ok) as (o & Ho & n0 & Hn0). exists o. split; [now apply pr_esc|].
    exists (S n0). intros [|m] Hm; [lia|]. cbn [print_text]. destruct (Z.eqb_spec t 0); [lia|]. destruct (Z.ltb_spec t 0); [lia|].
    rewrite Hk, Hfp. cbn [Z.eqb TEXT_INTEGER_HEX TEXT_INTEGER_OCT TEXT_TREE TEXT_INTEGER TEXT_STRING TEXT_ESCAPED Pos.eqb].
    replace (negb ((if fp then 1 else 0) =? 0)) with fp by (now destruct fp). apply Hn0. lia.
  - intros a _. eexists. split; [constructor|]. exists 0%nat. reflexivity.
  - intros a d l Hd IHd _ IHl Ok. cbn [forallb] in Ok. apply andb_true_iff in Ok as [O1 O2].
    destruct (IHd O1) as (o1 & S1 & n1 & H1). destruct (IHl O2) as (o2 & S2 & n2 & H2). exists (o1 ++ o2). split; [now constructor|].
    exists (S n1 + n2)%nat. intros n Hn. cbn [length]. rewrite kids_S. cbn [cat_opt]. rewrite H2 by lia.
    destruct (Z.ltb_spec (pool s a) 0) as [Hneg|Hpos].
    + destruct (rep_neg _ _ _ _ Hd Hneg) as (c & -> & Ec & Hc).
      assert (o1 = [c]) as -> by (inversion S1; subst; match goal with HH : shows _ _ _ |- _ => inversion HH end; reflexivity).
      rewrite Ec, schar_neg by lia. reflexivity.
    + rewrite H1 by lia. reflexivity.
Qed.

(** ** Histories: any sequence of constructor calls *)
(** The separator only goes between two non-empty texts. *)
Definition djoin (d1 d2 sep : doc) : doc :=
  match d1, d2 with DEmpty, _ => d2 | _, DEmpty => d1 | _, _ => DCat [d1; sep; d2] end.

(** [built cm s l]: after some calls the pool is [s] and the texts obtained, with what they stand for, are [l].
    Any text may be used any number of times in later ones. *)
Inductive built (cm : Z -> Z) : tp -> list (Z * doc) -> Prop :=
| b_start p : built cm (tp0 p) [(0, DEmpty)]
| b_char s l c : built cm s l -> 1 <= c <= 255 -> built cm s ((wrap_char c, DChar c) :: l)
| b_int s l n s' t : built cm s l -> int_range n -> wrap_int n s = Some (s', t) -> built cm s' ((t, DInt n) :: l)
| b_hex s l n s' t : built cm s l -> wrap_int_hex n s = Some (s', t) -> built cm s' ((t, DHex n) :: l)
| b_oct s l n s' t : built cm s l -> wrap_int_oct n s = Some (s', t) -> built cm s' ((t, DOct n) :: l)
| b_lit s l p b s' t : built cm s l -> at_ cm p (b ++ [0]) -> Forall (fun c => 1 <= c <= 255) b ->
    wrap_str_lit p s = Some (s', t) -> built cm s' ((t, DStr b) :: l)
| b_imm s l p e b nx s' t : built cm s l -> e = p + zlen b -> e mod 4294967296 <> 0 -> at_ cm p (b ++ [nx]) ->
    Forall (fun c => 0 <= c <= 255) b -> wrap_str_imm p e s = Some (s', t) -> built cm s' ((t, DSub b nx) :: l)
| b_esc s l t d fp s' t' : built cm s l -> In (t, d) l -> escape_text t fp s = Some (s', t') -> built cm s' ((t', DEsc d fp) :: l)
| b_cat2 s l t1 d1 t2 d2 s' t : built cm s l -> In (t1, d1) l -> In (t2, d2) l ->
    string_concat t1 t2 s = Some (s', t) -> built cm s' ((t, DCat [d1; d2]) :: l)
| b_cat3 s l t1 d1 t2 d2 t3 d3 s' t : built cm s l -> In (t1, d1) l -> In (t2, d2) l -> In (t3, d3) l ->
    string_concat3 t1 t2 t3 s = Some (s', t) -> built cm s' ((t, DCat [d1; d2; d3]) :: l)
| b_cat4 s l t1 d1 t2 d2 t3 d3 t4 d4 s' t : built cm s l -> In (t1, d1) l -> In (t2, d2) l -> In (t3, d3) l -> In (t4, d4) l ->
    string_concat4 t1 t2 t3 t4 s = Some (s', t) -> built cm s' ((t, DCat [d1; d2; d3; d4]) :: l)
| b_cat5 s l t1 d1 t2 d2 t3 d3 t4 d4 t5 d5 s' t : built cm s l -> In (t1, d1) l -> In (t2, d2) l -> In (t3, d3) l -> In (t4, d4) l ->
    In (t5, d5) l ->
    string_concat5 t1 t2 t3 t4 t5 s = Some (s', t) -> built cm s' ((t, DCat [d1; d2; d3; d4; d5]) :: l)
| b_join s l t1 d1 t2 d2 ts ds s' t : built cm s l -> In (t1, d1) l -> In (t2, d2) l -> In (ts, ds) l ->
    concatenate_strings_with t1 t2 ts s = Some (s', t) -> built cm s' ((t, djoin d1 d2 ds) :: l).

Lemma node_ext cells s s' t : node cells s = Some (s', t) -> 1 <= talloc s ->
  ext s s' /\ t = talloc s /\ talloc s' = t + zlen cells /\ at_ (pool s') t cells.
Proof.
  unfold node. destruct (_ <=? _); [discriminate|]. intros [= <- <-] H. pose proof (zlen_nonneg cells). cbn [talloc pool].
  split; [|split; [reflexivity|split; [reflexivity|apply wr_at]]]. split; cbn [talloc pool]; [lia|]. intros x Hx. apply wr_below. lia.
Qed.

Lemma built_rep cm s l : built cm s l -> 1 <= talloc s /\ forall t d, In (t, d) l -> rep cm s t d.
Proof.
  assert (K : forall cells s s' t l, node cells s = Some (s', t) -> 1 <= talloc s -> (forall t d, In (t, d) l -> rep cm s t d) ->
    1 <= talloc s' /\ (forall t d, In (t, d) l -> rep cm s' t d) /\ 1 <= t /\ talloc s' = t + zlen cells /\ at_ (pool s') t cells).
  { intros cells s1 s1' t1 l1 E H HR. destruct (node_ext _ _ _ _ E H) as (X & -> & Y & Z). pose proof (zlen_nonneg cells).
    split; [lia|]. split; [|split; [lia|auto]]. intros t d Ht. apply (rep_ext cm s1 s1' X). auto. }
  assert (C : forall ls ds s s' t l, node (TEXT_TREE :: zlen ls :: ls) s = Some (s', t) -> 1 <= talloc s ->
    (forall t d, In (t, d) l -> rep cm s t d) -> Forall2 (fun t d => In (t, d) l) ls ds ->
    1 <= talloc s' /\ forall t' d, In (t', d) ((t, DCat ds) :: l) -> rep cm s' t' d).
  { intros ls ds s1 s1' t l1 E H HR F. destruct (K _ _ _ _ _ E H HR) as (A1 & A2 & A3 & A4 & A5). split; [exact A1|].
    intros t' d [E0|Hin]; [injection E0 as <- <-|]; [|auto]. cbn [at_] in A5. destruct A5 as (B1 & B2 & B3).
    rewrite !zlen_cons in A4. assert (zlen ds = zlen ls) as EL by (clear - F; unfold zlen; induction F; cbn [length]; lia).
    apply r_cat; auto; try lia.
    replace (t + 1 + 1) with (t + 2) in B3 by lia. clear - A2 B3 F. revert B3. generalize (t + 2). induction F as [|x d ls ds Hx F IH]; intros a B.
    - constructor.
    - cbn [at_] in B. destruct B as [B1 B2]. constructor; [rewrite B1; auto|]. apply IH; auto. }
  induction 1.
  - split; [cbn; lia|]. intros t d [E0|[]]; injection E0 as <- <-. constructor.
  - destruct IHbuilt as [I1 I2]. split; [exact I1|]. intros t d [E0|Hin]; [injection E0 as <- <-|]; [|auto]. now apply r_char.
  - destruct IHbuilt as [I1 I2]. destruct (K _ _ _ _ _ H1 I1 I2) as (A1 & A2 & A3 & A4 & A5). split; [exact A1|].
    change (zlen [TEXT_INTEGER; n]) with 2 in A4. cbn [at_] in A5. intros t' d [E0|Hin]; [injection E0 as <- <-|]; [|auto]. apply r_int; tauto || lia.
  - destruct IHbuilt as [I1 I2]. destruct (K _ _ _ _ _ H0 I1 I2) as (A1 & A2 & A3 & A4 & A5). split; [exact A1|].
    change (zlen [TEXT_INTEGER_HEX; n]) with 2 in A4. cbn [at_] in A5. intros t' d [E0|Hin]; [injection E0 as <- <-|]; [|auto]. apply r_hex; tauto || lia.
  - destruct IHbuilt as [I1 I2]. destruct (K _ _ _ _ _ H0 I1 I2) as (A1 & A2 & A3 & A4 & A5). split; [exact A1|].
    change (zlen [TEXT_INTEGER_OCT; n]) with 2 in A4. cbn [at_] in A5. intros t' d [E0|Hin]; [injection E0 as <- <-|]; [|auto]. apply r_oct; tauto || lia.
  - destruct IHbuilt as [I1 I2]. destruct (K _ _ _ _ _ H2 I1 I2) as (A1 & A2 & A3 & A4 & A5). split; [exact A1|].
    change (zlen [TEXT_STRING; p; 0]) with 3 in A4. cbn [at_] in A5. destruct A5 as (B1 & B2 & B3 & _). replace (t + 1 + 1) with (t + 2) in B3 by lia.
    intros t' d [E0|Hin]; [injection E0 as <- <-|]; [|auto]. apply r_str; auto; try lia. now rewrite B2.
  - destruct IHbuilt as [I1 I2]. destruct (K _ _ _ _ _ H4 I1 I2) as (A1 & A2 & A3 & A4 & A5). split; [exact A1|].
    change (zlen [TEXT_STRING; p; e]) with 3 in A4. cbn [at_] in A5. destruct A5 as (B1 & B2 & B3 & _). replace (t + 1 + 1) with (t + 2) in B3 by lia.
    intros t' d [E0|Hin]; [injection E0 as <- <-|]; [|auto]. apply r_sub; auto; try lia; rewrite ?B2; auto. now rewrite B3.
  - destruct IHbuilt as [I1 I2]. destruct (K _ _ _ _ _ H1 I1 I2) as (A1 & A2 & A3 & A4 & A5). split; [exact A1|].
    change (zlen [TEXT_ESCAPED; t; if fp then 1 else 0]) with 3 in A4. cbn [at_] in A5. destruct A5 as (B1 & B2 & B3 & _).
    replace (t' + 1 + 1) with (t' + 2) in B3 by lia.
    intros t2 d2 [E0|Hin]; [injection E0 as <- <-|]; [|auto]. apply r_esc; auto; try lia. rewrite B2. auto.
  - destruct IHbuilt as [I1 I2]. apply (C [t1; t2] [d1; d2] s s' t l H2 I1 I2); repeat constructor; assumption.
  - destruct IHbuilt as [I1 I2]. apply (C [t1; t2; t3] [d1; d2; d3] s s' t l H3 I1 I2); repeat constructor; assumption.
  - destruct IHbuilt as [I1 I2]. apply (C [t1; t2; t3; t4] [d1; d2; d3; d4] s s' t l H4 I1 I2); repeat constructor; assumption.
  - destruct IHbuilt as [I1 I2]. apply (C [t1; t2; t3; t4; t5] [d1; d2; d3; d4; d5] s s' t l H5 I1 I2); repeat constructor; assumption.
  - destruct IHbuilt as [I1 I2]. unfold concatenate_strings_with in H3.
    destruct (Z.eqb_spec t1 0) as [->|N1].
    { injection H3 as <- <-. split; [exact I1|]. intros t' d [E0|Hin]; [injection E0 as <- <-|]; [|auto].
      pose proof (I2 _ _ H0) as R. inversion R; subst; try lia. cbn [djoin]. auto. }
    destruct (Z.eqb_spec t2 0) as [->|N2].
    { injection H3 as <- <-. split; [exact I1|]. intros t' d [E0|Hin]; [injection E0 as <- <-|]; [|auto].
      pose proof (I2 _ _ H1) as R. inversion R; subst; try lia. destruct d1; cbn [djoin]; auto. }
    assert (E : djoin d1 d2 ds = DCat [d1; ds; d2]).
    { pose proof (I2 _ _ H0) as R1. pose proof (I2 _ _ H1) as R2. destruct d1; [inversion R1; lia|..]; (destruct d2; [inversion R2; lia|..]); reflexivity. }
    rewrite E. apply (C [t1; ts; t2] [d1; ds; d2] s s' t l H3 I1 I2); repeat constructor; assumption.
Qed.

(** Whatever the history, every text obtained prints (the loop and the recursion end) exactly its document: the
    pieces in order, each as many times as it was used. *)
Theorem c18_prints (cm : Z -> Z) (s : tp) (l : list (Z * doc)) (t : Z) (d : doc) :
  built cm s l -> In (t, d) l -> okd false d = true ->
  exists o, prints d o /\ exists n0, forall n, (n0 <= n)%nat -> print_text cm s n t = Some o.
Proof. intros B H O. destruct (built_rep cm s l B) as [_ R]. exact (proj1 (pt_ok cm s) t d (R t d H) O). Qed.


(** Escaping a text twice is a reported error, never silent, wherever the inner escape is. *)
Theorem c18_double_escape (cm : Z -> Z) (s : tp) (l : list (Z * doc)) (t : Z) (d : doc) (fp fp' : bool) :
  built cm s l -> In (t, DEsc (DEsc d fp) fp') l -> forall n, print_text cm s n t = None.
Proof.
  intros B H n. destruct (built_rep cm s l B) as [_ R]. specialize (R _ _ H).
  inversion R as [| | | | | | | |t0 d0 fp0 H1 H2 H3 H4 H5]; subst. inversion H5 as [| | | | | | | |t1 d1 fp1 G1 G2 G3 G4 G5]; subst.
  destruct n as [|n]; [reflexivity|]. cbn [print_text].
  destruct (Z.eqb_spec t 0); [lia|]. destruct (Z.ltb_spec t 0); [lia|]. rewrite H3.
  cbn [Z.eqb TEXT_INTEGER_HEX TEXT_INTEGER_OCT TEXT_TREE TEXT_INTEGER TEXT_STRING TEXT_ESCAPED Pos.eqb].
  destruct n as [|n]; [reflexivity|]. cbn [print_escaped_text].
  destruct (Z.eqb_spec (pool s (t + 1)) 0); [lia|]. destruct (Z.ltb_spec (pool s (t + 1)) 0); [lia|]. rewrite G3. reflexivity.
Qed.

(** The restriction on pieces of strings is necessary: printed unescaped, a piece is followed by what comes next
    in memory, for every piece and every following text. *)
Theorem c18_piece_refuted (cm : Z -> Z) (s : tp) (l : list (Z * doc)) (t nx : Z) (b more : list Z) :
  built cm s l -> In (t, DSub b nx) l ->
  (forall p, at_ cm p (b ++ [nx]) -> at_ cm p (b ++ (nx :: more) ++ [0])) -> 1 <= nx <= 255 -> Forall (fun c => 1 <= c <= 255) more ->
  exists n, print_text cm s n t = Some (b ++ nx :: more).
Proof.
  intros B H M Hn Hm. destruct (built_rep cm s l B) as [_ R]. specialize (R _ _ H).
  inversion R as [| | | | | |t0 l0 nx0 H1 H2 H3 H4 H5 H6 H7| |]; subst.
  exists (S (S (length (b ++ nx :: more)))). cbn [print_text].
  destruct (Z.eqb_spec t 0); [lia|]. destruct (Z.ltb_spec t 0); [lia|]. rewrite H3.
  cbn [Z.eqb TEXT_INTEGER_HEX TEXT_INTEGER_OCT TEXT_TREE TEXT_INTEGER TEXT_STRING TEXT_ESCAPED Pos.eqb].
  destruct (Z.eqb_spec (pool s (t + 2) mod 4294967296) 0) as [E|E]; [contradiction|]. rewrite H4. specialize (M _ H6).
  clear - M H7 Hn Hm. revert M. generalize (pool s (t + 1)). intros p M.
  assert (Tail : forall k p e n, at_ cm p (k ++ [0]) -> Forall (fun c => 1 <= c <= 255) k -> e <= p -> (length k < n)%nat -> put_until cm n p e = Some k).
  { induction k as [|c k IH]; intros q e n A F He Hl; (destruct n as [|n]; [lia|]); cbn [put_until app at_ length] in *.
    - destruct A as [-> _]. destruct (Z.ltb_spec q e); [lia|]. reflexivity.
    - destruct A as [-> A]. inversion F; subst. destruct (Z.eqb_spec c 0); [lia|]. cbn [negb]. rewrite orb_true_r.
      rewrite (IH (q + 1)) by (auto; lia). cbn. rewrite byte_small by lia. reflexivity. }
  revert p M. induction b as [|c b IH]; intros p M; cbn [app length].
  - change (zlen (@nil Z)) with 0. apply Tail; auto; try lia.
  - cbn [app at_] in M. destruct M as [E M]. inversion H7; subst. rewrite zlen_cons. pose proof (zlen_nonneg b).
    remember (S (length (b ++ nx :: more))) as k. cbn [put_until].
    destruct (Z.ltb_spec p (p + (1 + zlen b))); [|lia]. cbn [orb].
    replace (p + (1 + zlen b)) with (p + 1 + zlen b) by lia. rewrite IH by auto. cbn. rewrite byte_small by lia. reflexivity.
Qed.

(** A character 0 is the empty text: it prints nothing. *)
Theorem c18_nul_refuted (cm : Z -> Z) (s : tp) (n : nat) : print_text cm s (S n) (wrap_char 0) = Some [].
Proof. reflexivity. Qed.

(** A history: [x] then [ = ] joined with an escaped piece of a string, used twice. *)
Example c18_example :
  let cm := fun a => nth (Z.to_nat (a - 100)) [120; 0; 36; 104; 37; 10; 0] 0 in
  exists s l t, built cm s l /\ In (t, DCat [DCat [DStr [120]; DChar 61; DEsc (DSub [36; 104; 37] 10) true]; DInt (-7)]) l /\
    print_text cm s 20 t = Some [120; 61; 92; 36; 104; 37; 37; 45; 55].
Proof.
  cbv zeta. set (cm := fun a : Z => nth _ _ 0).
  pose proof (b_start cm (fun _ => 0)) as B0.
  assert (A1 : at_ cm 100 ([120] ++ [0])) by (vm_compute; auto).
  assert (A2 : at_ cm 102 ([36; 104; 37] ++ [10])) by (vm_compute; auto 6).
  pose proof (b_lit cm _ _ 100 [120] _ _ B0 A1 ltac:(repeat constructor; discriminate) eq_refl) as B1.
  pose proof (b_char cm _ _ 61 B1 ltac:(lia)) as B2.
  pose proof (b_imm cm _ _ 102 105 [36; 104; 37] 10 _ _ B2 eq_refl ltac:(discriminate) A2 ltac:(repeat constructor; discriminate) eq_refl) as B3.
  pose proof (b_esc cm _ _ _ _ true _ _ B3 (or_introl eq_refl) eq_refl) as B4.
  pose proof (b_cat3 cm _ _ _ (DStr [120]) _ (DChar 61) _ (DEsc (DSub [36; 104; 37] 10) true) _ _ B4
    (or_intror (or_intror (or_intror (or_introl eq_refl)))) (or_intror (or_intror (or_introl eq_refl))) (or_introl eq_refl) eq_refl) as B5.
  pose proof (b_int cm _ _ (-7) _ _ B5 ltac:(unfold int_range; lia) eq_refl) as B6.
  pose proof (b_cat2 cm _ _ _ (DCat [DStr [120]; DChar 61; DEsc (DSub [36; 104; 37] 10) true]) _ (DInt (-7)) _ _ B6
    (or_intror (or_introl eq_refl)) (or_introl eq_refl) eq_refl) as B7.
  do 3 eexists. split; [exact B7|]. split; [left; reflexivity|]. vm_compute. reflexivity.
Qed.

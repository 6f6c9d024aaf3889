(** * Token pasting over the identifier table: the second half of paste_tokens (pnut.c:1963-2020) and the accumulators
      accum_string_char, accum_string_string, accum_string_integer (pnut.c:592-628) *)
From Coq Require Import ZArith List Lia Bool.
From Verif Require Import Base Numerals Store StoreProof Literals ShArith ShFacts.
From Verif Require Output.
Import ListNotations.
Local Open Scope Z_scope.

(** pnut.c:592-599: the character is a (signed) char when it is hashed *)
Definition accum_string_char (st : store) (h c : Z) : option (store * Z) := accum_string st h (s8 c).
(** pnut.c:602-609: [n] characters from [from] on *)
Fixpoint accum_from (n : nat) (from : Z) (st : store) (h : Z) : option (store * Z) :=
  match n with
  | O => Some (st, h)
  | S k => match accum_string_char st h (pool st from) with
           | Some (st', h') => accum_from k (from + 1) st' h'
           | None => None
           end
  end.
Definition accum_string_string (p : Z) (st : store) (h : Z) : option (store * Z) :=
  accum_from (Z.to_nat (STRING_LEN st p)) (STRING_BUF st p) st h.
(** pnut.c:612-628; [wide] is SUPPORT_64_BIT_LITERALS; [None]: a fatal error (or fuel) *)
Fixpoint accum_string_integer (wide : bool) (fuel : nat) (n : Z) (st : store) (h : Z) : option (store * Z) :=
  match fuel with
  | O => None
  | S f =>
      if n <? 0 then
        if wide then None
        else match accum_string_char st h 45 with
             | Some (st', h') => accum_string_integer wide f (- n) st' h'
             | None => None
             end
      else
        match (if 9 <? n then accum_string_integer wide f (Z.quot n 10) st h else Some (st, h)) with
        | Some (st', h') => accum_string_char st' h' (48 + Z.rem n 10)
        | None => None
        end
  end.
(** pnut.c:205-218, 254-256: TYPE, MACRO, WHILE_KW and the kinds of integers; [wb] and [sf] are
    PARSE_NUMERIC_LITERAL_WITH_BASE and PARSE_NUMERIC_LITERAL_SUFFIX *)
Definition TYPE : Z := 501.
Definition MACRO : Z := 502.
Definition WHILE_KW : Z := 332.
Definition INTEGER : Z := 401.
Definition int_kind (wb sf : bool) (k : Z) : bool :=
  (k =? INTEGER) || (wb && ((k =? 402) || (k =? 403))) || (sf && (404 <=? k) && (k <=? 408)).

Section Build.
  Variable wide wb sf : bool.
  Definition FUEL : nat := 25%nat.                       (* digits of an int *)
  (* pnut.c:1987-1988: the new token *)
  Definition finish (start : Z) (r : option (store * Z)) : option (store * (Z * Z)) :=
    match r with
    | Some (st', h) => match end_ident st' start h with Some (st2, p) => Some (st2, (heap st2 (p + 2), p)) | None => None end
    | None => None
    end.
  Definition andthen (r : option (store * Z)) (f : store -> Z -> option (store * Z)) : option (store * Z) :=
    match r with Some (st, h) => f st h | None => None end.
  (** pnut.c:1963-2020: a token is its kind and value; [None] is the error *)
  Definition paste_store (st : store) (l r : Z * Z) : option (store * (Z * Z)) :=
    let (lt, lv) := l in
    let (rt, rv) := r in
    let start := pool_alloc st in                         (* begin_string *)
    if (lt =? IDENTIFIER) || (lt =? TYPE) || (lt =? MACRO) || (lt <=? WHILE_KW) then
      if (rt =? IDENTIFIER) || (rt =? TYPE) || (rt =? MACRO) || (rt <=? WHILE_KW) then
        finish start (andthen (accum_string_string lv st 0) (accum_string_string rv))
      else if int_kind wb sf rt then
        finish start (andthen (accum_string_string lv st 0) (accum_string_integer wide FUEL (- rv)))
      else None
    else if int_kind wb sf lt then
      if int_kind wb sf rt then
        if wide && ((- lv <? 0) || (- rv <? 0)) then None
        else match paste_integers (- lv) (- rv) with Some v => Some (st, (rt, - v)) | None => None end
      else if (rt =? IDENTIFIER) || (rt =? MACRO) || (rt <=? WHILE_KW) then
        finish start (andthen (accum_string_integer wide FUEL (- lv) st 0) (accum_string_string rv))
      else None
    else None.
End Build.

(** ** Proofs *)
Definition ascii (s : list Z) : Prop := Forall (fun c => 0 < c < 128) s.
Lemma s8_ascii c : 0 <= c < 128 -> s8 c = c.
Proof. intros H. unfold s8. rewrite Z.mod_small by lia. lia. Qed.
Lemma accum_app s : forall t st h, accum_all st h (s ++ t) = andthen (accum_all st h s) (fun st h => accum_all st h t).
Proof. induction s as [|c s IH]; intros t st h; [reflexivity|]. cbn [app accum_all]. destruct (accum_string st h c) as [[st' h']|]; [apply IH|reflexivity]. Qed.
Lemma accum_string_frame st h c st' h' : accum_string st h c = Some (st', h') ->
  heap st' = heap st /\ pool_alloc st' = pool_alloc st + 1 /\ forall x, x < pool_alloc st -> pool st' x = pool st x.
Proof.
  unfold accum_string. destruct (_ <=? _); [discriminate|]. intros [= <- <-]. cbn [heap pool_alloc pool]. split; [reflexivity|]. split; [reflexivity|].
  intros x H. apply upd_other. lia.
Qed.
Lemma accum_from_ok s : ascii s -> forall from st h, str_at (pool st) from s -> from + Z.of_nat (length s) + 1 <= pool_alloc st ->
  accum_from (length s) from st h = accum_all st h s.
Proof.
  induction 1 as [|c s Hc _ IH]; intros from st h S L; [reflexivity|]. cbn [length accum_from accum_all]. cbn [length] in L.
  destruct S as [P S]. rewrite s8_ascii in P by lia.
  rewrite P. unfold accum_string_char. rewrite s8_ascii by lia. destruct (accum_string st h c) as [[st' h']|] eqn:E; [|reflexivity].
  destruct (accum_string_frame _ _ _ _ _ E) as (_ & A & F). apply IH; [|lia]. eapply str_at_frame; [|exact S]. intros x Hx. apply F. lia.
Qed.
Lemma decimal_snoc n : 9 < n -> decimal n = decimal (n / 10) ++ [48 + n mod 10].
Proof.
  intros H. eapply denotes_inj; [apply decimal_ok; lia|]. pose proof (Z.mod_pos_bound n 10 ltac:(lia)). assert (0 < n / 10) by (apply Z.div_str_pos; lia).
  eapply Output.denotes_eq; [apply denotes_snoc with (d := n mod 10); [apply decimal_ok; apply Z.div_pos; lia|lia|apply digit_char; lia|lia]|].
  pose proof (Z.div_mod n 10 ltac:(lia)). lia.
Qed.
Lemma decimal_one n : 0 <= n <= 9 -> decimal n = [48 + n].
Proof. intros H. assert (n = 0 \/ n = 1 \/ n = 2 \/ n = 3 \/ n = 4 \/ n = 5 \/ n = 6 \/ n = 7 \/ n = 8 \/ n = 9) by lia. repeat (destruct H0 as [->|H0]; [reflexivity|]). subst. reflexivity. Qed.
Lemma accum_integer_ok wide fuel : forall n st h, 0 <= n < 10 * 10 ^ Z.of_nat fuel -> accum_string_integer wide (S fuel) n st h = accum_all st h (decimal n).
Proof.
  induction fuel as [|f IH]; intros n st h H.
  - change (10 * 10 ^ Z.of_nat 0) with 10 in H. cbn [accum_string_integer]. destruct (Z.ltb_spec n 0); [lia|]. destruct (Z.ltb_spec 9 n); [lia|].
    rewrite decimal_one by lia. rewrite Z.rem_mod_nonneg, Z.mod_small by lia. cbn [accum_all]. unfold accum_string_char. rewrite s8_ascii by lia. destruct (accum_string _ _ _) as [[? ?]|]; reflexivity.
  - rewrite Nat2Z.inj_succ, Z.pow_succ_r in H by lia. set (g := S f) in *. cbn [accum_string_integer].
    destruct (Z.ltb_spec n 0); [lia|].
    rewrite Z.quot_div_nonneg, Z.rem_mod_nonneg by lia. pose proof (Z.mod_pos_bound n 10 ltac:(lia)).
    destruct (Z.ltb_spec 9 n).
    + rewrite IH by (split; [apply Z.div_pos; lia|apply Z.div_lt_upper_bound; lia]).
      rewrite (decimal_snoc n) by lia. rewrite accum_app. destruct (accum_all st h (decimal (n / 10))) as [[st' h']|]; [|reflexivity].
      cbn [andthen accum_all]. unfold accum_string_char. rewrite s8_ascii by lia. destruct (accum_string _ _ _) as [[? ?]|]; reflexivity.
    + rewrite decimal_one by lia. rewrite Z.mod_small by lia. cbn [accum_all]. unfold accum_string_char. rewrite s8_ascii by lia. destruct (accum_string _ _ _) as [[? ?]|]; reflexivity.
Qed.

(** ** What a token is spelled *)
Definition name_kind (k : Z) : Prop := k = IDENTIFIER \/ k = TYPE \/ k = MACRO \/ 300 <= k <= WHILE_KW.
Definition is_name (a : astore) (t : Z * Z) (s : list Z) : Prop := name_kind (fst t) /\ exists y, In (snd t, y) (syms a) /\ sym_name y = s /\ ascii s.
(* a decimal integer that fits an int: its value is stored negated *)
Definition is_int (wb sf : bool) (t : Z * Z) (s : list Z) : Prop :=
  int_kind wb sf (fst t) = true /\ 0 <= - snd t < 2 ^ 63 /\ s = decimal (- snd t).

Lemma string_string bk st a p y : inv bk st a -> In (p, y) (syms a) -> ascii (sym_name y) ->
  forall st' h s, heap st' = heap st -> (forall x, x < pool_alloc st -> pool st' x = pool st x) -> pool_alloc st <= pool_alloc st' -> s = sym_name y ->
  accum_string_string p st' h = accum_all st' h s.
Proof.
  intros I Hp As st' h s Hh Hf Ha ->. destruct (i_sym _ _ _ I _ _ Hp) as (_ & _ & _ & _ & E4 & E5 & E6 & E7 & _).
  unfold accum_string_string, STRING_LEN, STRING_BUF. rewrite Hh, E4, Nat2Z.id. apply accum_from_ok; auto; [|lia].
  eapply str_at_frame; [|exact E5]. intros x Hx. apply Hf. lia.
Qed.
Lemma nk_test k : name_kind k -> (k =? IDENTIFIER) || (k =? TYPE) || (k =? MACRO) || (k <=? WHILE_KW) = true.
Proof. intros [->|[->|[->|H]]]; try reflexivity. destruct (Z.leb_spec k WHILE_KW); [now rewrite !orb_true_r|lia]. Qed.
Lemma ik_range wb sf k : int_kind wb sf k = true -> 401 <= k <= 408.
Proof.
  unfold int_kind, INTEGER. intros H. apply orb_true_iff in H as [H|H]; [apply orb_true_iff in H as [H|H]|].
  - apply Z.eqb_eq in H. lia.
  - apply andb_true_iff in H as [_ H]. apply orb_true_iff in H as [H|H]; apply Z.eqb_eq in H; lia.
  - apply andb_true_iff in H as [H H2]. apply andb_true_iff in H as [_ H]. apply Z.leb_le in H, H2. lia.
Qed.
Lemma ik_nk wb sf k : int_kind wb sf k = true -> (k =? IDENTIFIER) || (k =? TYPE) || (k =? MACRO) || (k <=? WHILE_KW) = false.
Proof.
  intros H. apply ik_range in H. unfold IDENTIFIER, TYPE, MACRO, WHILE_KW.
  destruct (Z.eqb_spec k 500), (Z.eqb_spec k 501), (Z.eqb_spec k 502), (Z.leb_spec k 332); try lia; reflexivity.
Qed.
Lemma nk_ik wb sf k : name_kind k -> int_kind wb sf k = false.
Proof. intros H. destruct (int_kind wb sf k) eqn:E; [|reflexivity]. apply ik_range in E. unfold name_kind, IDENTIFIER, TYPE, MACRO, WHILE_KW in H. lia. Qed.

(* reading the identifier spelled s *)
Definition read_name (st : store) (s : list Z) : option (store * (Z * Z)) :=
  match intern st s with Some (st', p) => Some (st', (heap st' (p + 2), p)) | None => None end.
Lemma finish_read st s : finish (pool_alloc st) (accum_all st 0 s) = read_name st s.
Proof. unfold finish, read_name, intern. destruct (accum_all st 0 s) as [[st' h]|]; reflexivity. Qed.

Section Build.
  Variable wide wb sf : bool.
  Lemma paste_spelling st a h l r s1 s2 : reach st a h ->
    (is_name a l s1 /\ (is_name a r s2 \/ is_int wb sf r s2)) \/ (is_int wb sf l s1 /\ is_name a r s2 /\ fst r <> TYPE) ->
    paste_store wide wb sf st l r = read_name st (s1 ++ s2).
  Proof.
    intros R H. destruct (reach_inv _ _ _ R) as [bk I]. destruct l as [lt lv], r as [rt rv]. unfold paste_store.
    assert (P63 : 2 ^ 63 < 10 * 10 ^ Z.of_nat 24) by reflexivity.
    assert (NXT : forall x st' h', accum_all st 0 x = Some (st', h') -> heap st' = heap st /\ (forall y, y < pool_alloc st -> pool st' y = pool st y) /\ pool_alloc st <= pool_alloc st').
    { intros x st' h' E. apply accum_all_ok in E as (_ & E1 & _ & E2 & E3 & _). repeat split; auto. lia. }
    rewrite <- finish_read, accum_app.
    destruct H as [[(K1 & y1 & Y1 & N1 & A1) [(K2 & y2 & Y2 & N2 & A2)|(K2 & V2 & D2)]]|[(K1 & V1 & D1) [(K2 & y2 & Y2 & N2 & A2) NT]]]; cbn [fst snd] in *.
    - rewrite (nk_test _ K1), (nk_test _ K2). subst s1 s2. rewrite (string_string bk st a lv y1 I Y1 A1 st 0 _ eq_refl) by (auto; lia).
      destruct (accum_all st 0 (sym_name y1)) as [[st' h']|] eqn:E; [|reflexivity]. cbn [andthen]. destruct (NXT _ _ _ E) as (E1 & E2 & E3).
      rewrite (string_string bk st a rv y2 I Y2 A2 st' h' _ E1) by auto. reflexivity.
    - rewrite (nk_test _ K1), (ik_nk _ _ _ K2), K2. subst s1 s2. rewrite (string_string bk st a lv y1 I Y1 A1 st 0 _ eq_refl) by (auto; lia).
      destruct (accum_all st 0 (sym_name y1)) as [[st' h']|] eqn:E; [|reflexivity]. cbn [andthen]. unfold FUEL; rewrite accum_integer_ok by lia. reflexivity.
    - rewrite (ik_nk _ _ _ K1), K1, (nk_ik _ _ _ K2). subst s1 s2. unfold FUEL; rewrite accum_integer_ok by lia.
      assert (T : (rt =? IDENTIFIER) || (rt =? MACRO) || (rt <=? WHILE_KW) = true).
      { pose proof (nk_test _ K2) as T. destruct (Z.eqb_spec rt TYPE); [contradiction|]. now rewrite orb_false_r in T. }
      rewrite T. destruct (accum_all st 0 (decimal (- lv))) as [[st' h']|] eqn:E; [|reflexivity]. cbn [andthen]. destruct (NXT _ _ _ E) as (E1 & E2 & E3).
      rewrite (string_string bk st a rv y2 I Y2 A2 st' h' _ E1) by auto. reflexivity.
  Qed.
End Build.

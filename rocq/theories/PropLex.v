(** * C07: operators by maximal munch, comments and white space skipped *)
From Coq Require Import ZArith List Lia Bool String.
From Verif Require Import Base Numerals Output U64 Literals Ast Lex.
Import ListNotations.
Open Scope Z_scope.
Local Notation length := List.length.
Local Notation "a ++ b" := (List.app a b) : Z_scope.

(** ** Every reader consumes *)
Lemma accum_while_len {S} (step : Z -> S -> Z -> option S) b inp : forall st st' r, accum_while step b st inp = Some (st', r) -> (length r <= length inp)%nat.
Proof.
  induction inp as [|c inp IH]; intros st st' r H; cbn in H; [inversion H; auto|].
  destruct (b <=? pdigit c); [inversion H; auto|]. destruct (step b st (pdigit c)); [|discriminate]. apply IH in H. cbn; lia.
Qed.
Lemma accum_digit_len {S} (step : Z -> S -> Z -> option S) b inp st st' r : accum_digit step b st inp = Some (Some (st', r)) -> (length r < length inp)%nat.
Proof.
  unfold accum_digit. destruct inp as [|c inp]; [discriminate|]. destruct (b <=? pdigit c); [discriminate|].
  destruct (step b st (pdigit c)); [|discriminate]. intros H. inversion H; subst. cbn; lia.
Qed.
Lemma scan_number32_len inp k v r : 48 <= peek inp <= 57 -> scan_number32 true inp = Some (k, v, r) -> (length r < length inp)%nat.
Proof.
  destruct inp as [|c inp]; [cbn; lia|]. cbn [peek]. intros Hc H. unfold scan_number32, scan_number in H.
  destruct (Z.eq_dec c 48) as [->|Hn].
  - destruct inp as [|x r1]; [inversion H; cbn; lia|]. destruct ((x =? 120) || (x =? 88)).
    + destruct (accum_digit step32 16 0 r1) as [[[st r2]|]|] eqn:E; try discriminate.
      destruct (accum_while step32 16 st r2) as [[st' r3]|] eqn:E2; [|discriminate]. inversion H; subst.
      apply accum_digit_len in E. apply accum_while_len in E2. cbn; lia.
    + destruct (accum_while step32 8 0 (x :: r1)) as [[st' r3]|] eqn:E2; [|discriminate]. inversion H; subst.
      apply accum_while_len in E2. cbn in *; lia.
  - assert (E : (match accum_while step32 10 0 (c :: inp) with Some (st, rest) => Some (Literals.INTEGER, st, rest) | None => None end) = Some (k, v, r)).
    { rewrite <- H. assert (C : In c [49;50;51;52;53;54;55;56;57]) by (cbn; lia). cbn in C.
      repeat (destruct C as [<- | C]; [reflexivity|]). contradiction. }
    clear H. cbn [accum_while] in E.
    assert (P : (10 <=? pdigit c) = false).
    { assert (C : In c [49;50;51;52;53;54;55;56;57]) by (cbn; lia). cbn in C.
      repeat (destruct C as [<- | C]; [reflexivity|]). contradiction. }
    rewrite P in E. destruct (step32 10 0 (pdigit c)) as [st|]; [|discriminate].
    destruct (accum_while step32 10 st inp) as [[st' r3]|] eqn:E2; [|discriminate]. inversion E; subst.
    apply accum_while_len in E2. cbn; lia.
Qed.
Lemma get_string_char_len inp v r : get_string_char inp = Some (v, r) -> (length r < length inp)%nat.
Proof.
  destruct inp as [|c inp]; [discriminate|]. unfold get_string_char.
  destruct (negb (c =? 92)); [intros H; inversion H; subst; cbn; lia|].
  destruct inp as [|e r1]; [discriminate|].
  destruct ((48 <=? e) && (e <=? 55)).
  - destruct (accum_digit step32 8 0 (e :: r1)) as [[[v1 t1]|]|] eqn:E1; try discriminate. apply accum_digit_len in E1.
    destruct (accum_digit step32 8 v1 t1) as [[[v2 t2]|]|] eqn:E2; try discriminate; [|intros H; inversion H; subst; cbn in *; lia].
    apply accum_digit_len in E2.
    destruct (accum_digit step32 8 v2 t2) as [[[v3 t3]|]|] eqn:E3; try discriminate; intros H; inversion H; subst; [apply accum_digit_len in E3|]; cbn in *; lia.
  - destruct ((e =? 120) || (e =? 88)).
    + destruct (accum_digit step32 16 0 r1) as [[[v1 t1]|]|] eqn:E1; try discriminate. apply accum_digit_len in E1.
      destruct (accum_digit step32 16 v1 t1) as [[[v2 t2]|]|] eqn:E2; try discriminate; intros H; inversion H; subst; [apply accum_digit_len in E2|]; cbn in *; lia.
    + repeat (match goal with |- context [if ?b then _ else _] => destruct b end; [intros H; inversion H; subst; cbn; lia|]). discriminate.
Qed.
Lemma char_literal_len inp v r : char_literal inp = Some (v, r) -> (length r < length inp)%nat.
Proof.
  unfold char_literal. destruct (get_string_char inp) as [[v' r']|] eqn:E; [|discriminate]. apply get_string_char_len in E. intros H.
  assert (X : exists x, r' = x :: r). { destruct r' as [|x r']; [discriminate|]. exists x. destruct (Z.eq_dec x 39) as [->|N]; [inversion H; auto|].
    exfalso. clear E. destruct x as [|p|p]; try discriminate. repeat (destruct p as [p|p|]; try discriminate). now apply N. }
  destruct X as [x ->]. cbn in E. lia.
Qed.
Lemma accum_string_until_len e inp l r : accum_string_until e inp = Some (l, r) -> (length r < length inp)%nat.
Proof.
  unfold accum_string_until. generalize (length inp) at 1. intros f. revert inp l r. induction f as [|f IH]; intros inp l r H; (destruct inp as [|c inp]; [discriminate|]); cbn [accum_string_until_go] in H.
  - destruct (c =? e); [inversion H; subst; cbn; lia|discriminate].
  - destruct (c =? e); [inversion H; subst; cbn; lia|]. destruct (get_string_char (c :: inp)) as [[v rest]|] eqn:E; [|discriminate].
    destruct (accum_string_until_go f e rest) as [[bs rest']|] eqn:E2; [|discriminate]. inversion H; subst. apply IH in E2. apply get_string_char_len in E. lia.
Qed.
Lemma get_ident_spec inp : forall n r, get_ident inp = (n, r) -> inp = n ++ r /\ forallb is_idchar n = true /\ match r with c :: _ => is_idchar c = false | [] => True end.
Proof.
  induction inp as [|c inp IH]; intros n r H; cbn in H; [inversion H; auto|].
  destruct (is_idchar c) eqn:E; [|inversion H; subst; cbn; auto].
  destruct (get_ident inp) as [n' r'] eqn:E2. inversion H; subst. destruct (IH _ _ eq_refl) as (A & B & C). cbn. rewrite E. subst. auto.
Qed.
Lemma get_ident_app n r : forallb is_idchar n = true -> match r with c :: _ => is_idchar c = false | [] => True end -> get_ident (n ++ r) = (n, r).
Proof.
  induction n as [|c n IH]; cbn; intros H R.
  - destruct r as [|c r]; cbn; [reflexivity|]. now rewrite R.
  - apply andb_prop in H as [H1 H2]. rewrite H1, IH; auto.
Qed.
Lemma skip_white_spec inp : forall nl r nl', skip_white inp nl = (r, nl') ->
  exists w, inp = w ++ r /\ forallb is_white w = true /\ match r with c :: _ => is_white c = false | [] => True end /\ nl' = nl || existsb (Z.eqb 10) w.
Proof.
  induction inp as [|c inp IH]; intros nl r nl' H; cbn in H.
  - inversion H; subst. exists []. cbn. rewrite orb_false_r. auto.
  - destruct (is_white c) eqn:E.
    + apply IH in H as (w & -> & A & B & ->). exists (c :: w). cbn [app forallb existsb]. rewrite E, A. repeat split; auto.
      rewrite (Z.eqb_sym c 10). destruct (10 =? c), nl; reflexivity.
    + inversion H; subst. exists []. cbn. rewrite orb_false_r. auto.
Qed.
Lemma skip_white_app w r : forall nl, forallb is_white w = true -> match r with c :: _ => is_white c = false | [] => True end ->
  skip_white (w ++ r) nl = (r, nl || existsb (Z.eqb 10) w).
Proof.
  induction w as [|c w IH]; cbn [app forallb existsb skip_white]; intros nl H R.
  - rewrite orb_false_r. destruct r as [|c r]; cbn; [reflexivity|]. now rewrite R.
  - apply andb_prop in H as [H1 H2]. rewrite H1, IH; auto. rewrite (Z.eqb_sym c 10). destruct (10 =? c), nl; reflexivity.
Qed.
Lemma skip_line_spec inp : exists b, inp = b ++ skip_line inp /\ ~ In 10 b /\ match skip_line inp with c :: _ => c = 10 | [] => True end.
Proof.
  induction inp as [|c inp (b & A & B & C)]; cbn; [exists []; cbn; auto|].
  destruct (Z.eqb_spec c 10) as [->|N]; [exists []; cbn; auto|]. exists (c :: b). cbn. rewrite <- A. repeat split; auto. intros [X|X]; auto.
Qed.
Lemma skip_line_app b r : ~ In 10 b -> match r with c :: _ => c = 10 | [] => True end -> skip_line (b ++ r) = r.
Proof.
  induction b as [|c b IH]; cbn; intros H R.
  - destruct r as [|c r]; cbn; [reflexivity|]. now rewrite R.
  - destruct (Z.eqb_spec c 10) as [->|N]; [tauto|]. apply IH; tauto.
Qed.
Lemma contains_cons p c s : contains p s -> contains p (c :: s).
Proof. intros (a & b & ->). exists (c :: a), b. reflexivity. Qed.
Lemma skip_block_spec s : forall prev r, skip_block prev s = Some r -> exists b, prev :: s = b ++ [42; 47] ++ r /\ ~ contains [42; 47] b.
Proof.
  induction s as [|c s IH]; intros prev r H; cbn in H; [discriminate|].
  destruct ((prev =? 42) && (c =? 47)) eqn:E.
  - inversion H; subst. apply andb_prop in E as [E1 E2]. apply Z.eqb_eq in E1, E2. subst. exists []. split; [reflexivity|].
    intros (a & b & X). destruct a; discriminate.
  - apply IH in H as (b & A & B). exists (prev :: b). split; [cbn; f_equal; exact A|].
    intros (x & y & X). destruct x as [|x0 x].
    + cbn in X. inversion X; subst. cbn in A. inversion A; subst. discriminate.
    + cbn in X. inversion X; subst. apply B. exists x, y. reflexivity.
Qed.
Lemma skip_block_app r : forall b prev s, prev :: s = b ++ [42; 47] ++ r -> ~ contains [42; 47] b -> skip_block prev s = Some r.
Proof.
  induction b as [|x b IH]; cbn; intros prev s E H.
  - inversion E; subst. cbn. reflexivity.
  - inversion E; subst. destruct (b ++ 42 :: 47 :: r) as [|c s] eqn:E2; [destruct b; discriminate|].
    cbn. destruct ((x =? 42) && (c =? 47)) eqn:T.
    + apply andb_prop in T as [T1 T2]. apply Z.eqb_eq in T1, T2. subst. destruct b as [|y b]; [cbn in E2; discriminate|].
      cbn in E2. inversion E2; subst. exfalso. apply H. exists [], b. reflexivity.
    + apply IH; [symmetry; exact E2|]. intros C. apply H. now apply contains_cons.
Qed.
Lemma skip_block_none s : forall prev, skip_block prev s = None <-> ~ contains [42; 47] (prev :: s).
Proof.
  intros prev. split.
  - revert prev. induction s as [|c s IH]; cbn; intros prev H (a & b & X).
    + destruct a as [|a0 [|a1 a]]; discriminate.
    + destruct ((prev =? 42) && (c =? 47)) eqn:E; [discriminate|]. destruct a as [|a0 a].
      * cbn in X. inversion X; subst. discriminate.
      * inversion X; subst. apply (IH _ H). exists a, b. assumption.
  - destruct (skip_block prev s) as [r|] eqn:E; [|auto]. intros H. exfalso. apply skip_block_spec in E as (b & A & _). apply H. exists b, r. exact A.
Qed.

(** ** Operators: get_op_tok against the table *)
(* the part of the table that starts with a given character *)
Definition tails (c : Z) : list (list Z * Z) :=
  flat_map (fun e => match fst e with c' :: p => if c' =? c then [(p, snd e)] else [] | [] => [] end) puncts.
Lemma tails_in c p op : In (c :: p, op) puncts <-> In (p, op) (tails c).
Proof.
  unfold tails. rewrite in_flat_map. split.
  - intros H. exists (c :: p, op). split; auto. cbn [fst snd]. rewrite Z.eqb_refl. left. reflexivity.
  - intros ((q & o) & H & I). cbn [fst snd] in I. destruct q as [|c' q]; [contradiction|]. destruct (Z.eqb_spec c' c) as [->|N]; [|contradiction].
    cbn [In] in I. destruct I as [I|[]]. inversion I; subst. exact H.
Qed.
Lemma puncts_ne op : ~ In ([], op) puncts.
Proof. unfold puncts. cbn [In]. intros H. repeat (destruct H as [H|H]; [discriminate|]). exact H. Qed.
Lemma longest_tails c r op rest : longest_punct (c :: r) op rest <->
  exists p, In (p, op) (tails c) /\ r = p ++ rest /\ forall p' op', In (p', op') (tails c) -> begins p' r -> (length p' <= length p)%nat.
Proof.
  split.
  - intros (p & A & B & C). destruct p as [|c' p]; [now apply puncts_ne in A|]. cbn in B. inversion B; subst.
    exists p. split; [now apply tails_in|]. split; auto. intros p' op' I (z & Z). apply tails_in in I. specialize (C _ _ I). cbn in C.
    assert (X : (S (length p') <= S (length p))%nat) by (apply C; exists z; cbn; now rewrite Z). lia.
  - intros (p & A & B & C). exists (c :: p). split; [now apply tails_in|]. split; [cbn; now rewrite B|].
    intros p' op' I (z & Z). destruct p' as [|c' p']; [cbn; lia|]. cbn in Z. inversion Z; subst. apply tails_in in I.
    cbn. apply le_n_S. apply (C _ _ I). exists z. assumption.
Qed.
Lemma app_inj_len {A} (a b : list A) : forall c d, length a = length b -> a ++ c = b ++ d -> a = b /\ c = d.
Proof.
  revert b. induction a as [|x a IH]; intros [|y b] c d L E; cbn in L; try discriminate; [auto|]. cbn in E. inversion E; subst.
  destruct (IH b c d) as [-> ->]; auto.
Qed.
Lemma longest_det s op1 r1 op2 r2 : longest_punct s op1 r1 -> longest_punct s op2 r2 -> op1 = op2 /\ r1 = r2.
Proof.
  intros (p1 & A1 & B1 & C1) (p2 & A2 & B2 & C2).
  assert (L : length p1 = length p2). { assert (X := C1 _ _ A2 (ex_intro _ _ B2)). assert (Y := C2 _ _ A1 (ex_intro _ _ B1)). lia. }
  assert (P : p1 = p2 /\ r1 = r2). { apply app_inj_len; [exact L|]. congruence. }
  destruct P as [-> ->]. split; auto. clear - A1 A2.
  assert (D : forall e e', In e puncts -> In e' puncts -> fst e = fst e' -> snd e = snd e').
  { intros e e' H H'. assert (F : forallb (fun a => forallb (fun b => implb (if list_eq_dec Z.eq_dec (fst a) (fst b) then true else false) (snd a =? snd b)) puncts) puncts = true) by (vm_compute; reflexivity).
    rewrite forallb_forall in F. specialize (F _ H). rewrite forallb_forall in F. specialize (F _ H'). intros E.
    destruct (list_eq_dec Z.eq_dec (fst e) (fst e')); [|contradiction]. cbn in F. now apply Z.eqb_eq. }
  exact (D _ _ A1 A2 eq_refl).
Qed.
(* the branches of get_op_tok *)
Lemma longest_mk c l r op rest p : tails c = l -> In (p, op) l -> r = p ++ rest ->
  forallb (fun e => (length (fst e) <=? length p)%nat || negb (existsb (fun _ => true) (fst e)) || 
     match fst e with a :: [] => negb (peek r =? a) | a :: b :: _ => negb (peek r =? a) || negb (peek (next r) =? b) | [] => false end) l = true ->
  longest_punct (c :: r) op rest.
Proof.
  intros T I E F. apply longest_tails. exists p. rewrite T. repeat split; auto. intros p' op' I' (z & Z).
  rewrite forallb_forall in F. specialize (F _ I'). cbn [fst] in F.
  destruct (Nat.leb_spec (length p') (length p)) as [L|L]; [exact L|]. exfalso. cbn [orb] in F.
  destruct p' as [|a [|b q]]; [cbn in L; lia| |]; rewrite Z in F; cbn [existsb negb orb peek next tl app] in F; rewrite ?Z.eqb_refl in F; discriminate.
Qed.
Lemma peek_some r k : peek r = k -> 0 <= k -> r = k :: next r.
Proof. destruct r as [|a r]; cbn; intros H K; [lia|]. now subst. Qed.
Lemma opt2_longest c alts l r op rest : tails c = l -> (forall k t, In (k, t) alts -> 0 <= k) -> In ([], c) l ->
  (forall k t, In (k, t) alts -> In ([k], t) l) -> (forall p t, In (p, t) l -> p = [] \/ exists k, p = [k] /\ In k (map fst alts)) ->
  opt2 c r alts = Some (op, rest) -> longest_punct (c :: r) op rest.
Proof.
  intros T P N I1 I2. unfold opt2. destruct (find (fun a => fst a =? peek r) alts) as [[k t]|] eqn:E; intros H; inversion H; subst; clear H.
  - apply find_some in E as [E1 E2]. cbn in E2. apply Z.eqb_eq in E2. apply longest_tails. exists [k]. split; [now apply I1|].
    split; [apply peek_some; [congruence|eapply P; eauto]|]. intros p' op' I' _. destruct (I2 _ _ I') as [->|(k' & -> & _)]; cbn; lia.
  - apply longest_tails. exists []. split; [assumption|]. split; [reflexivity|]. intros p' op' I' (z & Z). destruct (I2 _ _ I') as [->|(k' & -> & K)]; [cbn; lia|].
    exfalso. apply in_map_iff in K as ((k2 & t2) & K1 & K2). cbn in K1. subst. apply (find_none _ _ E) in K2. cbn in K2. rewrite Z.eqb_refl in K2. discriminate.
Qed.
Ltac opt2go := match goal with |- opt2 ?c ?r ?alts = Some (?op, ?rest) -> _ =>
  let l := eval vm_compute in (tails c) in
  refine (opt2_longest c alts l r op rest _ _ _ _ _);
   [vm_compute; reflexivity
   |intros k t H; cbn [In] in H; repeat (destruct H as [H|H]; [inversion H; lia|]); contradiction
   |cbn [In]; tauto
   |intros k t H; cbn [In] in H; repeat (destruct H as [H|H]; [inversion H; subst; vm_compute; tauto|]); contradiction
   |intros p t H; cbn [In] in H; repeat (destruct H as [H|H]; [inversion H; subst; first [now left | right; eexists; split; [reflexivity|vm_compute; tauto]]|]); contradiction ] end.
Ltac shiftgo c r op rest :=
  let l := eval vm_compute in (tails c) in
  destruct (Z.eqb_spec (peek r) 61) as [E1|E1];
  [intros H; inversion H; subst; refine (longest_mk c l r _ _ [61] _ _ _ _); [vm_compute; reflexivity|vm_compute; tauto|apply peek_some; [exact E1|lia]|];
     cbn [forallb fst snd length existsb Nat.leb negb orb andb]; rewrite E1; reflexivity
  |].
Lemma get_op_tok_longest c r op rest : get_op_tok c r = Some (op, rest) -> longest_punct (c :: r) op rest.
Proof.
  unfold get_op_tok.
  destruct (Z.eqb_spec c 47) as [->|N]; [opt2go|clear N].
  destruct (Z.eqb_spec c 38) as [->|N]; [opt2go|clear N].
  destruct (Z.eqb_spec c 124) as [->|N]; [opt2go|clear N].
  destruct (Z.eqb_spec c 60) as [->|N]; [|clear N].
  { shiftgo 60 r op rest. destruct (Z.eqb_spec (peek r) 60) as [E2|E2].
    - destruct (Z.eqb_spec (peek (next r)) 61) as [E3|E3]; intros H; inversion H; subst.
      + refine (longest_mk 60 _ r _ _ [60; 61] eq_refl _ _ _); [vm_compute; tauto| |].
        * cbn [app]. rewrite <- (peek_some _ _ E3) by lia. apply peek_some; [exact E2|lia].
        * match goal with |- forallb _ ?l = _ => let l' := eval vm_compute in l in change l with l' end. cbn [forallb fst snd length existsb Nat.leb negb orb andb]. reflexivity.
      + refine (longest_mk 60 _ r _ _ [60] eq_refl _ _ _); [vm_compute; tauto| |].
        * apply peek_some; [exact E2|lia].
        * match goal with |- forallb _ ?l = _ => let l' := eval vm_compute in l in change l with l' end. cbn [forallb fst snd length existsb Nat.leb negb orb andb].
          rewrite E2. apply Z.eqb_neq in E3. rewrite E3. reflexivity.
    - intros H; inversion H; subst. refine (longest_mk 60 _ rest _ _ [] eq_refl _ eq_refl _); [vm_compute; tauto|].
      match goal with |- forallb _ ?l = _ => let l' := eval vm_compute in l in change l with l' end. cbn [forallb fst snd length existsb Nat.leb negb orb andb].
      apply Z.eqb_neq in E1, E2. rewrite E1, E2. reflexivity. }
  destruct (Z.eqb_spec c 62) as [->|N]; [|clear N].
  { shiftgo 62 r op rest. destruct (Z.eqb_spec (peek r) 62) as [E2|E2].
    - destruct (Z.eqb_spec (peek (next r)) 61) as [E3|E3]; intros H; inversion H; subst.
      + refine (longest_mk 62 _ r _ _ [62; 61] eq_refl _ _ _); [vm_compute; tauto| |].
        * cbn [app]. rewrite <- (peek_some _ _ E3) by lia. apply peek_some; [exact E2|lia].
        * match goal with |- forallb _ ?l = _ => let l' := eval vm_compute in l in change l with l' end. cbn [forallb fst snd length existsb Nat.leb negb orb andb]. reflexivity.
      + refine (longest_mk 62 _ r _ _ [62] eq_refl _ _ _); [vm_compute; tauto| |].
        * apply peek_some; [exact E2|lia].
        * match goal with |- forallb _ ?l = _ => let l' := eval vm_compute in l in change l with l' end. cbn [forallb fst snd length existsb Nat.leb negb orb andb].
          rewrite E2. apply Z.eqb_neq in E3. rewrite E3. reflexivity.
    - intros H; inversion H; subst. refine (longest_mk 62 _ rest _ _ [] eq_refl _ eq_refl _); [vm_compute; tauto|].
      match goal with |- forallb _ ?l = _ => let l' := eval vm_compute in l in change l with l' end. cbn [forallb fst snd length existsb Nat.leb negb orb andb].
      apply Z.eqb_neq in E1, E2. rewrite E1, E2. reflexivity. }
  destruct (Z.eqb_spec c 61) as [->|N]; [opt2go|clear N].
  destruct (Z.eqb_spec c 33) as [->|N]; [opt2go|clear N].
  destruct (Z.eqb_spec c 43) as [->|N]; [opt2go|clear N].
  destruct (Z.eqb_spec c 45) as [->|N]; [opt2go|clear N].
  destruct (Z.eqb_spec c 42) as [->|N]; [opt2go|clear N].
  destruct (Z.eqb_spec c 37) as [->|N]; [opt2go|clear N].
  destruct (Z.eqb_spec c 94) as [->|N]; [opt2go|clear N].
  destruct (Z.eqb_spec c 35) as [->|N]; [opt2go|clear N].
  destruct (Z.eqb_spec c 46) as [->|N]; [|clear N].
  { destruct (Z.eqb_spec (peek r) 46) as [E2|E2].
    - destruct (Z.eqb_spec (peek (next r)) 46) as [E3|E3]; intros H; inversion H; subst.
      refine (longest_mk 46 _ r _ _ [46; 46] eq_refl _ _ _); [vm_compute; tauto| |].
      * cbn [app]. rewrite <- (peek_some _ _ E3) by lia. apply peek_some; [exact E2|lia].
      * match goal with |- forallb _ ?l = _ => let l' := eval vm_compute in l in change l with l' end. cbn [forallb fst snd length existsb Nat.leb negb orb andb]. reflexivity.
    - intros H; inversion H; subst. refine (longest_mk 46 _ rest _ _ [] eq_refl _ eq_refl _); [vm_compute; tauto|].
      match goal with |- forallb _ ?l = _ => let l' := eval vm_compute in l in change l with l' end. cbn [forallb fst snd length existsb Nat.leb negb orb andb].
      apply Z.eqb_neq in E2. rewrite E2. reflexivity. }
  destruct (existsb (Z.eqb c) [126; 63; 44; 58; 59; 40; 41; 91; 93; 123; 125]) eqn:E; [|discriminate].
  intros H; inversion H; subst. apply existsb_exists in E as (k & K & E). apply Z.eqb_eq in E. subst k.
  cbn [In] in K. repeat (destruct K as [<-|K]; [refine (longest_mk _ _ rest _ _ [] eq_refl _ eq_refl _); vm_compute; tauto|]). contradiction.
Qed.
Lemma heads_ok c p op : In (c :: p, op) puncts -> (c <=? 32) = false /\ is_letter c = false /\ (48 <=? c) && (c <=? 57) = false /\
  (c =? 39) = false /\ (c =? 34) = false /\ (c =? 92) = false /\ forall r, get_op_tok c r = None -> c = 46 /\ peek r = 46 /\ peek (next r) <> 46.
Proof.
  assert (F : Forall (fun e => match fst e with c :: _ => (c <=? 32) = false /\ is_letter c = false /\ (48 <=? c) && (c <=? 57) = false /\
    (c =? 39) = false /\ (c =? 34) = false /\ (c =? 92) = false /\ forall r, get_op_tok c r = None -> c = 46 /\ peek r = 46 /\ peek (next r) <> 46 | [] => True end) puncts).
  { unfold puncts. repeat (apply Forall_cons; [|]); try apply Forall_nil; cbn [fst];
    (split; [vm_compute; reflexivity|]; split; [vm_compute; reflexivity|]; split; [vm_compute; reflexivity|]; split; [vm_compute; reflexivity|]; split; [vm_compute; reflexivity|]; split; [vm_compute; reflexivity|]);
    intros r; unfold get_op_tok; cbn [Z.eqb Pos.eqb existsb orb]; unfold opt2;
    try (match goal with |- context [match find ?g ?l with _ => _ end] => destruct (find g l) as [[? ?]|] end; discriminate);
    repeat match goal with |- context [peek ?r =? ?k] => destruct (Z.eqb_spec (peek r) k) end; try discriminate; auto. }
  rewrite Forall_forall in F. intros H. exact (F _ H).
Qed.
Lemma op_complete c r op rest : longest_punct (c :: r) op rest -> get_op_tok c r = Some (op, rest) \/ c = 46 /\ peek r = 46 /\ peek (next r) <> 46.
Proof.
  intros H. destruct (get_op_tok c r) as [[o q]|] eqn:E.
  - left. apply get_op_tok_longest in E. destruct (longest_det _ _ _ _ _ H E) as [-> ->]. reflexivity.
  - right. destruct H as (p & A & B & C). destruct p as [|c' p]; [now apply puncts_ne in A|]. inversion B; subst. destruct (heads_ok _ _ _ A) as (_ & _ & _ & _ & _ & _ & X). apply X. exact E.
Qed.

(** ** Fuel *)
Lemma skip_white_len ch r nl inp' nl' : (ch <=? 32) = true -> (ch <? 0) = false -> skip_white (ch :: r) nl = (inp', nl') -> (length inp' <= length r)%nat.
Proof.
  intros A B H. apply skip_white_spec in H as (w & E & F & G & _). destruct w as [|w0 w].
  - cbn in E. subst. unfold is_white in G. lia.
  - inversion E; subst. rewrite app_length. lia.
Qed.
Lemma skip_block_len c s r : skip_block c s = Some r -> (S (length r) <= length s)%nat.
Proof. intros H. apply skip_block_spec in H as (b & E & _). apply (f_equal (@List.length Z)) in E. rewrite !app_length in E. cbn in E. lia. Qed.
Lemma skip_line_len s : (length (skip_line s) <= length s)%nat.
Proof. destruct (skip_line_spec s) as (b & E & _). apply (f_equal (@List.length Z)) in E. rewrite app_length in E. lia. Qed.
Lemma next_len (s : list Z) : length (next s) = pred (length s).
Proof. destruct s; reflexivity. Qed.
Ltac gsplit :=
  match goal with |- context [if ?b then _ else _] => destruct b eqn:?
  | |- context [match ?x with Some _ => _ | None => _ end] => destruct x eqn:?
  end.
Lemma get_tok_fuel f : forall f' nl inp, (length inp < f)%nat -> (length inp < f')%nat -> get_tok f nl inp = get_tok f' nl inp.
Proof.
  induction f as [|f IH]; intros [|f'] nl inp L L'; try lia. cbn [get_tok]. destruct inp as [|ch r]; [reflexivity|]. cbn [List.length] in L, L'.
  destruct (ch <=? 32) eqn:E1.
  { destruct (ch <? 0) eqn:E2; [reflexivity|]. destruct (skip_white (ch :: r) false) as [inp' nl'] eqn:E3. apply skip_white_len in E3; auto. apply IH; lia. }
  destruct (nl && (ch =? 35)); [reflexivity|]. destruct (is_letter ch); [reflexivity|]. destruct ((48 <=? ch) && (ch <=? 57)); [reflexivity|].
  destruct (ch =? 39); [reflexivity|]. destruct (ch =? 34); [reflexivity|]. 
  destruct ((ch =? 47) && (peek r =? 42)).
  { destruct (next r) as [|c q] eqn:E; [reflexivity|]. destruct (skip_block c (next (c :: q))) as [r'|] eqn:E2; [|reflexivity].
    apply skip_block_len in E2. rewrite next_len in E2. assert (X := next_len r). rewrite E in X. cbn in *. apply IH; lia. }
  destruct ((ch =? 47) && (peek r =? 47)). { assert (X := skip_line_len r). apply IH; lia. }
  destruct (ch =? 92); [|reflexivity]. destruct (peek r =? 10); [|reflexivity]. assert (X := next_len r). apply IH; lia.
Qed.
Lemma get_tok_len f : forall nl inp t r, get_tok f nl inp = RTok t r -> (length r < length inp)%nat.
Proof.
  induction f as [|f IH]; intros nl inp t rest; [discriminate|]. cbn [get_tok]. destruct inp as [|ch r]; [discriminate|].
  destruct (ch <=? 32) eqn:E1.
  { destruct (ch <? 0) eqn:E2; [discriminate|]. destruct (skip_white (ch :: r) false) as [inp' nl'] eqn:E3. apply skip_white_len in E3; auto. intros H. apply IH in H. cbn; lia. }
  destruct (nl && (ch =? 35)); [discriminate|]. destruct (is_letter ch) eqn:E2.
  { destruct (get_ident (ch :: r)) as [n r'] eqn:E. apply get_ident_spec in E as (E & F & G). intros H. inversion H; subst. rewrite E. rewrite app_length.
    destruct n as [|x n]; [|cbn; lia]. cbn in E. subst rest. cbn in G. unfold is_idchar in G. rewrite E2 in G. discriminate. }
  destruct ((48 <=? ch) && (ch <=? 57)) eqn:E3.
  { destruct (scan_number32 true (ch :: r)) as [[[k v] r']|] eqn:E; [|discriminate]. apply scan_number32_len in E; [|cbn; lia]. intros H; inversion H; subst; auto. }
  destruct (ch =? 39). { destruct (char_literal r) as [[v r']|] eqn:E; [|discriminate]. apply char_literal_len in E. intros H; inversion H; subst; cbn; lia. }
  destruct (ch =? 34). { destruct (accum_string_until 34 r) as [[v r']|] eqn:E; [|discriminate]. apply accum_string_until_len in E. intros H; inversion H; subst; cbn; lia. }
  destruct ((ch =? 47) && (peek r =? 42)).
  { destruct (next r) as [|c q] eqn:E; [discriminate|]. destruct (skip_block c (next (c :: q))) as [r'|] eqn:E4; [|discriminate].
    apply skip_block_len in E4. rewrite next_len in E4. assert (X := next_len r). rewrite E in X. intros H. apply IH in H. cbn in *. lia. }
  destruct ((ch =? 47) && (peek r =? 47)). { assert (X := skip_line_len r). intros H. apply IH in H. cbn; lia. }
  destruct (ch =? 92). { destruct (peek r =? 10); [|discriminate]. assert (X := next_len r). intros H. apply IH in H. cbn; lia. }
  destruct (get_op_tok ch r) as [[o q]|] eqn:E; [|discriminate]. intros H; inversion H; subst. apply get_op_tok_longest in E as (p & A & B & _).
  destruct p as [|c p]; [now apply puncts_ne in A|]. rewrite B. rewrite app_length. cbn. lia.
Qed.
Lemma tokens_go_fuel f : forall f' nl inp, (length inp < f)%nat -> (length inp < f')%nat -> tokens_go f nl inp = tokens_go f' nl inp.
Proof.
  induction f as [|f IH]; intros [|f'] nl inp L L'; try lia. cbn [tokens_go].
  destruct (get_tok (S (length inp)) nl inp) as [t r| | | |] eqn:E; try reflexivity. apply get_tok_len in E. rewrite (IH f' false r) by lia. reflexivity.
Qed.
Lemma tokens_eq nl s f : (length s < f)%nat -> tokens nl s = match get_tok f nl s with
  | RTok t r => match tokens false r with Some ts => Some (t :: ts) | None => None end | REof => Some [] | _ => None end.
Proof.
  intros L. unfold tokens at 1. cbn [tokens_go]. rewrite (get_tok_fuel f (S (length s)) nl s) by lia.
  destruct (get_tok (S (length s)) nl s) as [t r| | | |] eqn:E; try reflexivity. apply get_tok_len in E. unfold tokens. rewrite (tokens_go_fuel (length s) (S (length r)) false r) by lia. reflexivity.
Qed.

(** ** Soundness *)
Lemma get_tok_sound f : forall nl inp q, (forall t r ts, get_tok f nl inp = RTok t r -> t <> LOp 35 -> t <> LOp HASH_HASH -> lexes false r ts -> lexes q inp (t :: ts)) /\ (get_tok f nl inp = REof -> lexes q inp []).
Proof.
  induction f as [|f IH]; intros nl inp q; [split; discriminate|]. cbn [get_tok]. destruct inp as [|ch r]; [split; [discriminate|constructor]|].
  assert (BL : forall s brk nl' r' , blank s brk r' -> (forall t q0 ts, get_tok f nl' r' = RTok t q0 -> t <> LOp 35 -> t <> LOp HASH_HASH -> lexes false q0 ts -> lexes q s (t :: ts)) /\ (get_tok f nl' r' = REof -> lexes q s [])).
  { intros s brk nl' r' B. destruct (IH nl' r' (q || brk)) as [I1 I2]. split; [intros t q0 ts H X1 X2 X; eapply lx_blank; eauto|intros H; eapply lx_blank; eauto]. }
  destruct (ch <=? 32) eqn:E1.
  { destruct (ch <? 0) eqn:E2; [split; discriminate|]. destruct (skip_white (ch :: r) false) as [inp' nl'] eqn:E3. apply skip_white_spec in E3 as (w & E & F & G & ->). cbn [orb]. refine (BL _ (existsb (Z.eqb 10) w) _ _ _).
    rewrite E. apply bl_white; auto. intros ->. cbn in E. subst inp'. cbn in G. unfold is_white in G. lia. }
  destruct (nl && (ch =? 35)) eqn:EN; [split; discriminate|]. destruct (is_letter ch) eqn:E2.
  { destruct (get_ident (ch :: r)) as [n r'] eqn:E. apply get_ident_spec in E as (E & F & G). split; [|discriminate]. intros t q0 ts H _ _ X. inversion H; subst. rewrite E.
    destruct n as [|x n]. { cbn in E. subst q0. cbn in G. unfold is_idchar in G. rewrite E2 in G. discriminate. }
    inversion E; subst. apply (lx_id q (x :: n)); auto. discriminate. }
  destruct ((48 <=? ch) && (ch <=? 57)) eqn:E3.
  { destruct (scan_number32 true (ch :: r)) as [[[k v] r']|] eqn:E; [|split; discriminate]. split; [|discriminate]. intros t q0 ts H _ _ X; inversion H; subst. eapply lx_num; eauto. cbn; lia. }
  destruct (Z.eqb_spec ch 39) as [->|N39]. { destruct (char_literal r) as [[v r']|] eqn:E; [|split; discriminate]. split; [|discriminate]. intros t q0 ts H _ _ X; inversion H; subst. exact (lx_chr q _ _ _ _ E X). }
  destruct (Z.eqb_spec ch 34) as [->|N34]. { destruct (accum_string_until 34 r) as [[v r']|] eqn:E; [|split; discriminate]. split; [|discriminate]. intros t q0 ts H _ _ X; inversion H; subst. exact (lx_str q _ _ _ _ E X). }
  destruct ((ch =? 47) && (peek r =? 42)) eqn:EB.
  { apply andb_prop in EB as [B1 B2]. apply Z.eqb_eq in B1, B2. subst ch. apply peek_some in B2; [|lia].
    destruct (next r) as [|c q1] eqn:E; [split; discriminate|]. destruct (skip_block c (next (c :: q1))) as [r'|] eqn:E4; [|split; discriminate].
    apply skip_block_spec in E4 as (b & Eb & Nb). cbn [next tl] in Eb. refine (BL _ false false _ _). rewrite B2, Eb. exact (bl_block b r' Nb). }
  destruct ((ch =? 47) && (peek r =? 47)) eqn:EL.
  { apply andb_prop in EL as [B1 B2]. apply Z.eqb_eq in B1, B2. subst ch. refine (BL _ false false _ _). destruct (skip_line_spec (next r)) as (b & Eb & Nb & Hb).
    assert (SR : skip_line r = skip_line (next r)). { rewrite (peek_some _ _ B2) at 1 by lia. reflexivity. }
    rewrite SR. rewrite (peek_some _ _ B2) at 1 by lia. rewrite Eb at 1. exact (bl_line b _ Nb Hb). }
  destruct (Z.eqb_spec ch 92) as [->|N92].
  { destruct (Z.eqb_spec (peek r) 10) as [P|P]; [|split; discriminate]. refine (BL _ false false _ _). rewrite (peek_some _ _ P) at 1 by lia. exact (bl_join (next r)). }
  destruct (get_op_tok ch r) as [[o q1]|] eqn:E; [|split; discriminate]. split; [|discriminate]. intros t q' ts H T1 T2 X; inversion H; subst. apply get_op_tok_longest in E.
  apply (lx_op q (ch :: r) o q' ts); auto; [intros (z & Z); cbn in Z; inversion Z; subst; cbn in *; discriminate..|].
  intros NL (z & Hz). cbn in Hz. inversion Hz; subst. destruct E as (p & A & B & _). destruct p as [|c p]; [now apply puncts_ne in A|]. cbn in B. inversion B; subst c.
  apply tails_in in A. change (tails 35) with [(@nil Z, 35); ([35], HASH_HASH)] in A. cbn [In] in A. destruct A as [A|[A|[]]]; inversion A; subst; auto.
Qed.
Lemma tokens_sound f : forall nl s ts q, tokens_go f nl s = Some ts -> no_hash ts -> lexes q s ts.
Proof.
  induction f as [|f IH]; intros nl s ts q; [discriminate|]. cbn [tokens_go]. destruct (get_tok_sound (S (length s)) nl s q) as [A B].
  destruct (get_tok (S (length s)) nl s) as [t r| | | |]; try discriminate.
  - destruct (tokens_go f false r) as [ts'|] eqn:E; [|discriminate]. intros H NH; inversion H; subst. destruct (NH t (or_introl eq_refl)) as [N1 N2].
    apply (A t r ts' eq_refl N1 N2). apply (IH _ _ _ _ E). intros u U. apply NH. now right.
  - intros H; inversion H; subst. auto.
Qed.

(** ** Completeness *)
Lemma blank_tokens s brk r nl : blank s brk r -> tokens nl s = tokens brk r.
Proof.
  intros B. assert (FU : forall f, (length r < f)%nat -> get_tok (S f) nl s = get_tok f brk r).
  { intros f L. cbn [get_tok]. inversion B as [w r0 W1 W2 W3|b r0 N R|b r0 N|r0]; subst.
    - destruct w as [|c w]; [congruence|]. cbn [app]. assert (C : is_white c = true) by (cbn in W2; apply andb_prop in W2; tauto).
      unfold is_white in C. apply andb_prop in C as [C1 C2]. rewrite C2. replace (c <? 0) with false by lia.
      change (c :: w ++ r) with ((c :: w) ++ r). rewrite (skip_white_app (c :: w) r false W2 W3). cbn [orb]. reflexivity.
    - cbn [app Z.leb Z.compare Pos.compare Pos.compare_cont Z.eqb Pos.eqb]. rewrite andb_false_r. cbn [is_letter]. 
      change (is_letter 47) with false. cbn [andb orb Z.leb Z.compare Pos.compare Pos.compare_cont peek Z.eqb Pos.eqb].
      change (skip_line (47 :: b ++ r)) with (skip_line (b ++ r)). rewrite skip_line_app by auto. reflexivity.
    - cbn [app Z.leb Z.compare Pos.compare Pos.compare_cont Z.eqb Pos.eqb]. rewrite andb_false_r. change (is_letter 47) with false.
      cbn [andb orb Z.leb Z.compare Pos.compare Pos.compare_cont peek Z.eqb Pos.eqb next tl].
      destruct (b ++ 42 :: 47 :: r) as [|c q] eqn:E; [destruct b; discriminate|]. cbn [next tl]. rewrite (skip_block_app r b c q); auto.
    - cbn [app Z.leb Z.compare Pos.compare Pos.compare_cont Z.eqb Pos.eqb]. rewrite andb_false_r. change (is_letter 92) with false.
      cbn [andb orb Z.leb Z.compare Pos.compare Pos.compare_cont peek Z.eqb Pos.eqb next tl]. reflexivity. }
  assert (LN : (length r < length s)%nat).
  { inversion B; subst; cbn [app List.length]; rewrite ?app_length; cbn [List.length]; try lia. destruct w; [congruence|]. cbn; lia. }
  rewrite (tokens_eq nl s (S (S (length s)))) by lia. rewrite FU by lia. rewrite (tokens_eq brk r (S (length s))) by lia. reflexivity.
Qed.
Lemma lexes_dot s ts : lexes false (46 :: s) ts -> peek s <> 46 -> exists ts', ts = LOp 46 :: ts'.
Proof.
  remember (46 :: s) as u eqn:U. remember false as nl eqn:NL. intros H P.
  destruct H as [nl|nl u brk r ts B L|nl u op r ts LP N1 N2 N3 L|nl n r ts NE N1 N2 N3 L|nl u k v r ts D S L|nl u v r ts S L|nl u l r ts S L]; try discriminate.
  - destruct B as [w r W1 W2 W3|b r N R|b r N|r]; try discriminate. destruct w as [|c w]; [congruence|]. cbn in U. inversion U; subst. discriminate.
  - destruct LP as (p & A & E & _). destruct p as [|c p]; [now apply puncts_ne in A|]. rewrite U in E. cbn in E. inversion E; subst. apply tails_in in A.
    change (tails 46) with [(@nil Z, 46); ([46; 46], ELLIPSIS)] in A. cbn [In] in A. destruct A as [A|[A|[]]]; inversion A; subst; [eauto|].
    cbn in P. lia.
  - destruct n as [|c n]; [congruence|]. cbn in U. inversion U; subst. discriminate.
  - rewrite U in D. cbn in D. lia.
Qed.
Lemma no_dots_tl t ts : no_dots (t :: ts) -> no_dots ts.
Proof. destruct t; cbn; auto. destruct ts as [|[ | | | | ] ts]; cbn; tauto. Qed.
Lemma tokens_complete q s ts : lexes q s ts -> no_dots ts -> forall nl, (nl = true -> q = true) -> tokens nl s = Some ts.
Proof.
  induction 1 as [nl|nl s brk r ts B L IH|nl s op r ts LP N1 N2 N3 L IH|nl n r ts NE N1 N2 N3 L IH|nl s k v r ts D SC L IH|nl s v r ts SC L IH|nl s l r ts SC L IH]; intros ND p P.
  - rewrite (tokens_eq p [] 1) by (cbn; lia). reflexivity.
  - rewrite (blank_tokens _ _ _ _ B). apply IH; auto. intros ->. apply orb_true_r.
  - assert (LP' := LP). destruct LP as (pp & A & E & _). destruct pp as [|c x]; [now apply puncts_ne in A|]. cbn in E. subst s.
    destruct (heads_ok _ _ _ A) as (H1 & H2 & H3 & H4 & H5 & H6 & _).
    destruct (op_complete _ _ _ _ LP') as [G|(-> & G1 & G2)].
    + rewrite (tokens_eq p (c :: x ++ r) (S (length (c :: x ++ r)))) by lia. cbn [get_tok]. rewrite H1.
      replace (p && (c =? 35)) with false.
      2:{ destruct p; [|reflexivity]. cbn. destruct (Z.eqb_spec c 35) as [->|]; [|reflexivity]. exfalso. apply (N3 (P eq_refl)). exists (x ++ r). reflexivity. }
      rewrite H2, H3, H4, H5, H6.
      replace ((c =? 47) && (peek (x ++ r) =? 42)) with false.
      2:{ destruct (Z.eqb_spec c 47) as [->|]; [|reflexivity]. destruct (Z.eqb_spec (peek (x ++ r)) 42) as [F|]; [|reflexivity]. exfalso. apply N2. exists (next (x ++ r)).
          rewrite (peek_some _ _ F) at 1 by lia. reflexivity. }
      replace ((c =? 47) && (peek (x ++ r) =? 47)) with false.
      2:{ destruct (Z.eqb_spec c 47) as [->|]; [|reflexivity]. destruct (Z.eqb_spec (peek (x ++ r)) 47) as [F|]; [|reflexivity]. exfalso. apply N1. exists (next (x ++ r)).
          rewrite (peek_some _ _ F) at 1 by lia. reflexivity. }
      rewrite G. rewrite (IH (no_dots_tl _ _ ND) false) by discriminate. reflexivity.
    + exfalso. assert (O : op = 46 /\ r = x ++ r /\ x = []).
      { apply tails_in in A. change (tails 46) with [(@nil Z, 46); ([46; 46], ELLIPSIS)] in A. cbn [In] in A. destruct A as [A|[A|[]]]; inversion A; subst; auto.
        cbn in G2. lia. }
      destruct O as (-> & _ & ->). cbn in G1, G2. destruct r as [|c r]; [cbn in G1; lia|]. cbn in G1, G2. subst c. destruct (lexes_dot _ _ L G2) as (ts' & ->). cbn in ND. tauto.
  - destruct n as [|c n]; [congruence|]. assert (G : get_ident ((c :: n) ++ r) = (c :: n, r)) by (now apply get_ident_app).
    rewrite (tokens_eq p ((c :: n) ++ r) (S (length ((c :: n) ++ r)))) by lia. cbn [app]. cbn [get_tok].
    assert (C : (c <=? 32) = false /\ (c =? 35) = false) by (unfold is_letter in N1; lia). destruct C as [-> ->]. rewrite andb_false_r, N1. cbn [app] in G. rewrite G.
    rewrite (IH (no_dots_tl _ _ ND) false) by discriminate. reflexivity.
  - destruct s as [|c s]; [cbn in D; lia|]. cbn [peek] in D. rewrite (tokens_eq p (c :: s) (S (length (c :: s)))) by lia. cbn [get_tok].
    assert (C : (c <=? 32) = false /\ (c =? 35) = false /\ is_letter c = false /\ (48 <=? c) && (c <=? 57) = true) by (unfold is_letter; lia). destruct C as (-> & -> & -> & ->).
    rewrite andb_false_r, SC. rewrite (IH (no_dots_tl _ _ ND) false) by discriminate. reflexivity.
  - rewrite (tokens_eq p (39 :: s) (S (length (39 :: s)))) by lia. cbn [get_tok Z.leb Z.compare Pos.compare Pos.compare_cont Z.eqb Pos.eqb]. rewrite andb_false_r.
    change (is_letter 39) with false. cbn [andb]. rewrite SC. rewrite (IH (no_dots_tl _ _ ND) false) by discriminate. reflexivity.
  - rewrite (tokens_eq p (34 :: s) (S (length (34 :: s)))) by lia. cbn [get_tok Z.leb Z.compare Pos.compare Pos.compare_cont Z.eqb Pos.eqb]. rewrite andb_false_r.
    change (is_letter 34) with false. cbn [andb]. rewrite SC. rewrite (IH (no_dots_tl _ _ ND) false) by discriminate. reflexivity.
Qed.

(** ** C07 *)
Lemma file_flag s ts : lexes true s ts -> lexes false (10 :: s) ts.
Proof.
  intros H. destruct (skip_white (10 :: s) false) as [r nl'] eqn:E. apply skip_white_spec in E as (w & E & F & G & _).
  destruct w as [|c w]; [cbn in E; subst r; discriminate|]. cbn in E. inversion E; subst c s.
  apply (lx_blank false (10 :: w ++ r) true r ts).
  - exact (bl_white (10 :: w) r ltac:(discriminate) F G).
  - cbn [orb]. assert (F2 : forallb is_white w = true) by exact F. destruct w as [|c w]; [exact H|].
    assert (W : is_white c = true) by (cbn [forallb] in F2; apply andb_prop in F2; tauto).
    clear E. remember ((c :: w) ++ r) as u eqn:U. assert (Q : exists q : bool, q = true /\ lexes q u ts) by (exists true; auto). clear H. destruct Q as (q & Q & H).
    destruct H as [nl|nl u brk r' ts B L|nl u op r' ts LP N1 N2 N3 L|nl n r' ts NE N1 N2 N3 L|nl u k v r' ts D S' L|nl u v r' ts S' L|nl u l r' ts S' L].
    + discriminate.
    + subst nl. destruct B as [w' r' W1 W2 W3|b r' N R|b r' N|r']; try (cbn in U; inversion U; subst; discriminate).
      assert (X : r' = r). { assert (A1 := skip_white_app w' r' false W2 W3). assert (A2 := skip_white_app (c :: w) r false F2 G). rewrite U in A1. rewrite A2 in A1. congruence. }
      subst r'. exact L.
    + exfalso. destruct LP as (p & A & E & _). destruct p as [|c' p]; [now apply puncts_ne in A|]. rewrite U in E. cbn in E. inversion E; subst c'. apply heads_ok in A as (A & _). unfold is_white in W. apply andb_prop in W as [_ W]. rewrite W in A. discriminate.
    + exfalso. destruct n as [|c' n]; [congruence|]. cbn in U. inversion U; subst c'. unfold is_white, is_letter in *. lia.
    + exfalso. rewrite U in D. cbn in D. unfold is_white in W. lia.
    + exfalso. inversion U; subst c. discriminate.
    + exfalso. inversion U; subst c. discriminate.
Qed.
(** Every file that is, by the rules of C, a sequence of tokens gives those tokens. *)
Theorem c07_tokens file ts : lexes true file ts -> no_dots ts -> file_tokens file = Some ts.
Proof.
  intros H N. unfold file_tokens. apply (tokens_complete false (10 :: file) ts); [now apply file_flag|exact N|discriminate].
Qed.
(** What get_tok gives is what C gives. *)
Theorem c07_only_those file ts : file_tokens file = Some ts -> no_hash ts -> lexes true (10 :: file) ts.
Proof. intros H N. exact (tokens_sound _ _ _ _ true H N). Qed.
(** C's rules give at most one reading. *)
Theorem c07_unambiguous file ts1 ts2 : lexes true file ts1 -> lexes true file ts2 -> no_dots ts1 -> no_dots ts2 -> ts1 = ts2.
Proof. intros A B N1 N2. apply c07_tokens in A, B; auto. congruence. Qed.
(** White space and comments: what is read after one does not depend on which it was, or on what it contains. *)
Theorem c07_blank_skipped nl s brk r : blank s brk r -> tokens nl s = tokens brk r.
Proof. apply blank_tokens. Qed.
Theorem c07_comment_is_space nl b r : ~ contains [42; 47] b -> match r with c :: _ => is_white c = false | [] => True end ->
  tokens nl ([47; 42] ++ b ++ [42; 47] ++ r) = tokens nl (32 :: r).
Proof.
  intros N R. rewrite (blank_tokens _ _ _ nl (bl_block b r N)). symmetry. exact (blank_tokens _ _ _ nl (bl_white [32] r ltac:(discriminate) eq_refl R)).
Qed.
(** A block comment that never ends is an error, wherever get_tok meets it. *)
Theorem c07_unterminated b nl f : ~ contains [42; 47] b -> get_tok (S f) nl ([47; 42] ++ b) = RErr.
Proof.
  intros N. cbn [app get_tok Z.leb Z.compare Pos.compare Pos.compare_cont Z.eqb Pos.eqb]. rewrite andb_false_r. change (is_letter 47) with false.
  cbn [andb orb Z.leb Z.compare Pos.compare Pos.compare_cont peek Z.eqb Pos.eqb next tl]. destruct b as [|c b]; [reflexivity|]. cbn [next tl].
  apply skip_block_none in N. rewrite N. reflexivity.
Qed.
(** The exceptions. Two dots are two tokens in C; get_tok reports an error (pnut.c:2423-2431). *)
Theorem c07_dots_refuted : lexes true [97; 46; 46; 98] [LId [97]; LOp 46; LOp 46; LId [98]] /\ file_tokens [97; 46; 46; 98] = None.
Proof.
  split; [|vm_compute; reflexivity].
  apply (lx_id true [97] [46; 46; 98]); [discriminate|reflexivity|reflexivity|reflexivity|].
  apply (lx_op false [46; 46; 98] 46 [46; 98]); try (intros (z & Hz); discriminate); try discriminate.
  { refine (longest_mk 46 _ _ _ _ [] eq_refl _ eq_refl _); [vm_compute; tauto|vm_compute; reflexivity]. }
  apply (lx_op false [46; 98] 46 [98]); try (intros (z & Hz); discriminate); try discriminate. { refine (longest_mk 46 _ _ _ _ [] eq_refl _ eq_refl _); [vm_compute; tauto|vm_compute; reflexivity]. }
  apply (lx_id false [98] []); [discriminate|reflexivity|reflexivity|exact I|]. constructor.
Qed.
(** A comment before the number sign of a directive: in C the line is a directive (6.10p2: white space and comments
    may precede), so it is no sequence of tokens; get_tok gives the sign as a token (pnut.c:2122). *)
Theorem c07_comment_before_directive_refuted : exists s ts, s = [47; 42; 42; 47; 35; 97] /\ file_tokens s = Some ts /\ In (LOp 35) ts /\ ~ exists ts', lexes true s ts'.
Proof.
  exists [47; 42; 42; 47; 35; 97], [LOp 35; LId [97]]. split; [reflexivity|]. split; [vm_compute; reflexivity|]. split; [now left|].
  assert (D : forall ts', ~ lexes true [35; 97] ts').
  { intros ts' H. remember [35; 97] as u eqn:U. remember true as q eqn:Q.
    destruct H as [nl|nl u brk r' ts B L|nl u op r' ts LP N1 N2 N3 L|nl n r' ts NE N1 N2 N3 L|nl u k v r' ts D S' L|nl u v r' ts S' L|nl u l r' ts S' L]; try discriminate.
    - destruct B as [w r W1 W2 W3|b r N R|b r N|r]; try discriminate. destruct w as [|c w]; [congruence|]. cbn in U. inversion U; subst. discriminate.
    - apply N3; [exact Q|]. rewrite U. exists [97]. reflexivity.
    - destruct n as [|c n]; [congruence|]. cbn in U. inversion U; subst. discriminate.
    - rewrite U in D. cbn in D. lia. }
  intros (ts' & H). remember [47; 42; 42; 47; 35; 97] as u eqn:U. remember true as q eqn:Q.
  destruct H as [nl|nl u brk r' ts B L|nl u op r' ts LP N1 N2 N3 L|nl n r' ts NE N1 N2 N3 L|nl u k v r' ts DD S' L|nl u v r' ts S' L|nl u l r' ts S' L]; try discriminate.
  - destruct B as [w r W1 W2 W3|b r N R|b r N|r]; try discriminate.
    + destruct w as [|c w]; [congruence|]. cbn in U. inversion U; subst. discriminate.
    + subst nl. cbn in U. inversion U as [U']. cbn [orb] in L. destruct b as [|b0 b].
      * cbn in U'. inversion U'; subst. exact (D _ L).
      * assert (K : skip_block 42 [47; 35; 97] = Some r). { apply (skip_block_app r (b0 :: b)); [symmetry; exact U'|exact N]. } cbn in K. inversion K; subst. exact (D _ L).
  - apply N2. rewrite U. exists [42; 47; 35; 97]. reflexivity.
  - destruct n as [|c n]; [congruence|]. cbn in U. inversion U; subst. discriminate.
  - rewrite U in DD. cbn in DD. lia.
Qed.
(** A case that meets the hypotheses: [x>>=y/*>>*/--+z//..] and a second line. *)
Example c07_instance : exists ts, file_tokens [120; 62; 62; 61; 121; 47; 42; 62; 62; 42; 47; 45; 45; 43; 122; 47; 47; 46; 46; 10; 39; 97; 39; 59] = Some ts /\
  ts = [LId [120]; LOp RSHIFT_EQ; LId [121]; LOp MINUS_MINUS; LOp 43; LId [122]; LChr 97; LOp 59] /\ no_hash ts /\ no_dots ts /\
  lexes true (10 :: [120; 62; 62; 61; 121; 47; 42; 62; 62; 42; 47; 45; 45; 43; 122; 47; 47; 46; 46; 10; 39; 97; 39; 59]) ts.
Proof.
  eexists. split; [vm_compute; reflexivity|]. split; [reflexivity|].
  assert (NH : no_hash [LId [120]; LOp RSHIFT_EQ; LId [121]; LOp MINUS_MINUS; LOp 43; LId [122]; LChr 97; LOp 59]).
  { intros t H. cbn [In] in H. repeat (destruct H as [<-|H]; [split; discriminate|]). contradiction. }
  split; [exact NH|]. split; [vm_compute; intuition discriminate|]. apply c07_only_those; [vm_compute; reflexivity|exact NH].
Qed.

(** ** The characters of identifiers *)
Definition letters : list Z := zs "abcdefghijklmnopqrstuvwxyzABCDEFGHIJKLMNOPQRSTUVWXYZ_"%string.
Theorem c07_letters : forall c, (is_letter c = true <-> In c letters) /\ (is_idchar c = true <-> In c (letters ++ zs "0123456789"%string)).
Proof.
  assert (B : forall c, is_idchar c = true -> 0 <= c < 128) by (intros c; unfold is_idchar, is_letter; lia).
  assert (L : forall c l, existsb (Z.eqb c) l = true <-> In c l).
  { intros c l. rewrite existsb_exists. split; [intros (x & I & E); apply Z.eqb_eq in E; congruence|intros I; exists c; split; [exact I|apply Z.eqb_refl]]. }
  assert (T : forallb (fun k => Bool.eqb (is_letter (Z.of_nat k)) (existsb (Z.eqb (Z.of_nat k)) letters) &&
              Bool.eqb (is_idchar (Z.of_nat k)) (existsb (Z.eqb (Z.of_nat k)) (letters ++ zs "0123456789"%string))) (seq 0 128) = true) by (vm_compute; reflexivity).
  assert (R : forallb (fun x => (0 <=? x) && (x <? 128)) (letters ++ zs "0123456789"%string) = true) by (vm_compute; reflexivity).
  rewrite forallb_forall in T, R.
  assert (K : forall c, 0 <= c < 128 -> is_letter c = existsb (Z.eqb c) letters /\ is_idchar c = existsb (Z.eqb c) (letters ++ zs "0123456789"%string)).
  { intros c Hc. specialize (T (Z.to_nat c) ltac:(apply in_seq; lia)). rewrite Z2Nat.id in T by lia. apply andb_prop in T as [T1 T2].
    apply eqb_prop in T1. apply eqb_prop in T2. auto. }
  assert (R2 : forall c, In c (letters ++ zs "0123456789"%string) -> 0 <= c < 128) by (intros c I; specialize (R c I); lia).
  intros c. split; split; intros H.
  - apply L. rewrite <- (proj1 (K c ltac:(apply B; unfold is_idchar; rewrite H; reflexivity))). exact H.
  - rewrite (proj1 (K c ltac:(apply R2, in_or_app; left; exact H))). apply L. exact H.
  - apply L. rewrite <- (proj2 (K c (B c H))). exact H.
  - rewrite (proj2 (K c (R2 c H))). apply L. exact H.
Qed.

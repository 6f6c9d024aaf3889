(** * Every label the code generator allocates is defined exactly once, and it uses no others *)
From Coq Require Import ZArith List Lia Bool.
From Verif Require Import Base Asm AsmProof X86 X86Proof NMach NPtr CLang NGen NSupp NBin NRun NBop NEqs NStat NStat2 NJudge NRt CProg NProg.
Import ListNotations.
Open Scope Z_scope.

Fixpoint cnt (x : Z) (l : list hop) : Z :=
  match l with [] => 0 | HD y :: r => (if x =? y then 1 else 0) + cnt x r | HC _ :: r => cnt x r end.
Fixpoint used (x : Z) (l : list hop) : Prop :=
  match l with [] => False | HC h :: r => hlabel h = Some x \/ used x r | HD _ :: r => used x r end.
Lemma cnt_app x a b : cnt x (a ++ b) = cnt x a + cnt x b.
Proof. induction a as [|[h|y] a IH]; cbn [app cnt]; lia. Qed.
Lemma used_app x a b : used x (a ++ b) <-> used x a \/ used x b.
Proof. induction a as [|[h|y] a IH]; cbn [app used]; tauto. Qed.
Definition ind (l l' x : Z) : Z := if (l <=? x) && (x <? l') then 1 else 0.

Definition LD (ext : Z -> Prop) (l : Z) (c : list hop) (l' : Z) : Prop :=
  l <= l' /\ (forall x, cnt x c = ind l l' x) /\ (forall x, used x c -> l <= x < l' \/ ext x).
Lemma LD_nil ext l : LD ext l [] l.
Proof. split; [lia|]. split; [intros x; cbn [cnt]; unfold ind; bdestr; cbn [andb]; lia|intros x []]. Qed.
(** Code without labels. *)
Definition nolab (c : list hop) : Prop := Forall (fun o => match o with HC h => hlabel h = None | HD _ => False end) c.
Lemma nolab_cnt c x : nolab c -> cnt x c = 0.
Proof. induction 1 as [|[h|y] c H _ IH]; cbn [cnt]; auto. contradiction. Qed.
Lemma nolab_used c x : nolab c -> ~ used x c.
Proof. induction 1 as [|[h|y] c H _ IH]; cbn [used]; auto; try contradiction. rewrite H. intros [X|X]; [discriminate|auto]. Qed.
Lemma nolab_LD ext l c : nolab c -> LD ext l c l.
Proof.
  intros H. split; [lia|]. split; intros x; [rewrite (nolab_cnt c x H); unfold ind; bdestr; cbn [andb]; lia|intros U; destruct (nolab_used c x H U)].
Qed.
Lemma nolab_app a b : nolab a -> nolab b -> nolab (a ++ b).
Proof. intros. apply Forall_app. now split. Qed.
Lemma LD_weak (e e' : Z -> Prop) l c l' : (forall x, e x -> e' x) -> LD e l c l' -> LD e' l c l'.
Proof. intros H (A & B & C). split; [exact A|]. split; [exact B|]. intros x U. destruct (C x U); auto. Qed.

Ltac ldspec x := repeat match goal with H : LD _ _ _ _ |- _ => let A := fresh in let B := fresh in let C := fresh in
    destruct H as (A & B & C); first [specialize (B x)|idtac]; specialize (C x) end.
Ltac ldmono := repeat match goal with H : LD _ _ _ _ |- _ => destruct H as (? & _ & _) end; cbn [fst snd] in *; lia.
Ltac ldgo := cbn [fst snd] in *; unfold h_jump_cond_reg_reg in *; refine (conj _ (conj _ _)); [ldmono|intros xx; ldspec xx|intros xx; ldspec xx];
  [repeat (rewrite ?cnt_app; cbn [cnt app]); unfold ind in *; repeat match goal with H : cnt _ _ = _ |- _ => rewrite H; clear H end; bdestr; cbn [andb]; lia
  |repeat (rewrite ?used_app; cbn [used app hlabel]); intros UU;
   repeat match goal with H : _ \/ _ |- _ => destruct H end; try contradiction; try discriminate;
   repeat match goal with H : used _ ?c -> _, U : used _ ?c |- _ => specialize (H U); clear U end;
   try match goal with H : Some _ = Some _ |- _ => apply Some_inj in H; try subst end;
   repeat match goal with H : _ \/ _ |- _ => destruct H end; try (left; lia); try (right; assumption); try (right; auto; fail)].

Section X.
Variables (W : Z) (glo : list gbnd).
Definition gext (x : Z) : Prop := exists f t, look_fun f glo = Some (x, t).

Lemma doublings_nolab n : forall r w, nolab (doublings n r w).
Proof. induction n as [|n IH]; intros r w; cbn [doublings]; [constructor|]. destruct (1 <? w); [|constructor]. constructor; [reflexivity|apply IH]. Qed.
Lemma mulp_nolab r w : nolab (mul_for_pointer_arith r w).
Proof. unfold mul_for_pointer_arith. destruct (w =? 1); [constructor|]. destruct (is_power_of_2 w); [apply doublings_nolab|]. repeat constructor. Qed.
Lemma divp_nolab r w : nolab (div_for_pointer_arith r w).
Proof. unfold div_for_pointer_arith. destruct (w =? 1); [constructor|]. destruct (is_power_of_2 w), (r =? reg_X); repeat constructor. Qed.
Lemma mulp_LD ext r t s u c s' : mulp W r t s = Some (u, c, s') -> LD ext (snd s) c (snd s').
Proof. destruct s, s'. unfold mulp. intros H. mi. cbn [snd app]. apply nolab_LD, mulp_nolab. Qed.
Lemma binop_LD ext o t1 t2 s u c s' : codegen_binop W o t1 t2 s = Some (u, c, s') -> LD ext (snd s) c (snd s').
Proof.
  destruct s, s'. unfold codegen_binop. intros H. mi. repeat match goal with X : unit |- _ => clear X end.
  destruct o; cbn [is_cmp] in *; unfold both_num in *; mi;
    repeat match goal with X : (if ?b then _ else _) _ = Some _ |- _ => destruct b; mi end; try discriminate;
    repeat match goal with X : mulp _ _ _ _ = Some _ |- _ => apply (mulp_LD ext) in X end;
    try (cbn [fst snd] in *; try destruct (is_sgn t1 && is_sgn t2); apply nolab_LD; repeat apply nolab_app; try apply divp_nolab; repeat constructor; fail); try (ldgo; fail).
Qed.
Lemma lbinop_LD ext o t1 t2 s u c s' : lbinop W o t1 t2 s = Some (u, c, s') -> LD ext (snd s) c (snd s').
Proof. destruct s, s'. unfold lbinop. intros H. mi. cbn [app]. match goal with X : codegen_binop _ _ _ _ _ = _ |- _ => exact (binop_LD ext _ _ _ _ _ _ _ X) end. Qed.
Lemma load_LD ext d b o w sg s u c s' : load_mem_location W d b o w sg s = Some (u, c, s') -> LD ext (snd s) c (snd s').
Proof. intros H. apply load_inv in H as (-> & _ & ->). apply nolab_LD. repeat constructor. Qed.
Lemma index_LD ext t1 t2 s u c s' : codegen_index W t1 t2 s = Some (u, c, s') -> LD ext (snd s) c (snd s').
Proof.
  destruct s, s'. unfold codegen_index. intros H. mi. repeat match goal with X : unit |- _ => clear X end.
  repeat match goal with X : (if ?b then _ else _) _ = Some _ |- _ => destruct b; mi end; try discriminate;
    repeat match goal with X : mulp _ _ _ _ = Some _ |- _ => apply (mulp_LD ext) in X end;
    repeat match goal with X : load_mem_location _ _ _ _ _ _ _ = Some _ |- _ => apply (load_LD ext) in X end; ldgo.
Qed.
Lemma member_LD ext t m d s u c s' : codegen_member glo t m d s = Some (u, c, s') -> LD ext (snd s) c (snd s').
Proof.
  unfold codegen_member. destruct s, s'. intros H. destruct t as [| | | |un id sz]; try discriminate. mi. destruct un; mi; apply nolab_LD; repeat constructor.
Qed.
Lemma mval_LD ext t m s u c s' : codegen_mval W glo t m s = Some (u, c, s') -> LD ext (snd s) c (snd s').
Proof.
  unfold codegen_mval. destruct s, s'. intros H. mi. match goal with X : codegen_member _ _ _ _ _ = Some _ |- _ => apply (member_LD ext) in X end.
  match goal with X : (if ?b then _ else _) _ = Some _ |- _ => destruct b; mj end; repeat match goal with X : unit |- _ => clear X end; ldgo.
Qed.
Lemma maddr_LD ext t m s u c s' : codegen_maddr W glo t m s = Some (u, c, s') -> LD ext (snd s) c (snd s').
Proof.
  unfold codegen_maddr. destruct s, s'. intros H. mi. match goal with X : codegen_member _ _ _ _ _ = Some _ |- _ => apply (member_LD ext) in X end.
  repeat match goal with X : unit |- _ => clear X end; ldgo.
Qed.
Lemma copy_nolab d s n : nolab (copy_obj W d s n).
Proof.
  unfold copy_obj, copy_words, copy_bytes. apply nolab_app; (induction (seq _ _) as [|i l IH]; cbn [flat_map]; [constructor|apply nolab_app; [repeat constructor|exact IH]]).
Qed.
Section L.
Variable loc : list bnd.
Ltac cv := repeat match goal with
  | X : mulp _ _ _ _ = Some _ |- _ => apply (mulp_LD gext) in X | X : lbinop _ _ _ _ _ = Some _ |- _ => apply (lbinop_LD gext) in X
  | X : codegen_index _ _ _ _ = Some _ |- _ => apply (index_LD gext) in X
  | X : codegen_mval _ _ _ _ _ = Some _ |- _ => apply (mval_LD gext) in X
  | X : codegen_maddr _ _ _ _ _ = Some _ |- _ => apply (maddr_LD gext) in X
  | X : load_mem_location _ _ _ _ _ _ _ = Some _ |- _ => apply (load_LD gext) in X
  | IH : (forall s u c s', ?f s = Some (u, c, s') -> LD _ _ _ _), X : ?f _ = Some _ |- _ => apply IH in X end.
Lemma rv_LD : (forall e, (forall s u c s', codegen_rvalue W glo loc e s = Some (u, c, s') -> LD gext (snd s) c (snd s')) /\
    (forall s u c s', codegen_lvalue W glo loc e s = Some (u, c, s') -> LD gext (snd s) c (snd s'))) /\
  (forall l s u c s', codegen_params W glo loc l s = Some (u, c, s') -> LD gext (snd s) c (snd s')).
Proof.
  apply expr_args_ind; intros; repeat match goal with H : _ /\ _ |- _ => destruct H end;
    try (refine (conj _ _); intros [? ?] ? ? [? ?] HH; [rewrite codegen_rvalue_eq in HH|rewrite codegen_lvalue_eq in HH]); try (destruct s, s'; match goal with X : codegen_params _ _ _ _ _ = Some _ |- _ => rename X into HH end; rewrite codegen_params_eq in HH);
    unfold codegen_rvalue_body, codegen_lvalue_body, codegen_params_body in HH; cbv beta iota in HH; mj;
    repeat match goal with X : (if ?b then _ else _) _ = Some _ |- _ => destruct b; mj | X : match ?b with _ => _ end _ = Some _ |- _ => let E := fresh in destruct b eqn:E; mj end;
    try discriminate; repeat match goal with X : unit |- _ => clear X end; cv; try (ldgo; fail).
  - unfold codegen_comma in *. mj. ldgo.
  - match goal with |- context [copy_obj W ?d ?s ?n] => pose proof (nolab_LD gext (snd (0, z0)) _ (copy_nolab d s n)) end. ldgo.
  - match goal with X : look_fun _ _ = Some (?z, _) |- _ => assert (GX : gext z) by (eexists; eexists; exact X) end. ldgo.
Qed.
End L.
(** Labels a statement may jump to: those of the enclosing loops and switches. *)
Fixpoint inl (x : Z) (loc : list bnd) : Prop :=
  match loc with
  | [] => False
  | BLoop _ b c :: r => x = b \/ x = c \/ inl x r
  | BSwitch _ b :: r => x = b \/ inl x r
  | _ :: r => inl x r
  end.
Lemma encl_any_in loc fs b : encl_any loc = Some (fs, b) -> inl b loc.
Proof. induction loc as [|[| | |] loc IH]; cbn [encl_any inl]; try discriminate; auto; intros H; apply Some_inj, pair_equal_spec in H as [_ ->]; auto. Qed.
Lemma encl_loop_in loc fs b : encl_loop loc = Some (fs, b) -> inl b loc.
Proof. induction loc as [|[| | |] loc IH]; cbn [encl_loop inl]; try discriminate; auto. intros H; apply Some_inj, pair_equal_spec in H as [_ ->]; auto. Qed.
Definition lext (loc : list bnd) (x : Z) : Prop := gext x \/ inl x loc.
Lemma rvl loc e s u c s' : codegen_rvalue W glo loc e s = Some (u, c, s') -> LD gext (snd s) c (snd s').
Proof. apply rv_LD. Qed.
Lemma write_LD ext b o x w s u c s' : write_mem_location W b o x w s = Some (u, c, s') -> LD ext (snd s) c (snd s').
Proof. intros H. apply write_inv in H as (-> & _ & ->). apply nolab_LD. repeat constructor. Qed.
Definition n1 (x y : Z) : Z := if x =? y then 1 else 0.
(** Labels of a switch: [nxt] is allocated but not defined yet. *)
Definition LDs (ext : Z -> Prop) (l : Z) (c : list hop) (l' : Z) (st st' : Z * option Z) : Prop :=
  l <= l' /\ (forall x, cnt x c + n1 x (fst st') = ind l l' x + n1 x (fst st)) /\ (forall x, used x c -> l <= x < l' \/ ext x) /\
  (fst st' = fst st \/ l <= fst st' < l') /\ (snd st' = snd st \/ exists d, snd st' = Some d /\ l <= d < l').
Lemma label_LD loc lb st s u c s' : codegen_label W glo loc st lb s = Some (u, c, s') -> LDs (lext loc) (snd s) c (snd s') st u.
Proof.
  destruct s, s', st as [nxt dfl]. unfold codegen_label. destruct lb.
  - intros H. mj. repeat match goal with X : unit |- _ => clear X end. match goal with X : codegen_rvalue _ _ _ _ _ = _ |- _ => apply rvl in X end.
    cbn [fst snd] in *. match goal with X : LD _ _ _ _ |- _ => destruct X as (A & B & C) end. refine (conj _ (conj _ (conj _ (conj _ _)))).
    + lia.
    + intros xx. unfold h_jump_cond_reg_reg, n1. repeat (rewrite ?cnt_app; cbn [cnt app]). rewrite B. unfold ind. cbn [fst snd]; bdestr; cbn [andb]; lia.
    + intros xx. specialize (C xx). unfold h_jump_cond_reg_reg. repeat (rewrite ?used_app; cbn [used app hlabel]). intros UU.
      repeat match goal with H : _ \/ _ |- _ => destruct H end; try contradiction; try discriminate; try (match goal with H : Some _ = Some _ |- _ => apply Some_inj in H end; left; lia).
      destruct C; [assumption|left; lia|right; left; assumption].
    + cbn [fst]. right. lia.
    + now left.
  - destruct dfl; [discriminate|]. intros H. mj. cbn [fst snd] in *. refine (conj _ (conj _ (conj _ (conj _ _)))).
    + lia.
    + intros xx. unfold n1. cbn [cnt app fst snd]. unfold ind. bdestr; cbn [andb]; lia.
    + intros xx []; contradiction.
    + now left.
    + right. eexists; split; [reflexivity|lia].
Qed.
Lemma LDs_nil ext l st : LDs ext l [] l st st.
Proof. refine (conj _ (conj _ (conj _ (conj _ _)))); auto; try lia; [intros x; cbn [cnt]; unfold ind; bdestr; cbn [andb]; lia|intros x []]. Qed.
Lemma LDs_app ext l a l1 b l' s0 s1 s2 : LDs ext l a l1 s0 s1 -> LDs ext l1 b l' s1 s2 -> LDs ext l (a ++ b) l' s0 s2.
Proof.
  intros (A1 & A2 & A3 & A4 & A5) (B1 & B2 & B3 & B4 & B5). refine (conj _ (conj _ (conj _ (conj _ _)))).
  - lia.
  - intros x. specialize (A2 x). specialize (B2 x). rewrite cnt_app. unfold ind in *. bdestr; cbn [andb] in *; lia.
  - intros x. rewrite used_app. intros [U|U]; [destruct (A3 x U)|destruct (B3 x U)]; auto; left; lia.
  - destruct A4 as [A4|A4], B4 as [B4|B4]; [left; congruence|right; lia|right; rewrite B4; lia|right; lia].
  - destruct B5 as [B5|(d & B5 & B6)]; [|right; exists d; split; [exact B5|lia]]. rewrite B5. destruct A5 as [A5|(d & A5 & A6)]; [now left|]. right. exists d. split; [exact A5|lia].
Qed.
Lemma LDs_LD ext l c l' st : LD ext l c l' -> LDs ext l c l' st st.
Proof. intros (A & B & C). refine (conj A (conj _ (conj C (conj _ _)))); auto. intros x. rewrite B. lia. Qed.
Lemma labels_LD loc ls : forall st s u c s', codegen_labels W glo loc st ls s = Some (u, c, s') -> LDs (lext loc) (snd s) c (snd s') st u.
Proof.
  induction ls as [|lb ls IH]; intros st [z z0] u c [z1 z2] H; cbn [codegen_labels] in H; mj; [apply LDs_nil|].
  match goal with X : codegen_label _ _ _ _ _ _ = _ |- _ => apply label_LD in X end. match goal with X : codegen_labels _ _ _ _ _ _ = _ |- _ => apply IH in X end. eapply LDs_app; eassumption.
Qed.
Lemma test_LD (ext : Z -> Prop) loc e cc l s u c s' : test W glo loc e cc l s = Some (u, c, s') -> (forall x, gext x -> ext x) -> ext l -> LD ext (snd s) c (snd s').
Proof.
  destruct s, s'. unfold test. intros H Hx Hl. mj. match goal with X : codegen_rvalue _ _ _ _ _ = _ |- _ => apply rvl in X; apply (LD_weak _ _ _ _ _ Hx) in X end. ldgo.
Qed.
Lemma opt_LD loc e s u c s' : codegen_opt W glo loc e s = Some (u, c, s') -> LD gext (snd s) c (snd s').
Proof. destruct s, s'. unfold codegen_opt. destruct e; intros H; mj; [|apply LD_nil]. match goal with X : codegen_rvalue _ _ _ _ _ = _ |- _ => apply rvl in X end. ldgo. Qed.
Ltac sv lc := repeat match goal with
  | IH : (forall loc s u c s', ?f loc s = Some (u, c, s') -> LD _ _ _ _), X : ?f _ _ = Some _ |- _ => apply IH in X
  | IH : (forall loc s u c s', codegen_statement _ _ loc ?a s = Some (u, c, s') -> LD _ _ _ _), X : codegen_statement _ _ _ ?a _ = Some _ |- _ => apply IH in X
  | IH : (forall loc s u c s', codegen_items _ _ loc ?a s = Some (u, c, s') -> LD _ _ _ _), X : codegen_items _ _ _ ?a _ = Some _ |- _ => apply IH in X
  | IH : (forall loc st s u c s', codegen_swl _ _ loc st ?a s = Some (u, c, s') -> LDs _ _ _ _ _ _), X : codegen_swl _ _ _ _ ?a _ = Some _ |- _ => apply IH in X
  | X : codegen_rvalue _ _ _ _ _ = Some _ |- _ => apply rvl in X
  | X : codegen_opt _ _ _ _ _ = Some _ |- _ => apply opt_LD in X
  | X : write_mem_location _ _ _ _ _ _ = Some _ |- _ => apply (write_LD gext) in X
  | X : test _ _ _ _ _ ?l _ = Some _ |- _ => apply (test_LD (fun x => gext x \/ x = l)) in X; [|intros; left; assumption|right; reflexivity]
  end.
Lemma st_LD : (forall c loc s u code s', codegen_statement W glo loc c s = Some (u, code, s') -> LD (lext loc) (snd s) code (snd s')) /\
  (forall l loc s u code s', codegen_items W glo loc l s = Some (u, code, s') -> LD (lext loc) (snd s) code (snd s')) /\
  (forall l loc st s u code s', codegen_swl W glo loc st l s = Some (u, code, s') -> LDs (lext loc) (snd s) code (snd s') st u).
Proof.
  apply stmt_items_swl_ind; intros; repeat match goal with s : (Z * Z)%type |- _ => destruct s end;
    match goal with X : _ = Some (_, _, _) |- _ => rename X into HH end;
    try rewrite codegen_statement_eq in HH; try rewrite codegen_items_eq in HH; try rewrite codegen_swl_eq in HH;
    unfold codegen_statement_body, codegen_items_body, codegen_swl_body in HH; cbv beta iota zeta in HH; mj;
    repeat match goal with X : match ?b with _ => _ end _ = Some _ |- _ => let E := fresh in destruct b eqn:E; mj | X : (if ?b then _ else _) _ = Some _ |- _ => destruct b; mj end; try discriminate;
    repeat match goal with X : unit |- _ => clear X end; sv loc; unfold lext in *; cbn [inl] in *; try (ldgo; fail).
  1,2: match goal with X : LDs _ _ _ _ _ ?x |- _ => destruct x as [nx df]; destruct X as (A1 & A2 & A3 & A4 & A5) end; cbn [fst snd] in *;
    assert (DD : forall d, df = Some d -> z10 <= d < z16) by (intros d Hd; destruct A5 as [A5|(d' & A5 & A6)]; [congruence|]; assert (d = d') by congruence; lia); clear A5;
    match goal with X : LD _ _ _ _ |- _ => destruct X as (B1 & B2 & B3) end; refine (conj _ (conj _ _));
    [lia
    |intros xx; specialize (A2 xx); specialize (B2 xx); repeat (rewrite ?cnt_app; cbn [cnt app]); unfold ind, n1 in *; bdestr; cbn [andb] in *; lia
    |clear A4; intros xx; specialize (A3 xx); specialize (B3 xx); repeat (rewrite ?used_app; cbn [used app hlabel]); intros UU;
     repeat match goal with H : _ \/ _ |- _ => destruct H as [H|H] end; try contradiction; try discriminate;
     try (apply Some_inj in UU; left; lia); try (destruct (B3 UU); [left; lia|right; left; assumption]); try (destruct (A3 UU) as [|[|[|]]]; [left; lia|right; left; assumption|left; lia|right; right; assumption])].
  - apply Some_inj in UU. specialize (DD z). left. assert (z10 <= z < z16) by auto. lia.
  - match goal with X : encl_any _ = Some _ |- _ => apply encl_any_in in X end. ldgo.
  - match goal with X : encl_loop _ = Some _ |- _ => apply encl_loop_in in X end. ldgo.
  - apply LDs_nil.
  - match goal with X : codegen_labels _ _ _ _ _ _ = _ |- _ => apply labels_LD in X; eapply LDs_app; [exact X|] end. eapply LDs_app; [apply LDs_LD; eassumption|]. eassumption.
Qed.
Lemma params_inl ps : forall fs l l', (forall x, ~ inl x l) -> add_params W ps fs l = Some l' -> forall x, ~ inl x l'.
Proof.
  induction ps as [|[y ty] q IH]; intros o l l' N0 X; cbn [add_params] in X; [apply Some_inj in X; subst; exact N0|].
  destruct (look_loc y l); [discriminate|]. eapply IH; [|exact X]. exact N0.
Qed.
Lemma fun_LD lb ps body s u c s' : codegen_fun W glo lb ps body s = Some (u, c, s') ->
  snd s <= snd s' /\ (forall x, cnt x c = ind (snd s) (snd s') x + n1 x lb) /\ (forall x, used x c -> snd s <= x < snd s' \/ gext x).
Proof.
  destruct s, s'. unfold codegen_fun. intros H. mj. match goal with X : codegen_statement _ _ _ _ _ = _ |- _ => apply st_LD in X; rename X into HH end.
  match goal with X : add_params _ _ _ _ = Some ?l |- _ => assert (NL : forall x, ~ inl x l) by (eapply params_inl; [|exact X]; intros ? []) end.
  cbn [fst snd] in *. destruct HH as (B1 & B2 & B3). refine (conj B1 (conj _ _)).
  - intros xx. repeat (rewrite ?cnt_app; cbn [cnt app]). rewrite B2. unfold n1. lia.
  - intros xx. repeat (rewrite ?used_app; cbn [used app hlabel]). intros UU. repeat match goal with H : _ \/ _ |- _ => destruct H as [H|H] end; try contradiction; try discriminate.
    destruct (B3 xx UU) as [|[|X]]; auto. destruct (NL xx X).
Qed.
End X.

(** * C26: names do not clash *)
From Coq Require Import ZArith List Lia Bool String.
From Verif Require Import Base Numerals Output Ast Parse ShArith ShExpr ShCSem ShEqs ShFacts ShFacts2 ShSyn ShSem PropShArith ShNames.
Import ListNotations.
Open Scope Z_scope.
Local Notation length := List.length.

(** ** The claim *)
(* member names that clash with another object *)
Definition reserved (x : name) : Prop :=
  (exists n, 1 <= n /\ x = zs "t" ++ decimal n) \/ (exists n, 0 <= n /\ x = zs "str_" ++ decimal n) \/
  (exists y, is_ident y /\ x = zs "sizeof__" ++ y) \/
  (exists c, named c = true /\ zs "__" ++ x = character_ident c) \/
  In (zs "__" ++ x) runtime_vars \/ (exists p n, In p fd_prefixes /\ 0 <= n /\ zs "__" ++ x = p ++ decimal n).
(* the objects of a program; the conditions that the compiler does not check are: an enumeration constant
   does not start with an underscore, a local is not a POSIX variable, a member name is not reserved *)
Definition fine (o : obj) : Prop :=
  match o with
  | OGlobal x => is_ident x /\ hd 0 x <> 95
  | OLocal x => is_ident x /\ decl_is_safe x true = true /\ ~ In x shell_vars
  | OMember _ x => is_ident x /\ ~ reserved x
  | OSizeof x => is_ident x
  | OTemp n => 1 <= n
  | OString n => 0 <= n
  | OChar c => named c = true
  | OEmpty => True
  | OCell a => 0 <= a
  | OSlot n => 0 <= n
  | ORuntime x => In x runtime_vars
  | OFd p n => In p fd_prefixes /\ 0 <= n
  | OShell x => In x shell_vars
  end.

(** ** Names of the form prefix + number *)
Definition nums (n : name) : bool :=   (* has the form of a cell, slot, temporary, string or fd variable *)
  existsb (fun p => match num_after p n with Some _ => true | None => false end)
    ([zs "_"; zs "__"; zs "__t"; zs "__str_"] ++ fd_prefixes).
Lemma nums_in p v : In p ([zs "_"; zs "__"; zs "__t"; zs "__str_"] ++ fd_prefixes) -> 0 <= v -> nums (p ++ decimal v) = true.
Proof. intros I H. unfold nums. apply existsb_exists. exists p. split; [exact I|]. rewrite num_after_dec by exact H. reflexivity. Qed.
Definition chr_codes : list Z := filter named (map Z.of_nat (seq 0 128)).
Definition chr_names : list name := map character_ident chr_codes.
Definition finite_names : list name := empty_var :: (chr_names ++ runtime_vars).
Lemma finite_not_nums : forallb (fun n => negb (nums n)) finite_names = true.
Proof. vm_compute. reflexivity. Qed.
Lemma finite_not_sizeof : forallb (fun n => match after (zs "__sizeof__") n with Some _ => false | None => true end) finite_names = true.
Proof. vm_compute. reflexivity. Qed.
Lemma finite_under : forallb (fun n => match n with 95 :: 95 :: _ => true | _ => false end) finite_names = true.
Proof. vm_compute. reflexivity. Qed.
Fixpoint nodupb (l : list name) : bool := match l with [] => true | a :: l => negb (existsb (eqn a) l) && nodupb l end.
Lemma nodupb_ok l : nodupb l = true -> NoDup l.
Proof.
  induction l as [|a l IH]; cbn [nodupb]; intros H; constructor; apply andb_prop in H; destruct H as [H1 H2]; [|auto].
  intros I. apply negb_true_iff in H1. assert (existsb (eqn a) l = true); [|congruence].
  apply existsb_exists. exists a. split; [exact I|]. unfold eqn. destruct (list_eq_dec Z.eq_dec a a); congruence.
Qed.
Lemma finite_nodup : NoDup finite_names.
Proof. apply nodupb_ok. vm_compute. reflexivity. Qed.
Lemma chr_in c : named c = true -> In c chr_codes.
Proof. intros H. unfold chr_codes. apply filter_In. split; [apply named_range; exact H|exact H]. Qed.
Lemma chr_name c : named c = true -> In (character_ident c) chr_names.
Proof. intros H. unfold chr_names. apply in_map. apply chr_in. exact H. Qed.
Global Opaque chr_names chr_codes runtime_vars empty_var.
Lemma chr_finite c : named c = true -> In (character_ident c) finite_names.
Proof. intros H. unfold finite_names. apply in_cons. apply in_or_app. left. apply chr_name. exact H. Qed.
Lemma run_finite x : In x runtime_vars -> In x finite_names.
Proof. intros H. unfold finite_names. apply in_cons. apply in_or_app. right. exact H. Qed.
Lemma chr_inj c d : named c = true -> named d = true -> character_ident c = character_ident d -> c = d.
Proof.
  intros Hc Hd E. pose proof (proj1 (chr_state (fun _ => 0) c Hc)) as A. pose proof (proj1 (chr_state (fun _ => 0) d Hd)) as B.
  rewrite E in A. congruence.
Qed.
Lemma nodup_app_disj {A} (l m : list A) x : NoDup (l ++ m) -> In x l -> In x m -> False.
Proof.
  induction l as [|a l IH]; cbn [app]; intros N H1 H2; [destruct H1|]. inversion N; subst. destruct H1 as [->|H1]; [|auto].
  apply H3. apply in_or_app. right. exact H2.
Qed.
Lemma finite_parts : ~ In empty_var (chr_names ++ runtime_vars) /\ NoDup (chr_names ++ runtime_vars).
Proof. apply NoDup_cons_iff. exact finite_nodup. Qed.
Lemma chr_run c : named c = true -> In (character_ident c) runtime_vars -> False.
Proof. intros H I. exact (nodup_app_disj _ _ (character_ident c) (proj2 finite_parts) (chr_name c H) I). Qed.
Lemma empty_chr c : named c = true -> empty_var <> character_ident c.
Proof. intros H E. apply (proj1 finite_parts). rewrite E. apply in_or_app. left. apply chr_name. exact H. Qed.
Lemma empty_run : ~ In empty_var runtime_vars.
Proof. intros H. apply (proj1 finite_parts). apply in_or_app. right. exact H. Qed.
Lemma fin_nums n p v : In n finite_names -> In p ([zs "_"; zs "__"; zs "__t"; zs "__str_"] ++ fd_prefixes) -> 0 <= v -> n <> p ++ decimal v.
Proof.
  intros I P V E. pose proof (proj1 (forallb_forall _ _) finite_not_nums n I) as F. cbv beta in F.
  rewrite E, nums_in in F by assumption. discriminate.
Qed.
Lemma fin_sizeof n x : In n finite_names -> n <> struct_sizeof_var x.
Proof.
  intros I E. pose proof (proj1 (forallb_forall _ _) finite_not_sizeof n I) as F. cbv beta in F.
  rewrite E in F. unfold struct_sizeof_var in F. rewrite after_app in F. discriminate.
Qed.
Lemma fin_under n : In n finite_names -> exists r, n = 95 :: 95 :: r.
Proof.
  intros I. pose proof (proj1 (forallb_forall _ _) finite_under n I) as F. cbv beta in F.
  destruct n as [|a [|b r]]; try discriminate; try (destruct a as [|p|p]; try discriminate; do 7 (destruct p; try discriminate)).
  exists r. destruct b as [|q|q]; try discriminate; do 7 (destruct q; try discriminate); reflexivity.
Qed.
Lemma dec_dig v : 0 <= v -> exists c r, decimal v = c :: r /\ is_dig c = true.
Proof.
  intros H. destruct (dec_head v H) as [c [r [E I]]]. exists c, r. split; [exact E|]. unfold is_dig. cbn in I. lia.
Qed.
Lemma pre_app (p q a b : name) : p ++ a = q ++ b -> (exists r, p = q ++ r /\ b = r ++ a) \/ (exists r, q = p ++ r /\ a = r ++ b).
Proof.
  revert q. induction p as [|x p IH]; intros q E.
  - right. exists q. split; [reflexivity|exact E].
  - destruct q as [|y q].
    + left. exists (x :: p). split; [reflexivity|]. symmetry. exact E.
    + cbn [app] in E. inversion E as [[E1 E2]]. destruct (IH _ E2) as [[r [A B]]|[r [A B]]]; [left|right]; exists r; subst; auto.
Qed.
Definition pres : list name := [zs "_"; zs "__"; zs "__t"; zs "__str_"] ++ fd_prefixes.
(* the character after a common prefix is never a digit *)
Lemma pres_sep : forallb (fun p => forallb (fun q => match after q p with Some (c :: _) => negb (is_dig c) | _ => true end) pres) pres = true.
Proof. vm_compute. reflexivity. Qed.
Lemma pres_eq p q v w : In p pres -> In q pres -> 0 <= v -> 0 <= w -> p ++ decimal v = q ++ decimal w -> p = q /\ v = w.
Proof.
  assert (H : forall p q v w, In p pres -> In q pres -> 0 <= w -> forall r, p = q ++ r -> decimal w = r ++ decimal v -> r = []).
  { intros p0 q0 v0 w0 Ip Iq Hw r E1 E2. destruct r as [|c r]; [reflexivity|].
    pose proof (proj1 (forallb_forall _ _) pres_sep p0 Ip) as F. cbv beta in F. pose proof (proj1 (forallb_forall _ _) F q0 Iq) as F2. cbv beta in F2.
    rewrite E1, after_app in F2. destruct (dec_dig w0 Hw) as [d [r' [E D]]]. rewrite E in E2. inversion E2; subst.
    rewrite D in F2. discriminate. }
  intros Ip Iq Hv Hw E. destruct (pre_app _ _ _ _ E) as [[r [A B]]|[r [A B]]].
  - assert (r = []) by exact (H p q v w Ip Iq Hw r A B). subst r. rewrite app_nil_r in A. subst p. split; [reflexivity|].
    apply app_inv_head in E. apply decimal_inj; assumption.
  - assert (r = []) by exact (H q p w v Iq Ip Hv r A B). subst r. rewrite app_nil_r in A. subst q. split; [reflexivity|].
    apply app_inv_head in E. apply decimal_inj; assumption.
Qed.
(* a structure size is not of that form *)
Lemma sizeof_pre p v x : In p pres -> 0 <= v -> is_ident x -> struct_sizeof_var x <> p ++ decimal v.
Proof.
  intros I V X E. destruct (dec_dig v V) as [d [r [ED D]]]. rewrite ED in E. unfold struct_sizeof_var in E.
  cbn in I. decompose [or] I; try contradiction; subst p; cbn in E; inversion E; subst; discriminate D.
Qed.

(** ** The theorem *)
Lemma sz_eq x : struct_sizeof_var x = 95 :: 95 :: zs "sizeof__" ++ x.
Proof. reflexivity. Qed.
Lemma mv_eq x : struct_member_var x = 95 :: 95 :: x.
Proof. reflexivity. Qed.
Inductive shape := SFin | SNum (p : name) (v : Z) | SSiz (x : name) | SMem (x : name) | SGlo (x : name) | SLoc.
Lemma ident_head x : is_ident x -> exists c r, x = c :: r /\ is_dig c = false.
Proof. intros [H _]. destruct x as [|c r]; [destruct H|]. eauto. Qed.
Lemma local_head x : fine (OLocal x) -> exists c r, local_var x = c :: r /\ c <> 95.
Proof.
  intros [I [S N]]. unfold local_var. destruct (eqn x (zs "argv")); [exists 97; eexists; split; [reflexivity|lia]|].
  destruct (ident_head x I) as [c [r [-> D]]]. exists c, r. split; [reflexivity|]. intros ->. discriminate S.
Qed.
Lemma shell_head x : In x shell_vars -> exists c r, x = c :: r /\ c <> 95.
Proof. intros H. cbn in H. decompose [or] H; subst; try contradiction; eexists; eexists; (split; [reflexivity|intros C; discriminate C]). Qed.
Lemma local_inj x y : fine (OLocal x) -> fine (OLocal y) -> local_var x = local_var y -> x = y.
Proof.
  intros [_ [S1 _]] [_ [S2 _]]. unfold local_var, eqn.
  destruct (list_eq_dec Z.eq_dec x (zs "argv")) as [->|], (list_eq_dec Z.eq_dec y (zs "argv")) as [->|]; intros E; auto;
    [rewrite <- E in S2; discriminate S2|rewrite E in S1; discriminate S1].
Qed.
Lemma local_shell x y : fine (OLocal x) -> In y shell_vars -> local_var x <> y.
Proof.
  intros [_ [S1 N]] Hy E. unfold local_var, eqn in E. destruct (list_eq_dec Z.eq_dec x (zs "argv")) as [->|]; [|congruence].
  subst y. clear -Hy. cbn in Hy. decompose [or] Hy; try discriminate; contradiction.
Qed.
(* every object whose name starts with two underscores *)
Definition under (o : obj) : option shape :=
  match o with
  | OMember _ x => Some (SMem x)
  | OSizeof x => Some (SSiz x)
  | OTemp n => Some (SNum (zs "__t") n)
  | OString n => Some (SNum (zs "__str_") n)
  | OSlot n => Some (SNum (zs "__") n)
  | OCell n => Some (SNum (zs "_") n)
  | OFd p n => Some (SNum p n)
  | OChar _ | OEmpty | ORuntime _ => Some SFin
  | OGlobal x => Some (SGlo x)
  | OLocal _ | OShell _ => Some SLoc
  end.
Lemma shape_num o p v : fine o -> under o = Some (SNum p v) -> In p pres /\ 0 <= v /\ name_of o = p ++ decimal v.
Proof.
  destruct o; cbn [under fine name_of]; intros F E; inversion E; subst; try (split; [cbn; tauto|split; [lia|reflexivity]]).
Qed.
Lemma shape_fin o : fine o -> under o = Some SFin -> In (name_of o) finite_names.
Proof.
  destruct o; cbn [under fine name_of]; intros F E; inversion E; subst.
  - apply chr_finite. exact F.
  - unfold finite_names. apply in_eq.
  - apply run_finite. exact F.
Qed.
Lemma fin_inj o o' : fine o -> fine o' -> under o = Some SFin -> under o' = Some SFin -> name_of o = name_of o' -> o = o'.
Proof.
  destruct o, o'; cbn [under fine name_of]; intros F F' E E' H; inversion E; inversion E'; subst; auto.
  - f_equal. apply chr_inj; assumption.
  - exfalso. symmetry in H. exact (empty_chr _ F H).
  - exfalso. exact (chr_run _ F F').
  - exfalso. exact (empty_chr _ F' H).
  - exfalso. exact (empty_run F').
  - exfalso. exact (chr_run _ F' F).
  - exfalso. exact (empty_run F).
Qed.
Lemma num_inj o o' : fine o -> fine o' -> forall p v, under o = Some (SNum p v) -> under o' = Some (SNum p v) -> o = o'.
Proof.
  intros F F' p v E E'.
  assert (HP : In (zs "__t") fd_prefixes \/ In (zs "__str_") fd_prefixes \/ In (zs "__") fd_prefixes \/ In (zs "_") fd_prefixes -> False).
  { cbn. intros K. decompose [or] K; first [contradiction|discriminate]. }
  destruct o, o'; cbn [under fine] in *; inversion E; inversion E'; subst; try discriminate; try reflexivity; exfalso; apply HP; tauto.
Qed.
Lemma mem_num x p v : is_ident x -> ~ reserved x -> In p pres -> 0 <= v -> (p = zs "__t" -> 1 <= v) -> struct_member_var x <> p ++ decimal v.
Proof.
  intros I NR P V V1 E. destruct (ident_head x I) as [c [r [-> D]]].
  destruct (in_app_or _ _ _ P) as [Q|Q].
  - cbn in Q. decompose [or] Q; try contradiction; subst p; unfold struct_member_var in E; cbn [zs Z.of_N app] in E; inversion E.
    + destruct (dec_dig v V) as [d [r' [ED DD]]]. rewrite ED in *. inversion E; subst. discriminate DD.
    + destruct (dec_dig v V) as [d [r' [ED DD]]]. rewrite ED in *. inversion E; subst. congruence.
    + apply NR. left. exists v. split; [auto|]. cbn. congruence.
    + apply NR. right. left. exists v. split; [auto|]. cbn. congruence.
  - apply NR. do 5 right. exists p, v. auto.
Qed.
Lemma mem_fin x o : is_ident x -> ~ reserved x -> fine o -> under o = Some SFin -> name_of o <> struct_member_var x.
Proof.
  intros I NR F U E. destruct o; cbn [under fine name_of] in *; inversion U.
  - apply NR. do 3 right. left. exists c. split; [exact F|]. symmetry. exact E.
  - destruct (ident_head x I) as [c [r [-> D]]]. discriminate E.
  - apply NR. do 4 right. left. unfold struct_member_var in E; rewrite <- E. exact F.
Qed.
Theorem c26_distinct : forall o o', fine o -> fine o' ->
  (* no two structures have a member of the same name *)
  (forall s s' x, o = OMember s x -> o' = OMember s' x -> s = s') ->
  name_of o = name_of o' -> o = o'.
Proof.
  assert (K : forall o o', fine o -> fine o' -> (forall s s' x, o = OMember s x -> o' = OMember s' x -> s = s') -> name_of o = name_of o' ->
     (exists k k', under o = Some k /\ under o' = Some k' /\
      match k, k' with SFin, _ | SNum _ _, SNum _ _ | SNum _ _, SSiz _ | SNum _ _, SMem _ | SNum _ _, SGlo _ | SNum _ _, SLoc
        | SSiz _, SSiz _ | SSiz _, SMem _ | SSiz _, SGlo _ | SSiz _, SLoc | SMem _, SMem _ | SMem _, SGlo _ | SMem _, SLoc
        | SGlo _, SGlo _ | SGlo _, SLoc | SLoc, SLoc => True | _, _ => False end) -> o = o').
  { intros o o' F F' HM E [k [k' [U [U' M]]]]. destruct k, k'; try contradiction M.
    - exact (fin_inj o o' F F' U U' E).
    - exfalso. destruct (shape_num _ _ _ F' U') as [P [V N]]. rewrite N in E. exact (fin_nums _ _ _ (shape_fin _ F U) P V E).
    - exfalso. destruct o'; inversion U'; subst. exact (fin_sizeof _ _ (shape_fin _ F U) E).
    - exfalso. destruct o'; inversion U'; subst. cbn [fine] in F'. destruct F'. exact (mem_fin _ _ H H0 F U E).
    - exfalso. destruct o'; inversion U'; subst. cbn [fine] in F'. destruct (fin_under _ (shape_fin _ F U)) as [r R]. rewrite R in E.
      cbn [name_of] in E. unfold global_var in E. inversion E. subst. destruct F' as [_ F']. apply F'. reflexivity.
    - exfalso. destruct (fin_under _ (shape_fin _ F U)) as [r R]. rewrite R in E.
      destruct o'; inversion U'; subst.
      + destruct (local_head _ F') as [c [r' [R' N]]]. cbn [name_of] in E. rewrite R' in E. inversion E. congruence.
      + destruct (shell_head _ F') as [c [r' [R' N]]]. cbn [name_of] in E. rewrite R' in E. inversion E. congruence.
    - destruct (shape_num _ _ _ F U) as [P [V N]]. destruct (shape_num _ _ _ F' U') as [P' [V' N']]. rewrite N, N' in E.
      destruct (pres_eq _ _ _ _ P P' V V' E) as [-> ->]. exact (num_inj o o' F F' _ _ U U').
    - exfalso. destruct (shape_num _ _ _ F U) as [P [V N]]. destruct o'; inversion U'; subst. rewrite N in E. symmetry in E.
      exact (sizeof_pre _ _ _ P V F' E).
    - exfalso. destruct (shape_num _ _ _ F U) as [P [V N]]. destruct o'; inversion U'; subst. rewrite N in E. symmetry in E.
      destruct F' as [A B]. revert E. apply mem_num; auto. intros ->. destruct o; cbn [under fine] in *; inversion U; subst; auto.
      exfalso. cbn in F. decompose [and or] F; try discriminate; contradiction.
    - exfalso. destruct (shape_num _ _ _ F U) as [P [V N]]. destruct o'; inversion U'; subst. rewrite N in E. destruct F' as [A B].
      destruct (ident_head x A) as [c [r [-> D]]]. cbn [name_of] in E. unfold global_var in E. cbn [hd] in B.
      destruct (in_app_or _ _ _ P) as [Q|Q]; cbn in Q; decompose [or] Q; try contradiction; subst p; cbn in E; inversion E; try congruence.
      destruct (dec_dig v V) as [d [r' [ED DD]]]. congruence.
    - exfalso. destruct (shape_num _ _ _ F U) as [P [V N]]. rewrite N in E.
      assert (H : exists r, p ++ decimal v = 95 :: r).
      { destruct (in_app_or _ _ _ P) as [Q|Q]; cbn in Q; decompose [or] Q; try contradiction; subst p; eexists; reflexivity. }
      destruct H as [r H]. rewrite H in E. destruct o'; inversion U'; subst.
      + destruct (local_head _ F') as [c [r' [R' N']]]. cbn [name_of] in E. rewrite R' in E. inversion E. congruence.
      + destruct (shell_head _ F') as [c [r' [R' N']]]. cbn [name_of] in E. rewrite R' in E. inversion E. congruence.
    - destruct o, o'; inversion U; inversion U'; subst. f_equal. cbn [name_of] in E. unfold struct_sizeof_var in E.
      apply app_inv_head in E. exact E.
    - exfalso. destruct o, o'; inversion U; inversion U'; subst. destruct F' as [A B]. apply B. right. right. left. exists x. split; [exact F|].
      cbn [name_of] in E. unfold struct_sizeof_var, struct_member_var in E. cbn in E. inversion E. reflexivity.
    - exfalso. destruct o, o'; inversion U; inversion U'; subst. destruct F' as [A B]. cbn [name_of] in E.
      unfold struct_sizeof_var, global_var in E. cbn in E. inversion E. subst. apply B. reflexivity.
    - exfalso. destruct o; inversion U; subst. destruct o'; inversion U'; subst.
      + destruct (local_head _ F') as [c [r' [R' N']]]. cbn [name_of] in E. rewrite R', sz_eq in E. inversion E. congruence.
      + destruct (shell_head _ F') as [c [r' [R' N']]]. cbn [name_of] in E. rewrite R', sz_eq in E. inversion E. congruence.
    - destruct o, o'; inversion U; inversion U'; subst. cbn [name_of] in E. unfold struct_member_var in E. apply app_inv_head in E. subst.
      f_equal. eapply HM; eauto.
    - exfalso. destruct o, o'; inversion U; inversion U'; subst. destruct F' as [A B]. cbn [name_of] in E.
      unfold struct_member_var, global_var in E. cbn in E. inversion E. subst. apply B. reflexivity.
    - exfalso. destruct o; inversion U; subst. destruct o'; inversion U'; subst.
      + destruct (local_head _ F') as [c [r' [R' N']]]. cbn [name_of] in E. rewrite R', mv_eq in E. inversion E. congruence.
      + destruct (shell_head _ F') as [c [r' [R' N']]]. cbn [name_of] in E. rewrite R', mv_eq in E. inversion E. congruence.
    - destruct o, o'; inversion U; inversion U'; subst. cbn [name_of] in E. unfold global_var in E. congruence.
    - exfalso. destruct o; inversion U; subst. destruct o'; inversion U'; subst.
      + destruct (local_head _ F') as [c [r' [R' N']]]. cbn [name_of] in E. rewrite R' in E. unfold global_var in E. inversion E. congruence.
      + destruct (shell_head _ F') as [c [r' [R' N']]]. cbn [name_of] in E. rewrite R' in E. unfold global_var in E. inversion E. congruence.
    - destruct o, o'; inversion U; inversion U'; subst; cbn [name_of] in E.
      + f_equal. apply local_inj; assumption.
      + exfalso. exact (local_shell _ _ F F' E).
      + exfalso. symmetry in E. exact (local_shell _ _ F' F E).
      + congruence. }
  intros o o' F F' HM E.
  assert (T : forall o, exists k, under o = Some k) by (intros []; eexists; reflexivity).
  destruct (T o) as [k U]. destruct (T o') as [k' U'].
  assert (HM' : forall s s' x, o' = OMember s x -> o = OMember s' x -> s = s') by (intros s s' x A B; symmetry; eapply HM; eauto).
  pose proof (fun W => K o o' F F' HM E W) as K1. pose proof (fun W => eq_sym (K o' o F' F HM' (eq_sym E) W)) as K2. clear K.
  destruct k, k'; first [apply K1; eexists; eexists; (split; [exact U|split; [exact U'|exact I]])
    | apply K2; eexists; eexists; (split; [exact U'|split; [exact U|exact I]])].
Qed.

(* what the compiler accepts as a global variable is fine *)
Theorem c26_globals_checked : forall x, is_ident x -> decl_is_safe x false = true -> fine (OGlobal x).
Proof.
  intros x I S. split; [exact I|]. destruct (ident_head x I) as [c [r [-> D]]]. cbn [hd]. intros ->. discriminate S.
Qed.
(* two different identifiers of a function have different names *)
Theorem c26_identifiers : forall isloc x y,
  (forall z, isloc z = true -> fine (OLocal z)) -> is_ident x -> is_ident y ->
  (isloc x = false -> hd 0 x <> 95) -> (isloc y = false -> hd 0 y <> 95) ->
  env_var isloc x = env_var isloc y -> x = y.
Proof.
  intros isloc x y HL Ix Iy Hx Hy E. unfold env_var in E.
  assert (Q : exists o o', fine o /\ fine o' /\ name_of o = name_of o' /\ o = (if isloc x then OLocal x else OGlobal x) /\ o' = (if isloc y then OLocal y else OGlobal y)).
  { exists (if isloc x then OLocal x else OGlobal x), (if isloc y then OLocal y else OGlobal y).
    destruct (isloc x) eqn:Lx, (isloc y) eqn:Ly; (split; [first [apply HL; assumption|split; auto]|split; [first [apply HL; assumption|split; auto]|split; [exact E|split; reflexivity]]]). }
  destruct Q as [o [o' [F [F' [N [A B]]]]]].
  assert (o = o').
  { apply c26_distinct; auto. intros s s' z E1 E2. rewrite A in E1. destruct (isloc x); discriminate. }
  subst o o'. destruct (isloc x), (isloc y); congruence.
Qed.
(* the names meet the conditions of C19 *)
Theorem c26_names_ok : forall isloc (vx mx zx : nat -> name) moff zsz,
  (forall z, isloc z = true -> fine (OLocal z)) ->
  (forall i, is_ident (vx i) /\ (isloc (vx i) = false -> hd 0 (vx i) <> 95)) -> (forall i j, vx i = vx j -> i = j) ->
  (forall k, is_ident (mx k)) -> (forall k, is_ident (zx k)) ->
  names_ok (fun i => env_var isloc (vx i)) (fun k => struct_member_var (mx k)) (fun k => struct_sizeof_var (zx k)) moff zsz.
Proof.
  intros isloc vx mx zx moff zsz HL HV HI HM HZ.
  assert (C : forall x, isloc x = true -> exists c r, env_var isloc x = c :: r /\ c <> 95).
  { intros x Lx. unfold env_var. rewrite Lx. apply local_head. apply HL. exact Lx. }
  assert (W : forall x, is_ident x -> forallb is_word x = true) by (intros x [_ H]; exact H).
  assert (NC : forall a c r, is_dig c = false -> c <> 45 -> c :: r <> decimal a).
  { intros a c r D M E. destruct (Z.ltb_spec a 0).
    - rewrite decimal_neg in E by lia. inversion E. congruence.
    - destruct (dec_dig a H) as [d [r' [E' D']]]. rewrite E' in E. inversion E. congruence. }
  constructor.
  - intros i. destruct (HV i) as [I H]. destruct (isloc (vx i)) eqn:Lx; unfold env_var; rewrite Lx.
    + unfold local_var. destruct (eqn (vx i) (zs "argv")); [split; reflexivity|exact I].
    + split; [reflexivity|]. cbn [global_var forallb]. rewrite (W _ I). reflexivity.
  - intros k. split; [reflexivity|]. unfold struct_member_var. cbn. exact (W _ (HM k)).
  - intros k. split; [reflexivity|]. unfold struct_sizeof_var. cbn. exact (W _ (HZ k)).
  - intros i j E. apply HI. apply (c26_identifiers isloc); try apply HV; auto.
  - intros i a E. destruct (isloc (vx i)) eqn:Lx.
    + destruct (C _ Lx) as [c [r [E1 N]]]. rewrite E1 in E. inversion E. congruence.
    + unfold env_var in E. rewrite Lx in E. unfold global_var in E. inversion E as [E1]. destruct (HV i) as [I _].
      destruct (ident_head _ I) as [c [r [R D]]]. rewrite R in E1. apply (NC a c r D); [|exact E1]. intros ->. destruct I as [_ I]. rewrite R in I. discriminate.
  - intros k a E. unfold struct_member_var in E. cbn in E. inversion E as [E1]. apply (NC a 95 (mx k)); [reflexivity|lia|exact E1].
  - intros k a E. unfold struct_sizeof_var in E. cbn in E. inversion E as [E1]. eapply (NC a 95); [reflexivity|lia|exact E1].
  - intros i n v H E. assert (U : exists r, n = 95 :: 95 :: r).
    { inversion H; subst; [destruct (chr_state (fun _ => 0) v) as [_ U]; [assumption|exact U]|eexists; reflexivity|eexists; reflexivity]. }
    destruct U as [r U]. rewrite U in E. destruct (isloc (vx i)) eqn:Lx.
    + destruct (C _ Lx) as [c [r' [E1 N]]]. rewrite E1 in E. inversion E. congruence.
    + unfold env_var in E. rewrite Lx in E. unfold global_var in E. inversion E as [E1]. destruct (HV i) as [I N]. specialize (N Lx).
      rewrite E1 in N. apply N. reflexivity.
Qed.

(** ** Functions have a name space of their own *)
Theorem c26_functions : forall f g, is_ident f -> is_ident g ->
  (function_name f = function_name g -> f = g) /\
  (In (function_name f) (runtime_funs ++ runtime_helpers) <->
   In f (map zs ["malloc"; "free"; "exit"; "putchar"; "getchar"; "put_pstr"; "printf"; "open"; "read"; "write"; "close"; "fopen"; "fclose"; "fgetc"]%string)).
Proof.
  intros f g If Ig. split; [unfold function_name; congruence|].
  assert (M : runtime_funs = map (cons 95) (map zs ["malloc"; "free"; "exit"; "putchar"; "getchar"; "put_pstr"; "printf"; "open"; "read"; "write"; "close"; "fopen"; "fclose"; "fgetc"]%string)) by reflexivity.
  assert (P : forallb (fun x => negb (hd 0 x =? 95)) runtime_helpers = true) by reflexivity.
  unfold function_name. split; intros H.
  - apply in_app_or in H. rewrite M in H. destruct H as [H|H].
    + apply in_map_iff in H. destruct H as [z [Ez Iz]]. inversion Ez. subst z. exact Iz.
    + pose proof (proj1 (forallb_forall _ _) P _ H) as Q. discriminate Q.
  - apply in_or_app. left. rewrite M. apply in_map_iff. exists f. auto.
Qed.

(** ** String constants: different strings never share a number.  A string whose text is also the name of a macro or a type
    starts with the heap address of its definition as tag; addresses are different from each other and
    above the number of strings *)
Theorem c26_strings : forall l st limit, counter st = 0 ->
  (forall s, tag st s = 0 \/ limit <= tag st s) -> (forall s s', tag st s <> 0 -> tag st s = tag st s' -> s = s') ->
  Z.of_nat (length l) <= limit ->
  forall s s' n, In (s, n) (numbers l st) -> In (s', n) (numbers l st) -> s = s'.
Proof.
  intros l st limit H0 HT HI HL.
  assert (G : forall l st (hist : nat -> Z -> Prop), 0 <= counter st -> counter st + Z.of_nat (length l) <= limit ->
    (forall s n, hist s n -> n < counter st \/ limit <= n) ->
    (forall s s' n, hist s n -> hist s' n -> s = s') ->
    (forall s, tag st s <> 0 -> hist s (tag st s)) ->
    forall s s' n, hist s n \/ In (s, n) (numbers l st) -> hist s' n \/ In (s', n) (numbers l st) -> s = s').
  { clear. induction l as [|a l IH]; intros st hist C0 C1 B D T s s' n; cbn [numbers]; [intros [I1|[]] [I2|[]]; eapply D; eauto|].
    unfold fresh_string_ident. destruct (Z.eqb_spec (tag st a) 0) as [E|E]; cbv beta iota.
    - intros I1 I2. cbn [length] in C1.
      specialize (IH {| counter := counter st + 1; tag := fun x => if Nat.eqb x a then counter st else tag st x |} (fun s n => hist s n \/ s = a /\ n = counter st)).
      cbn [counter tag] in IH. apply (IH) with (n := n); clear IH; try lia.
      + intros s0 n0 [H|[_ H]]; [destruct (B _ _ H)|]; lia.
      + intros s0 s1 n0 [H1|[H1 E1]] [H2|[H2 E2]]; [eapply D; eauto| | |congruence].
        * destruct (B _ _ H1); lia.
        * destruct (B _ _ H2); lia.
      + intros s0 H. revert H. destruct (Nat.eqb_spec s0 a) as [Q|Q]; intros H; [right; auto|left; apply T; exact H].
      + cbn [In] in I1. destruct I1 as [I1|[I1|I1]]; [left; left; exact I1|left; right; inversion I1; auto|right; exact I1].
      + cbn [In] in I2. destruct I2 as [I2|[I2|I2]]; [left; left; exact I2|left; right; inversion I2; auto|right; exact I2].
    - intros I1 I2. cbn [length] in C1. apply (IH st hist) with (n := n); auto; [lia| |].
      + cbn [In] in I1. destruct I1 as [I1|[I1|I1]]; [left; exact I1|left; inversion I1; subst; apply T; exact E|right; exact I1].
      + cbn [In] in I2. destruct I2 as [I2|[I2|I2]]; [left; exact I2|left; inversion I2; subst; apply T; exact E|right; exact I2]. }
  intros s s' n I1 I2. apply (G l st (fun s n => n <> 0 /\ tag st s = n)) with (n := n); auto; try lia.
  - intros s0 n0 [A B]. destruct (HT s0); lia.
  - intros s0 s1 n0 [A B] [A' B']. apply HI; congruence.
Qed.
Example c26_strings_instance : numbers [5%nat; 7%nat; 5%nat; 5%nat; 9%nat; 7%nat] {| counter := 0; tag := fun s => if Nat.eqb s 9 then 5000 else 0 |} =
  [(5%nat, 0); (7%nat, 1); (5%nat, 2); (5%nat, 2); (9%nat, 5000); (7%nat, 1)].
Proof. reflexivity. Qed.

(** ** The unchecked conditions are needed *)
Transparent runtime_vars.
(* every reserved member name clashes, so the list is exact *)
Theorem c26_reserved_exact : forall s x, is_ident x -> reserved x -> exists o, fine o /\ o <> OMember s x /\ name_of o = name_of (OMember s x).
Proof.
  intros s x I R. destruct R as [[n [N E]]|[[n [N E]]|[[y [N E]]|[[c [N E]]|[N|[p [n [P [N E]]]]]]]]].
  - exists (OTemp n). split; [exact N|]. split; [discriminate|]. cbn [name_of]. subst x. reflexivity.
  - exists (OString n). split; [exact N|]. split; [discriminate|]. cbn [name_of]. subst x. reflexivity.
  - exists (OSizeof y). split; [exact N|]. split; [discriminate|]. cbn [name_of]. subst x. reflexivity.
  - exists (OChar c). split; [exact N|]. split; [discriminate|]. cbn [name_of]. symmetry. exact E.
  - exists (ORuntime (zs "__" ++ x)). split; [exact N|]. split; [discriminate|]. reflexivity.
  - exists (OFd p n). split; [split; assumption|]. split; [discriminate|]. cbn [name_of]. symmetry. exact E.
Qed.
Lemma ident_b x : (match x with c :: _ => negb (is_dig c) | [] => false end && forallb is_word x)%bool = true -> is_ident x.
Proof. intros H. apply andb_prop in H. destruct H as [A B]. split; [|exact B]. destruct x; [discriminate|]. apply negb_true_iff. exact A. Qed.
(* struct S { int t1; }: the offset of t1 is kept in the first temporary *)
Theorem c26_member_temp_refuted : is_ident (zs "t1") /\ name_of (OMember 0 (zs "t1")) = name_of (OTemp 1).
Proof. split; [apply ident_b; reflexivity|reflexivity]. Qed.
(* struct S { int SP; }: the offset of SP is kept in the stack pointer of the runtime *)
Theorem c26_member_runtime_refuted : is_ident (zs "SP") /\ name_of (OMember 0 (zs "SP")) = name_of (ORuntime (zs "__SP")) /\ fine (ORuntime (zs "__SP")).
Proof. split; [apply ident_b; reflexivity|]. split; [reflexivity|]. right. left. reflexivity. Qed.
(* struct S { int a__; } and 'a' *)
Theorem c26_member_char_refuted : is_ident (zs "a__") /\ name_of (OMember 0 (zs "a__")) = name_of (OChar 97).
Proof. split; [apply ident_b; reflexivity|reflexivity]. Qed.
(* enum { _t1 }: enumeration constants are not checked *)
Theorem c26_enum_refuted : is_ident (zs "_t1") /\ name_of (OGlobal (zs "_t1")) = name_of (OTemp 1).
Proof. split; [apply ident_b; reflexivity|reflexivity]. Qed.
(* two structures with a member of the same name *)
Theorem c26_same_member_refuted : exists o o', fine o /\ fine o' /\ o <> o' /\ name_of o = name_of o'.
Proof.
  assert (F : forall s, fine (OMember s (zs "next"))).
  { intros s. split; [apply ident_b; reflexivity|]. intros R.
    destruct R as [[n [N E]]|[[n [N E]]|[[y [N E]]|[[c [N E]]|[N|[p [n [P [N E]]]]]]]]]; try discriminate E.
    - assert (Q : forallb (fun c => negb (eqn (zs "__next") (character_ident c))) (map Z.of_nat (seq 0 128)) = true) by (vm_compute; reflexivity).
      pose proof (proj1 (forallb_forall _ _) Q c (named_range c N)) as Q2. cbv beta in Q2. rewrite <- E in Q2. discriminate Q2.
    - assert (Q : existsb (eqn (zs "__next")) runtime_vars = false) by (vm_compute; reflexivity).
      assert (existsb (eqn (zs "__next")) runtime_vars = true); [|congruence]. apply existsb_exists. exists (zs "__next"). split; [exact N|reflexivity].
    - cbn in P. decompose [or] P; try contradiction; subst p; discriminate E. }
  exists (OMember 0 (zs "next")), (OMember 1 (zs "next")). split; [apply F|]. split; [apply F|]. split; [discriminate|reflexivity].
Qed.
(* int PPID; as a local variable is accepted *)
Theorem c26_shell_var_refuted : is_ident (zs "PPID") /\ decl_is_safe (zs "PPID") true = true /\
  name_of (OLocal (zs "PPID")) = name_of (OShell (zs "PPID")).
Proof. split; [apply ident_b; reflexivity|]. split; reflexivity. Qed.
Theorem c26_instance : fine (OGlobal (zs "argv")) /\ fine (OLocal (zs "argv")) /\ fine (OLocal (zs "t1")) /\ fine (OTemp 1) /\
  fine (OChar 97) /\ fine (OSizeof (zs "t1")) /\ name_of (OLocal (zs "argv")) = zs "argv_".
Proof.
  assert (NS : forall x, existsb (eqn x) shell_vars = false -> ~ In x shell_vars).
  { intros x E I. assert (existsb (eqn x) shell_vars = true); [|congruence]. apply existsb_exists. exists x. split; [exact I|].
    unfold eqn. destruct (list_eq_dec Z.eq_dec x x); congruence. }
  split; [split; [apply ident_b; reflexivity|intros C; discriminate C]|].
  split; [split; [apply ident_b; reflexivity|split; [reflexivity|apply NS; reflexivity]]|].
  split; [split; [apply ident_b; reflexivity|split; [reflexivity|apply NS; reflexivity]]|].
  split; [cbn; lia|]. split; [reflexivity|]. split; [apply ident_b; reflexivity|reflexivity].
Qed.

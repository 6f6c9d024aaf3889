(** * C36: name lookup finds the innermost visible binding *)
From Coq Require Import ZArith List Lia Bool.
From Verif Require Import Base Env.
Import ListNotations.
Open Scope Z_scope.

(** Allocated objects, newest first, contiguous below [top]. *)
Fixpoint cells_at (h : Z -> Z) (a : Z) (l : list Z) : Prop := match l with [] => True | v :: r => h a = v /\ cells_at h (a + 1) r end.
Inductive layout (h : Z -> Z) : Z -> list (Z * list Z) -> Prop :=
| lay_nil top : 0 < top -> layout h top []
| lay_cons a cells L : layout h a L -> cells_at h a cells -> layout h (a + Z.of_nat (length cells)) ((a, cells) :: L).
Lemma cells_at_ext h h' a l : (forall x, a <= x < a + Z.of_nat (length l) -> h' x = h x) -> cells_at h a l -> cells_at h' a l.
Proof.
  revert a. induction l as [|v r IH]; intros a H; cbn [cells_at]; [auto|]. cbn [length] in H. intros [H1 H2].
  split; [rewrite H; [exact H1|lia]|]. apply IH; [|exact H2]. intros. apply H. lia.
Qed.
Lemma cells_at_nth h l : forall a, cells_at h a l -> forall i, (i < length l)%nat -> h (a + Z.of_nat i) = nth i l 0.
Proof.
  induction l as [|v r IH]; intros a H i Hi; cbn [length] in Hi; [lia|]. destruct H as [H1 H2]. destruct i as [|i].
  - rewrite Z.add_0_r. exact H1.
  - cbn [nth]. rewrite <- (IH (a + 1) H2 i) by lia. f_equal. lia.
Qed.
Lemma store_out l : forall h a x, x < a \/ a + Z.of_nat (length l) <= x -> store h a l x = h x.
Proof.
  induction l as [|v r IH]; intros h a x H; cbn [store]; [reflexivity|]. cbn [length] in H. rewrite IH by lia. apply upd_other. lia.
Qed.
Lemma store_at l : forall h a, cells_at (store h a l) a l.
Proof.
  induction l as [|v r IH]; intros h a; cbn [store cells_at]; [exact I|]. split; [|apply IH].
  rewrite store_out by lia. apply upd_same.
Qed.
Lemma layout_pos h top L : layout h top L -> 0 < top.
Proof. induction 1; lia. Qed.
Lemma layout_in h top L a c : layout h top L -> In (a, c) L -> 0 < a /\ a + Z.of_nat (length c) <= top /\ cells_at h a c.
Proof.
  induction 1 as [top H|b cells L H IH Hc]; [contradiction|]. pose proof (layout_pos _ _ _ H). intros [E|Hin].
  - injection E as <- <-. repeat split; auto; lia.
  - destruct (IH Hin) as (? & ? & ?). repeat split; auto; lia.
Qed.
Lemma layout_fun h top L a c c' : layout h top L -> In (a, c) L -> In (a, c') L -> c <> [] -> c' <> [] -> c = c'.
Proof.
  induction 1 as [top H|b cells L H IH Hc]; [contradiction|]. intros [E|Hin] [E'|Hin'] N N'.
  - congruence.
  - injection E as <- <-. destruct (layout_in _ _ _ _ _ H Hin') as (_ & ? & _). destruct c'; [congruence|]. cbn [length] in *. lia.
  - injection E' as <- <-. destruct (layout_in _ _ _ _ _ H Hin) as (_ & ? & _). destruct c; [congruence|]. cbn [length] in *. lia.
  - auto.
Qed.
Lemma layout_ext h h' top L : (forall x, x < top -> h' x = h x) -> layout h top L -> layout h' top L.
Proof.
  intros E H. revert E. induction H as [top H|b cells L H IH Hc]; intros E; [now constructor|].
  constructor; [apply IH; intros; apply E; lia|]. eapply cells_at_ext; [|exact Hc]. intros. apply E. lia.
Qed.

(** A path from binding [p] to binding [q] through declarations. *)
Definition dok (d : decl) : Prop := match d with DType k _ _ => k = K_STRUCT \/ k = K_UNION \/ k = K_ENUM | _ => True end.
Inductive seg (L : list (Z * list Z)) : Z -> Z -> list decl -> Prop :=
| seg_nil p : 0 <= p -> seg L p p []
| seg_cons p nx q d l : In (p, nx :: cells_of d) L -> nx < p -> dok d -> seg L nx q l -> seg L p q (d :: l).
Lemma seg_le L p q l : seg L p q l -> 0 <= q <= p.
Proof. induction 1; lia. Qed.
Lemma seg_app L p q r l1 l2 : seg L p q l1 -> seg L q r l2 -> seg L p r (l1 ++ l2).
Proof. induction 1; intros; [assumption|]. cbn. econstructor; eauto. Qed.
Lemma seg_more L p q l x : seg L p q l -> seg (x :: L) p q l.
Proof. induction 1; [now constructor|]. econstructor; eauto. now right. Qed.

(** Lookups follow the path. *)
Section Lookup.
Variables (h : Z -> Z) (top : Z) (L : list (Z * list Z)) (test : Z -> bool) (pd : decl -> bool).
Hypothesis HL : layout h top L.
Hypothesis Htest : forall b d, dok d -> cells_at h (b + 1) (cells_of d) -> test b = pd d.
Lemma in_test p nx d : In (p, nx :: cells_of d) L -> dok d -> 0 < p /\ test p = pd d /\ h p = nx.
Proof.
  intros Hin Hd. destruct (layout_in _ _ _ _ _ HL Hin) as (H1 & _ & H2). destruct H2 as [H2 H3]. auto.
Qed.
Lemma lookup_skip p q l : seg L p q l -> Forall (fun d => pd d = false) l -> forall n, (Z.to_nat p < n)%nat ->
  exists n', (Z.to_nat q < n')%nat /\ lookup_go test h n p = lookup_go test h n' q.
Proof.
  induction 1 as [p Hp|p nx q d l Hin Hlt Hd H IH]; intros HF n Hn; [eauto|].
  inversion HF as [|? ? F1 F2]; subst. destruct (in_test _ _ _ Hin Hd) as (Hp & Ht & Hh).
  destruct n as [|n]; [lia|]. pose proof (seg_le _ _ _ _ H).
  destruct (IH F2 n) as (n' & H1 & H2); [lia|]. exists n'. split; [exact H1|]. rewrite <- H2.
  cbn [lookup_go]. destruct (Z.eqb_spec p 0); [lia|]. rewrite Ht, F1, Hh. reflexivity.
Qed.
Lemma lookup_finds p l : seg L p 0 l -> finds h (lookup_loop test h p) pd l.
Proof.
  unfold lookup_loop. generalize (Nat.lt_succ_diag_r (Z.to_nat p)). generalize (S (Z.to_nat p)) as n.
  enough (G : forall q, seg L p q l -> q = 0 -> forall n, (Z.to_nat p < n)%nat -> finds h (lookup_go test h n p) pd l).
  { intros n Hn H. eapply G; eauto. }
  induction 1 as [p0 Hp|p0 nx q d l Hin Hlt Hd H IH]; intros Eq n Hn; unfold finds in *; cbn [find].
  - subst. destruct n; reflexivity.
  - destruct (in_test _ _ _ Hin Hd) as (Hp & Ht & Hh). destruct n as [|n]; [lia|]. cbn [lookup_go].
    destruct (Z.eqb_spec p0 0); [lia|]. rewrite Ht. destruct (pd d).
    + split; [lia|]. intros i Hi. destruct (layout_in _ _ _ _ _ HL Hin) as (_ & _ & [_ Hc]). apply (cells_at_nth _ _ _ Hc i Hi).
    + rewrite Hh. apply (IH Eq). pose proof (seg_le _ _ _ _ H). lia.
Qed.
End Lookup.

Lemma test_var h x b d : dok d -> cells_at h (b + 1) (cells_of d) -> (h (b + 1) <=? K_GLOBAL) && (h (b + 2) =? x) = is_var x d.
Proof.
  intros Hd Hc. destruct d; cbn [cells_of cells_at] in Hc; destruct Hc as (E1 & E2 & _); replace (b + 1 + 1) with (b + 2) in E2 by lia;
    rewrite ?E1, ?E2; try reflexivity. cbn [dok] in Hd. destruct Hd as [-> | [-> | ->]]; reflexivity.
Qed.
Lemma test_fun h x b d : dok d -> cells_at h (b + 1) (cells_of d) -> (h (b + 1) =? K_FUN) && (h (b + 2) =? x) = is_fun x d.
Proof.
  intros Hd Hc. destruct d; cbn [cells_of cells_at] in Hc; destruct Hc as (E1 & E2 & _); replace (b + 1 + 1) with (b + 2) in E2 by lia;
    rewrite ?E1, ?E2; try reflexivity. cbn [dok] in Hd. destruct Hd as [-> | [-> | ->]]; reflexivity.
Qed.
Lemma test_enum h x b d : dok d -> cells_at h (b + 1) (cells_of d) -> (h (b + 1) =? K_ENUM_CST) && (h (b + 2) =? x) = is_enum_cst x d.
Proof.
  intros Hd Hc. destruct d; cbn [cells_of cells_at] in Hc; destruct Hc as (E1 & E2 & _); replace (b + 1 + 1) with (b + 2) in E2 by lia;
    rewrite ?E1, ?E2; try reflexivity. cbn [dok] in Hd. destruct Hd as [-> | [-> | ->]]; reflexivity.
Qed.
Lemma test_label h x b d : dok d -> cells_at h (b + 1) (cells_of d) -> (h (b + 1) =? K_GOTO) && (h (b + 2) =? x) = is_label x d.
Proof.
  intros Hd Hc. destruct d; cbn [cells_of cells_at] in Hc; destruct Hc as (E1 & E2 & _); replace (b + 1 + 1) with (b + 2) in E2 by lia;
    rewrite ?E1, ?E2; try reflexivity. cbn [dok] in Hd. destruct Hd as [-> | [-> | ->]]; reflexivity.
Qed.
Lemma test_type h k x b d : (k = K_STRUCT \/ k = K_UNION \/ k = K_ENUM) -> dok d -> cells_at h (b + 1) (cells_of d) ->
  (h (b + 1) =? k) && (h (b + 2) =? x) = is_type k x d.
Proof.
  intros Hk Hd Hc. destruct d; cbn [cells_of cells_at] in Hc; destruct Hc as (E1 & E2 & _); replace (b + 1 + 1) with (b + 2) in E2 by lia;
    rewrite ?E1, ?E2; try reflexivity; destruct Hk as [-> | [-> | ->]]; reflexivity.
Qed.
Lemma test_loop h b d : dok d -> cells_at h (b + 1) (cells_of d) -> (h (b + 1) =? K_LOOP) = is_loop d.
Proof.
  intros Hd Hc. destruct d; cbn [cells_of cells_at] in Hc; destruct Hc as (E1 & _); rewrite ?E1; try reflexivity.
  cbn [dok] in Hd. destruct Hd as [-> | [-> | ->]]; reflexivity.
Qed.
Lemma test_switch h b d : dok d -> cells_at h (b + 1) (cells_of d) -> (h (b + 1) =? K_SWITCH) = is_switch d.
Proof.
  intros Hd Hc. destruct d; cbn [cells_of cells_at] in Hc; destruct Hc as (E1 & _); rewrite ?E1; try reflexivity.
  cbn [dok] in Hd. destruct Hd as [-> | [-> | ->]]; reflexivity.
Qed.
Lemma test_ls h b d : dok d -> cells_at h (b + 1) (cells_of d) -> (h (b + 1) =? K_LOOP) || (h (b + 1) =? K_SWITCH) = is_loop d || is_switch d.
Proof. intros Hd Hc. now rewrite (test_loop h b d Hd Hc), (test_switch h b d Hd Hc). Qed.

(** ** Updating the cells of a switch binding *)
Definition repl (b : Z) (c : list Z) (L : list (Z * list Z)) : list (Z * list Z) :=
  map (fun o => if fst o =? b then (match snd o with [] => o | _ => (b, c) end) else o) L.
Lemma in_repl b c L p c' : In (p, c') L -> p <> b -> In (p, c') (repl b c L).
Proof. intros H N. unfold repl. apply in_map_iff. exists (p, c'). cbn [fst]. destruct (Z.eqb_spec p b); [congruence|auto]. Qed.
Lemma in_repl_b b c L c' : In (b, c') L -> c' <> [] -> In (b, c) (repl b c L).
Proof. intros H N. unfold repl. apply in_map_iff. exists (b, c'). cbn [fst snd]. rewrite Z.eqb_refl. destruct c'; [congruence|auto]. Qed.
Lemma cells_upd h a l i v : cells_at h a l -> (i < length l)%nat ->
  cells_at (upd h (a + Z.of_nat i) v) a (firstn i l ++ v :: skipn (S i) l).
Proof.
  revert a i. induction l as [|w r IH]; intros a i H Hi; cbn [length] in Hi; [lia|]. destruct H as [H1 H2]. destruct i as [|i].
  - cbn [firstn skipn app cells_at]. rewrite Z.add_0_r, upd_same. split; [reflexivity|].
    eapply cells_at_ext; [|exact H2]. intros. apply upd_other. lia.
  - cbn [firstn app cells_at]. rewrite upd_other by lia. split; [exact H1|].
    replace (a + Z.of_nat (S i)) with (a + 1 + Z.of_nat i) by lia. apply IH; [exact H2|lia].
Qed.
Lemma layout_upd h top L b c i v : layout h top L -> In (b, c) L -> (i < length c)%nat ->
  layout (upd h (b + Z.of_nat i) v) top (repl b (firstn i c ++ v :: skipn (S i) c) L).
Proof.
  intros H. induction H as [top H|a cells L H IH Hc]; [contradiction|]. intros Hin Hi.
  assert (Hlen : length (firstn i c ++ v :: skipn (S i) c) = length c).
  { rewrite app_length, firstn_length. cbn [length]. rewrite skipn_length. lia. }
  destruct Hin as [E|Hin].
  - injection E as -> ->. unfold repl. cbn [map fst snd]. rewrite Z.eqb_refl. destruct c as [|c0 cr] eqn:Ec; [cbn in Hi; lia|]. rewrite <- Ec in *.
    replace (b + Z.of_nat (length c)) with (b + Z.of_nat (length (firstn i c ++ v :: skipn (S i) c))) by now rewrite Hlen.
    constructor; [|apply cells_upd; assumption].
    assert (ER : map (fun o => if fst o =? b then match snd o with [] => o | _ :: _ => (b, firstn i c ++ v :: skipn (S i) c) end else o) L = L).
    { rewrite <- (map_id L) at 2. apply map_ext_in. intros [p q] Hp. cbn [fst snd]. destruct (Z.eqb_spec p b); [|reflexivity]. subst p.
      destruct q as [|q0 qr]; [reflexivity|]. destruct (layout_in _ _ _ _ _ H Hp) as (_ & Hx & _). cbn [length] in Hx. lia. }
    rewrite ER. eapply layout_ext; [|exact H]. intros. apply upd_other. lia.
  - destruct (layout_in _ _ _ _ _ H Hin) as (_ & Hx & _). unfold repl. cbn [map fst snd]. fold (repl b (firstn i c ++ v :: skipn (S i) c) L).
    assert (Hab : a <> b) by lia. destruct (Z.eqb_spec a b); [lia|]. constructor; [apply IH; assumption|].
    eapply cells_at_ext; [|exact Hc]. intros. apply upd_other. lia.
Qed.
Section Upd.
Variables (h : Z -> Z) (top : Z) (L : list (Z * list Z)) (b bn : Z) (d0 : decl) (c : list Z).
Hypothesis HL : layout h top L.
Hypothesis Hb : In (b, bn :: cells_of d0) L.
Hypothesis Hs : is_switch d0 = true.
Lemma keep1 p q l : seg L p q l -> Forall (fun d => is_switch d = false) l -> seg (repl b c L) p q l.
Proof.
  induction 1 as [p Hp|p nx q d l Hin Hlt Hd H IH]; intros HF; [now constructor|]. inversion HF as [|? ? F1 F2]; subst.
  econstructor; eauto. apply in_repl; [exact Hin|]. intros ->.
  assert (E : nx :: cells_of d = bn :: cells_of d0) by (apply (layout_fun _ _ _ _ _ _ HL Hin Hb); discriminate).
  injection E as _ E. destruct d0; try discriminate Hs. destruct d; try discriminate. 
Qed.
Lemma keep2 p q l : seg L p q l -> p < b -> seg (repl b c L) p q l.
Proof.
  induction 1 as [p Hp|p nx q d l Hin Hlt Hd H IH]; intros HF; [now constructor|]. econstructor; eauto; [|apply IH; lia].
  apply in_repl; [exact Hin|lia].
Qed.
End Upd.

(** ** The invariant *)
Fixpoint segs (L : list (Z * list Z)) (p : Z) (sv : list (Z * Z)) (inn : list decl) (out : list (Z * list decl)) : Prop :=
  match sv, out with
  | [], [] => seg L p 0 inn
  | (f, q) :: sv', (n, l) :: out' => seg L p q inn /\ f = n /\ segs L q sv' l out'
  | _, _ => False
  end.
Definition nosw (l : list decl) : Prop := Forall (fun d => is_switch d = false) l.
Record inv (s : env) (sp : scopes) (L : list (Z * list Z)) : Prop := Inv {
  i_lay : layout (heap s) (halloc s) L;
  i_fs : fs s = depth sp;
  i_ga : galloc s = next_addr sp;
  i_loc : segs L (locals s) (saved s) (inner sp) (outer sp);
  i_gl : seg L (globals s) 0 (gl sp); i_gls : nosw (gl sp);
  i_lf : seg L (locals_fun s) 0 (lf sp); i_lfs : nosw (lf sp);
  i_sf : seg L (saved_fun s) 0 (lf_saved sp); i_sfs : nosw (lf_saved sp) }.
Lemma segs_more L x : forall sv p inn out, segs L p sv inn out -> segs (x :: L) p sv inn out.
Proof.
  induction sv as [|[f q] sv IH]; intros p inn [|[n l] out]; cbn [segs]; try tauto; [apply seg_more|].
  intros (H1 & H2 & H3). split; [now apply seg_more|]. auto.
Qed.
Lemma segs_vis L : forall sv p inn out, segs L p sv inn out -> seg L p 0 (inn ++ concat (map snd out)).
Proof.
  induction sv as [|[f q] sv IH]; intros p inn [|[n l] out]; cbn [segs]; try contradiction.
  - intros H. cbn. now rewrite app_nil_r.
  - intros (H1 & _ & H3). cbn [map snd concat]. eapply seg_app; [exact H1|]. apply IH, H3.
Qed.
Lemma segs_cons L p sv d inn out b : In (b, p :: cells_of d) L -> p < b -> dok d -> segs L p sv inn out -> segs L b sv (d :: inn) out.
Proof. destruct sv as [|[f q] sv], out as [|[n l] out]; cbn [segs]; try tauto; intros; [econstructor; eauto|]. destruct H2. split; [econstructor; eauto|auto]. Qed.

Lemma segs_pos L : forall sv p inn out, segs L p sv inn out -> 0 <= p.
Proof. intros. apply segs_vis, seg_le in H. lia. Qed.
Lemma segs_keep2 L b c : forall sv p inn out, segs L p sv inn out -> p < b -> segs (repl b c L) p sv inn out.
Proof.
  induction sv as [|[f q] sv IH]; intros p inn [|[n l] out]; cbn [segs]; try contradiction; intros H Hp.
  - now apply keep2.
  - destruct H as (H1 & H2 & H3). split; [now apply keep2|]. split; [exact H2|]. apply IH; [exact H3|]. apply seg_le in H1. lia.
Qed.
Lemma set1_none f l : set1 f l = None <-> nosw l.
Proof.
  induction l as [|d r IH]; cbn [set1]; [split; [constructor|reflexivity]|]. destruct (is_switch d) eqn:E.
  - split; [discriminate|]. intros H. inversion H. congruence.
  - split; intros H.
    + constructor; [exact E|]. apply IH. destruct (set1 f r); [discriminate|reflexivity].
    + inversion H as [|? ? H1 H2]. apply IH in H2. now rewrite H2.
Qed.
Lemma set1_some f l l' : set1 f l = Some l' -> exists a d b, l = a ++ d :: b /\ nosw a /\ is_switch d = true /\ l' = a ++ f d :: b.
Proof.
  revert l'. induction l as [|d r IH]; intros l'; cbn [set1]; [discriminate|]. destruct (is_switch d) eqn:E.
  - intros [= <-]. exists [], d, r. repeat split; auto. constructor.
  - destruct (set1 f r) as [r'|] eqn:Er; [|discriminate]. cbn. intros [= <-]. destruct (IH r' eq_refl) as (a & d' & b & -> & H1 & H2 & ->).
    exists (d :: a), d', b. repeat split; auto. now constructor.
Qed.
Lemma seg_split L p q a d b : seg L p q (a ++ d :: b) -> exists m nx, seg L p m a /\ In (m, nx :: cells_of d) L /\ nx < m /\ dok d /\ seg L nx q b.
Proof.
  revert p. induction a as [|d' a IH]; intros p H; cbn [app] in H; inversion H as [|? nx ? ? ? Hin Hlt Hd Hr]; subst.
  - exists p, nx. repeat split; auto. constructor. apply seg_le in Hr. lia.
  - destruct (IH _ Hr) as (m & n2 & H1 & H2). exists m, n2. split; [econstructor; eauto|exact H2].
Qed.

(** What the lookup of the enclosing switch followed by a store into its binding does. *)
Definition setdecl (i : Z) (v : Z) (d : decl) : decl :=
  match d with DSwitch n b x e => if i =? 4 then DSwitch n b v e else DSwitch n b x v | _ => d end.
Lemma setdecl_cells i v d bn : is_switch d = true -> i = 4 \/ i = 5 ->
  firstn (Z.to_nat i) (bn :: cells_of d) ++ v :: skipn (S (Z.to_nat i)) (bn :: cells_of d) = bn :: cells_of (setdecl i v d) /\
  (Z.to_nat i < length (bn :: cells_of d))%nat /\ dok (setdecl i v d).
Proof. intros Hs Hi. destruct d; try discriminate. destruct Hi as [-> | ->]; (split; [reflexivity|]; split; [cbn; lia|exact I]). Qed.

Lemma find_switch (h : Z -> Z) top L i v : layout h top L -> i = 4 \/ i = 5 -> forall sv p inn out,
  segs L p sv inn out ->
  match set1 (setdecl i v) inn, set_out (setdecl i v) out with
  | None, None => nosw (inn ++ concat (map snd out))
  | r1, r2 =>
      exists a b bn d, seg L p b a /\ nosw a /\ In (b, bn :: cells_of d) L /\ is_switch d = true /\
        match r1, r2 with
        | Some inn', _ => segs (repl b (bn :: cells_of (setdecl i v d)) L) p sv inn' out
        | None, Some out' => segs (repl b (bn :: cells_of (setdecl i v d)) L) p sv inn out'
        | None, None => True
        end
  end.
Proof.
  intros HL Hi.
  assert (Hhere : forall p q a d b, seg L p q (a ++ d :: b) -> nosw a -> is_switch d = true ->
    exists m bn, seg L p m a /\ In (m, bn :: cells_of d) L /\ q < m /\ seg (repl m (bn :: cells_of (setdecl i v d)) L) p q (a ++ setdecl i v d :: b)).
  { intros p q a d b H Ha Hs. destruct (seg_split _ _ _ _ _ _ H) as (m & bn & H1 & H2 & H3 & H4 & H5).
    exists m, bn. split; [exact H1|]. split; [exact H2|]. split; [apply seg_le in H5; lia|].
    eapply seg_app; [eapply keep1; eauto|]. apply seg_cons with (nx := bn); [eapply in_repl_b; [exact H2|discriminate]|exact H3| |eapply keep2; eauto].
    apply (setdecl_cells i v d bn Hs Hi). }
  induction sv as [|[f q] sv IH]; intros p inn [|[n l] out] H; cbn [segs] in H; try contradiction.
  - destruct (set1 (setdecl i v) inn) as [inn'|] eqn:E1; cbn [set_out].
    + destruct (set1_some _ _ _ E1) as (a & d & b & -> & Ha & Hs & ->). destruct (Hhere _ _ _ _ _ H Ha Hs) as (m & bn & H1 & H2 & _ & H3).
      exists a, m, bn, d. repeat (split; [assumption|]). exact H3.
    + apply set1_none in E1. cbn. now rewrite app_nil_r.
  - destruct H as (H1 & H2 & H3). specialize (IH _ _ _ H3). destruct (set1 (setdecl i v) inn) as [inn'|] eqn:E1.
    + destruct (set1_some _ _ _ E1) as (a & d & b & -> & Ha & Hs & ->). destruct (Hhere _ _ _ _ _ H1 Ha Hs) as (m & bn & G1 & G2 & G3 & G4).
      assert (exists a0 bb bn d0, seg L p bb a0 /\ nosw a0 /\ In (bb, bn :: cells_of d0) L /\ is_switch d0 = true /\
         segs (repl bb (bn :: cells_of (setdecl i v d0)) L) p ((f, q) :: sv) (a ++ setdecl i v d :: b) ((n, l) :: out)) as HH.
      { exists a, m, bn, d. do 4 (split; [assumption|]). cbn [segs]. split; [exact G4|]. split; [exact H2|]. apply segs_keep2; assumption. }
      destruct (set_out (setdecl i v) ((n, l) :: out)); exact HH.
    + apply set1_none in E1. cbn [set_out map snd concat]. destruct (set1 (setdecl i v) l) as [l'|] eqn:E2.
      * assert (exists a b bn d, seg L q b a /\ nosw a /\ In (b, bn :: cells_of d) L /\ is_switch d = true /\
            segs (repl b (bn :: cells_of (setdecl i v d)) L) q sv l' out) as (a & b & bn & d & G1 & G2 & G3 & G4 & G5)
          by (destruct (set_out (setdecl i v) out); exact IH).
        exists (inn ++ a), b, bn, d. split; [eapply seg_app; eauto|]. split; [apply Forall_app; auto|]. do 2 (split; [assumption|]).
        cbn [segs]. split; [eapply keep1; eauto|auto].
      * destruct (set_out (setdecl i v) out) as [out'|] eqn:E3; cbn [option_map].
        -- destruct IH as (a & b & bn & d & G1 & G2 & G3 & G4 & G5).
           exists (inn ++ a), b, bn, d. split; [eapply seg_app; eauto|]. split; [apply Forall_app; auto|]. do 2 (split; [assumption|]).
           cbn [segs]. split; [eapply keep1; eauto|auto].
        -- apply Forall_app; auto.
Qed.
Lemma lookup_at h top L p a b bn d : layout h top L -> seg L p b a -> nosw a -> In (b, bn :: cells_of d) L -> is_switch d = true ->
  lookup_last_binding h K_SWITCH p = b.
Proof.
  intros HL H Ha Hb Hs. unfold lookup_last_binding, lookup_loop.
  destruct (lookup_skip h top L _ is_switch HL (fun b d Hd Hc => test_switch h b d Hd Hc) p b a H Ha (S (Z.to_nat p)) ltac:(lia)) as (n' & H1 & ->).
  destruct n' as [|n']; [lia|]. cbn [lookup_go]. destruct (layout_in _ _ _ _ _ HL Hb) as (Hp & _ & [_ Hc]).
  destruct (Z.eqb_spec b 0); [lia|]. destruct d; try discriminate. destruct Hc as [-> _]. reflexivity.
Qed.
Lemma lookup_none h top L p l : layout h top L -> seg L p 0 l -> nosw l -> lookup_last_binding h K_SWITCH p = 0.
Proof.
  intros HL H Ha. unfold lookup_last_binding, lookup_loop.
  destruct (lookup_skip h top L _ is_switch HL (fun b d Hd Hc => test_switch h b d Hd Hc) p 0 l H Ha (S (Z.to_nat p)) ltac:(lia)) as (n' & H1 & ->).
  destruct n' as [|n']; [lia|]. reflexivity.
Qed.
Lemma setdecl4 v : (fun d => match d with DSwitch a b _ e => DSwitch a b v e | _ => d end) = setdecl 4 v.
Proof. reflexivity. Qed.
Lemma setdecl5 v : (fun d => match d with DSwitch a b n _ => DSwitch a b n v | _ => d end) = setdecl 5 v.
Proof. reflexivity. Qed.

Lemma set_field_sim s sp L i v s' : inv s sp L -> i = 4 \/ i = 5 -> set_field s i v = Some s' ->
  exists sp' L', set_sw (setdecl i v) sp = Some sp' /\ inv s' sp' L'.
Proof.
  intros [J1 J2 J3 J4 J5 J6 J7 J8 J9 J10] Hi H. unfold set_field in H.
  pose proof (find_switch _ _ L i v J1 Hi _ _ _ _ J4) as HF. unfold set_sw.
  destruct (set1 (setdecl i v) (inner sp)) as [inn'|] eqn:E1.
  - assert (exists a b bn d, seg L (locals s) b a /\ nosw a /\ In (b, bn :: cells_of d) L /\ is_switch d = true /\
       segs (repl b (bn :: cells_of (setdecl i v d)) L) (locals s) (saved s) inn' (outer sp)) as (a & b & bn & d & G1 & G2 & G3 & G4 & G5)
     by exact HF.
    rewrite (lookup_at _ _ _ _ _ _ _ _ J1 G1 G2 G3 G4) in H. destruct (b =? 0); [discriminate|]. injection H as <-.
    destruct (setdecl_cells i v d bn G4 Hi) as (C1 & C2 & C3).
    eexists _, (repl b (bn :: cells_of (setdecl i v d)) L). split; [reflexivity|].
    pose proof (layout_upd _ _ _ _ _ (Z.to_nat i) v J1 G3 C2) as HU. rewrite C1, Z2Nat.id in HU by lia. constructor; cbn; auto.
    all: eapply keep1; eauto.
  - destruct (set_out (setdecl i v) (outer sp)) as [out'|] eqn:E2.
    + destruct HF as (a & b & bn & d & G1 & G2 & G3 & G4 & G5).
      rewrite (lookup_at _ _ _ _ _ _ _ _ J1 G1 G2 G3 G4) in H. destruct (b =? 0); [discriminate|]. injection H as <-.
      destruct (setdecl_cells i v d bn G4 Hi) as (C1 & C2 & C3).
      eexists _, (repl b (bn :: cells_of (setdecl i v d)) L). split; [reflexivity|].
    pose proof (layout_upd _ _ _ _ _ (Z.to_nat i) v J1 G3 C2) as HU. rewrite C1, Z2Nat.id in HU by lia. constructor; cbn; auto.
      all: eapply keep1; eauto.
    + rewrite (lookup_none _ _ _ _ _ J1 (segs_vis _ _ _ _ _ J4) HF) in H. discriminate.
Qed.

Lemma alloc_sim s sp L cells b s' : inv s sp L -> alloc s cells = Some (b, s') ->
  b = halloc s /\ inv s' sp ((b, cells) :: L) /\ fs s' = fs s /\ galloc s' = galloc s /\ locals s' = locals s /\ globals s' = globals s /\
  locals_fun s' = locals_fun s /\ saved s' = saved s /\ saved_fun s' = saved_fun s.
Proof.
  intros [J1 J2 J3 J4 J5 J6 J7 J8 J9 J10] H. unfold alloc in H. destruct (HEAP_SIZE <? _); [discriminate|]. injection H as <- <-.
  split; [reflexivity|]. split; [|repeat split]. constructor; cbn; auto using seg_more, segs_more.
  constructor; [|apply store_at]. eapply layout_ext; [|exact J1]. intros. apply store_out. lia.
Qed.
(** Every pointer held is below the allocation pointer. *)
Lemma seg_top s sp L p l : inv s sp L -> seg L p 0 l -> p < halloc s.
Proof.
  intros J H. inversion H as [? Hp|? nx ? d ? Hin Hlt Hd Hr]; subst; [apply (layout_pos _ _ _ (i_lay _ _ _ J))|].
  destruct (layout_in _ _ _ _ _ (i_lay _ _ _ J) Hin) as (_ & Hx & _). cbn [length] in Hx. lia.
Qed.

Lemma sim s sp L e s' : ev_ok e -> inv s sp L -> estep s e = Some s' -> exists sp' L', sstep sp e = Some sp' /\ inv s' sp' L'.
Proof.
  intros Hok J H. pose proof J as [J1 J2 J3 J4 J5 J6 J7 J8 J9 J10].
  pose proof (seg_top _ _ _ _ _ J (segs_vis _ _ _ _ _ J4)) as T1. pose proof (seg_top _ _ _ _ _ J J5) as T2. pose proof (seg_top _ _ _ _ _ J J7) as T3.
  destruct e; cbn [estep sstep] in H |- *; unfold add_local in H; cbn [with_fs fs locals heap] in H.
  - (* param *) destruct (alloc s _) as [[b s1]|] eqn:EA; [|discriminate]. injection H as <-.
    destruct (alloc_sim _ _ _ _ _ _ J EA) as (-> & [K1 K2 K3 K4 K5 K6 K7 K8 K9 K10] & F1 & F2 & F3 & F4 & F5 & F6 & F7).
    do 2 eexists. split; [reflexivity|]. constructor; cbn; [exact K1|..]; auto; [lia|]. rewrite F3 in K4.
    eapply segs_cons; [left; cbn; rewrite J2; reflexivity|lia|exact I|exact K4].
  - (* var *) destruct (alloc _ _) as [[b s1]|] eqn:EA; [|discriminate]. injection H as <-.
    assert (Jw : inv (with_fs s (fs s + width)) (Sc (inner sp) (outer sp) (gl sp) (lf sp) (lf_saved sp) (depth sp + width) (next_addr sp)) L)
      by (constructor; cbn; auto; lia).
    destruct (alloc_sim _ _ _ _ _ _ Jw EA) as (-> & [K1 K2 K3 K4 K5 K6 K7 K8 K9 K10] & F1 & F2 & F3 & F4 & F5 & F6 & F7). cbn in *.
    do 2 eexists. split; [reflexivity|]. constructor; cbn; [exact K1|..]; auto. rewrite F3 in K4.
    eapply segs_cons; [left; cbn; rewrite J2; reflexivity|lia|exact I|exact K4].
  - destruct (alloc s _) as [[b s1]|] eqn:EA; [|discriminate]. injection H as <-.
    destruct (alloc_sim _ _ _ _ _ _ J EA) as (-> & [K1 K2 K3 K4 K5 K6 K7 K8 K9 K10] & F1 & F2 & F3 & F4 & F5 & F6 & F7).
    do 2 eexists. split; [reflexivity|]. constructor; cbn; [exact K1|..]; auto. rewrite F3 in K4.
    eapply segs_cons; [left; cbn; rewrite J2; reflexivity|lia|exact I|exact K4].
  - destruct (alloc s _) as [[b s1]|] eqn:EA; [|discriminate]. injection H as <-.
    destruct (alloc_sim _ _ _ _ _ _ J EA) as (-> & [K1 K2 K3 K4 K5 K6 K7 K8 K9 K10] & F1 & F2 & F3 & F4 & F5 & F6 & F7).
    do 2 eexists. split; [reflexivity|]. constructor; cbn; [exact K1|..]; auto. rewrite F3 in K4.
    eapply segs_cons; [left; cbn; rewrite J2; reflexivity|lia|exact I|exact K4].
  - (* global *) destruct (alloc s _) as [[b s1]|] eqn:EA; [|discriminate]. injection H as <-.
    destruct (alloc_sim _ _ _ _ _ _ J EA) as (-> & [K1 K2 K3 K4 K5 K6 K7 K8 K9 K10] & F1 & F2 & F3 & F4 & F5 & F6 & F7).
    do 2 eexists. split; [reflexivity|]. constructor; cbn; [exact K1|..]; auto; [lia| |constructor; auto]. rewrite F4 in K5.
    apply seg_cons with (nx := globals s); [left; cbn; rewrite J3; reflexivity|lia|exact I|exact K5].
  - (* static *) destruct (alloc s _) as [[b s1]|] eqn:EA; [|discriminate]. injection H as <-.
    destruct (alloc_sim _ _ _ _ _ _ J EA) as (-> & [K1 K2 K3 K4 K5 K6 K7 K8 K9 K10] & F1 & F2 & F3 & F4 & F5 & F6 & F7).
    do 2 eexists. split; [reflexivity|]. constructor; cbn; [exact K1|..]; auto; [lia|]. rewrite F3 in K4.
    eapply segs_cons; [left; cbn; rewrite J3; reflexivity|lia|exact I|exact K4].
  - destruct (alloc s _) as [[b s1]|] eqn:EA; [|discriminate]. injection H as <-.
    destruct (alloc_sim _ _ _ _ _ _ J EA) as (-> & [K1 K2 K3 K4 K5 K6 K7 K8 K9 K10] & F1 & F2 & F3 & F4 & F5 & F6 & F7).
    do 2 eexists. split; [reflexivity|]. constructor; cbn; [exact K1|..]; auto; [|constructor; auto]. rewrite F4 in K5.
    apply seg_cons with (nx := globals s); [left; reflexivity|lia|exact I|exact K5].
  - destruct (alloc s _) as [[b s1]|] eqn:EA; [|discriminate]. injection H as <-.
    destruct (alloc_sim _ _ _ _ _ _ J EA) as (-> & [K1 K2 K3 K4 K5 K6 K7 K8 K9 K10] & F1 & F2 & F3 & F4 & F5 & F6 & F7).
    do 2 eexists. split; [reflexivity|]. constructor; cbn; [exact K1|..]; auto; [|constructor; auto]. rewrite F4 in K5.
    apply seg_cons with (nx := globals s); [left; reflexivity|lia|exact I|exact K5].
  - destruct (alloc s _) as [[b s1]|] eqn:EA; [|discriminate]. injection H as <-.
    destruct (alloc_sim _ _ _ _ _ _ J EA) as (-> & [K1 K2 K3 K4 K5 K6 K7 K8 K9 K10] & F1 & F2 & F3 & F4 & F5 & F6 & F7).
    do 2 eexists. split; [reflexivity|]. constructor; cbn; [exact K1|..]; auto; [|constructor; auto]. rewrite F5 in K7.
    apply seg_cons with (nx := locals_fun s); [left; reflexivity|lia|exact I|exact K7].
  - destruct (alloc s _) as [[b s1]|] eqn:EA; [|discriminate]. injection H as <-.
    destruct (alloc_sim _ _ _ _ _ _ J EA) as (-> & [K1 K2 K3 K4 K5 K6 K7 K8 K9 K10] & F1 & F2 & F3 & F4 & F5 & F6 & F7).
    do 2 eexists. split; [reflexivity|]. constructor; cbn; [exact K1|..]; auto; [|constructor; auto]. rewrite F4 in K5.
    apply seg_cons with (nx := globals s); [left; reflexivity|lia|exact Hok|exact K5].
  - rewrite setdecl4. eapply set_field_sim; eauto.
  - rewrite setdecl5. eapply set_field_sim; eauto.
  - injection H as <-. exists (Sc (inner sp) (outer sp) (gl sp) (lf sp) (lf_saved sp) (depth sp + n) (next_addr sp)), L. split; [reflexivity|]. constructor; cbn; auto. lia.
  - destruct (alloc s cells) as [[b s1]|] eqn:EA; [|discriminate]. injection H as <-. cbn [snd].
    destruct (alloc_sim _ _ _ _ _ _ J EA) as (-> & K & _). do 2 eexists. split; [reflexivity|exact K].
  - injection H as <-. do 2 eexists. split; [reflexivity|]. constructor; cbn; [exact J1|..]; auto. repeat split; auto. constructor.
    apply segs_pos in J4. exact J4.
  - destruct (saved s) as [|[f l] r] eqn:ES; [discriminate|]. injection H as <-. cbn [segs] in J4. destruct (outer sp) as [|[n o] ro]; [contradiction|].
    destruct J4 as (G1 & G2 & G3). do 2 eexists. split; [reflexivity|]. constructor; cbn; [exact J1|..]; auto.
  - destruct (saved s) as [|] eqn:ES; [|discriminate]. injection H as <-. cbn [segs] in J4. destruct (outer sp); [|contradiction].
    do 2 eexists. split; [reflexivity|]. constructor; cbn; [exact J1|..]; auto. rewrite ES. constructor. lia.
  - injection H as <-. exists (Sc (inner sp) (outer sp) (gl sp) (lf sp) (lf_saved sp) 0 (next_addr sp)), L. split; [reflexivity|]. constructor; cbn; auto.
  - destruct (saved s) as [|] eqn:ES; [|discriminate]. injection H as <-. cbn [segs] in J4. destruct (outer sp); [|contradiction].
    do 2 eexists. split; [reflexivity|]. constructor; cbn; [exact J1|..]; auto. rewrite ES. exact J4.
Qed.
Lemma sim_run l : forall s sp L s', Forall ev_ok l -> inv s sp L -> erun s l = Some s' -> exists sp' L', srun sp l = Some sp' /\ inv s' sp' L'.
Proof.
  induction l as [|e r IH]; intros s sp L s' HF J H; cbn [erun srun] in *; [injection H as <-; eauto|].
  inversion HF as [|? ? H1 H2]; subst. destruct (estep s e) as [s1|] eqn:E; [|discriminate].
  destruct (sim _ _ _ _ _ H1 J E) as (sp1 & L1 & -> & J1). eapply IH; eauto.
Qed.
Lemma inv0 h a : 0 < a -> inv (env0 h a) scopes0 [].
Proof. intros Ha. constructor; cbn; auto; try (constructor; lia); constructor. Qed.

(** ** Theorems *)
(** After any history of declarations, scope openings and closings (and unrelated allocations) that does not
    exhaust the heap, every lookup yields the innermost, most recent visible declaration as C scoping prescribes,
    with the attributes it was given; 0 exactly when there is none. *)
Theorem c36_lookup (h : Z -> Z) (a : Z) (l : list ev) (s : env) : 0 < a -> Forall ev_ok l -> erun (env0 h a) l = Some s ->
  exists sp, srun scopes0 l = Some sp /\ fs s = depth sp /\
    (forall x, finds (heap s) (lookup_var (heap s) x (locals s)) (is_var x) (visible sp)) /\
    finds (heap s) (lookup_last_binding (heap s) K_LOOP (locals s)) is_loop (visible sp) /\
    finds (heap s) (lookup_last_binding (heap s) K_SWITCH (locals s)) is_switch (visible sp) /\
    finds (heap s) (lookup_enclosing_loop_or_switch (heap s) (locals s)) (fun d => is_loop d || is_switch d) (visible sp) /\
    (forall x, finds (heap s) (lookup_var (heap s) x (globals s)) (is_var x) (gl sp)) /\
    (forall x, finds (heap s) (lookup_binding_ident (heap s) K_FUN x (globals s)) (is_fun x) (gl sp)) /\
    (forall x, finds (heap s) (lookup_binding_ident (heap s) K_ENUM_CST x (globals s)) (is_enum_cst x) (gl sp)) /\
    (forall k x, k = K_STRUCT \/ k = K_UNION \/ k = K_ENUM ->
       finds (heap s) (lookup_binding_ident (heap s) k x (globals s)) (is_type k x) (gl sp)) /\
    (forall x, finds (heap s) (lookup_binding_ident (heap s) K_GOTO x (locals_fun s)) (is_label x) (lf sp)).
Proof.
  intros Ha HF H. destruct (sim_run l _ _ _ _ HF (inv0 h a Ha) H) as (sp & L & Hs & [J1 J2 J3 J4 J5 J6 J7 J8 J9 J10]).
  exists sp. split; [exact Hs|]. split; [exact J2|]. apply segs_vis in J4. fold (visible sp) in J4.
  repeat split; intros; eapply lookup_finds; eauto; intros.
  - now apply test_var. - now apply test_loop. - now apply test_switch. - now apply test_ls. - now apply test_var.
  - now apply test_fun. - now apply test_enum. - now apply test_type. - now apply test_label.
Qed.
(** The events of a block: any declarations and statements, inner blocks opened and closed. *)
Definition plain (e : ev) : Prop := match e with EOpen | EClose | EFunBegin | EFunEnd => False | _ => True end.
Inductive block : list ev -> Prop :=
| blk_nil : block []
| blk_plain e r : plain e -> block r -> block (e :: r)
| blk_block b r : block b -> block r -> block (EOpen :: b ++ EClose :: r).
(** The same declaration, up to the labels that a switch's own cases fill in. *)
Definition same (d d' : decl) : Prop := d = d' \/ exists n b x e x' e', d = DSwitch n b x e /\ d' = DSwitch n b x' e'.
Lemma same_refl d : same d d. Proof. now left. Qed.
Lemma same_trans a b c : same a b -> same b c -> same a c.
Proof.
  intros [->|(n & k & x & e & x' & e' & -> & ->)] H; [exact H|].
  destruct H as [<-|(n2 & k2 & y & f & y' & f' & H & ->)]; [right; eauto 10|]. injection H as <- <- <- <-. right. eauto 10.
Qed.
Lemma same_list_refl l : Forall2 same l l. Proof. induction l; constructor; auto using same_refl. Qed.
Lemma same_list_trans a : forall b c, Forall2 same a b -> Forall2 same b c -> Forall2 same a c.
Proof. induction a; intros b c H1 H2; inversion H1; subst; inversion H2; subst; constructor; eauto using same_trans. Qed.
Lemma set1_same i v l l' : set1 (setdecl i v) l = Some l' -> Forall2 same l l'.
Proof.
  revert l'. induction l as [|d r IH]; intros l'; cbn [set1]; [discriminate|]. destruct (is_switch d) eqn:E.
  - intros [= <-]. constructor; [|apply same_list_refl]. destruct d; try discriminate. right. cbn [setdecl]. destruct (i =? 4); eauto 10.
  - destruct (set1 _ r); [|discriminate]. intros [= <-]. constructor; auto using same_refl.
Qed.
Definition same_out (a b : Z * list decl) : Prop := fst a = fst b /\ Forall2 same (snd a) (snd b).
Lemma same_outs_refl l : Forall2 same_out l l.
Proof. induction l; constructor; auto. split; auto using same_list_refl. Qed.
Lemma same_outs_trans a : forall b c, Forall2 same_out a b -> Forall2 same_out b c -> Forall2 same_out a c.
Proof.
  induction a; intros b c H1 H2; inversion H1 as [|? ? ? ? [A1 A2]]; subst; inversion H2 as [|? ? ? ? [B1 B2]]; subst; constructor; eauto.
  split; [congruence|eauto using same_list_trans].
Qed.
Lemma set_out_same i v l l' : set_out (setdecl i v) l = Some l' -> Forall2 same_out l l'.
Proof.
  revert l'. induction l as [|[n ds] r IH]; intros l'; cbn [set_out]; [discriminate|]. destruct (set1 _ ds) eqn:E.
  - intros [= <-]. constructor; [|apply same_outs_refl]. split; [reflexivity|]. eapply set1_same; eauto.
  - destruct (set_out _ r); [|discriminate]. intros [= <-]. constructor; auto. split; auto using same_list_refl.
Qed.
Lemma block_outer b : block b -> forall sp sp', srun sp b = Some sp' -> Forall2 same_out (outer sp) (outer sp') /\
  exists new old, inner sp' = new ++ old /\ Forall2 same (inner sp) old.
Proof.
  induction 1 as [|e r He Hr IH|b r Hb IHb Hr IHr]; intros sp sp' H.
  - injection H as <-. split; [apply same_outs_refl|]. exists [], (inner sp). auto using same_list_refl.
  - cbn [srun] in H. destruct (sstep sp e) as [sp1|] eqn:E; [|discriminate].
    assert (H1 : Forall2 same_out (outer sp) (outer sp1) /\ exists new old, inner sp1 = new ++ old /\ Forall2 same (inner sp) old).
    { destruct e; try contradiction; cbn [sstep] in E;
        try (injection E as <-; split; [apply same_outs_refl|]; cbn;
             first [exists [], (inner sp); split; [reflexivity|apply same_list_refl]
                   |eexists [_], (inner sp); split; [reflexivity|apply same_list_refl]]).
      - rewrite setdecl4 in E. unfold set_sw in E. destruct (set1 _ (inner sp)) eqn:E1.
        + injection E as <-. split; [apply same_outs_refl|]. eexists [], _. split; [reflexivity|]. eapply set1_same; eauto.
        + destruct (set_out _ _) eqn:E2; [|discriminate]. injection E as <-. split; [eapply set_out_same; eauto|].
          exists [], (inner sp). auto using same_list_refl.
      - rewrite setdecl5 in E. unfold set_sw in E. destruct (set1 _ (inner sp)) eqn:E1.
        + injection E as <-. split; [apply same_outs_refl|]. eexists [], _. split; [reflexivity|]. eapply set1_same; eauto.
        + destruct (set_out _ _) eqn:E2; [|discriminate]. injection E as <-. split; [eapply set_out_same; eauto|].
          exists [], (inner sp). auto using same_list_refl. }
    destruct H1 as (O1 & n1 & o1 & E1 & S1). destruct (IH _ _ H) as (O2 & n2 & o2 & E2 & S2).
    split; [eapply same_outs_trans; eauto|]. rewrite E1 in S2. apply Forall2_app_inv_l in S2.
    destruct S2 as (a & c & S3 & S4 & ->). exists (n2 ++ a), c. rewrite <- app_assoc. split; [exact E2|eapply same_list_trans; eauto].
  - cbn [srun sstep] in H.
    assert (HH : exists sp1, srun (Sc [] ((depth sp, inner sp) :: outer sp) (gl sp) (lf sp) (lf_saved sp) (depth sp) (next_addr sp)) b = Some sp1 /\
       srun sp1 (EClose :: r) = Some sp').
    { revert H. generalize (Sc [] ((depth sp, inner sp) :: outer sp) (gl sp) (lf sp) (lf_saved sp) (depth sp) (next_addr sp)).
      clear. induction b as [|e b IH]; intros sc H; cbn [app srun] in *; [eauto|]. destruct (sstep sc e); [|discriminate]. apply IH, H. }
    destruct HH as (sp1 & B1 & B2). destruct (IHb _ _ B1) as (O1 & _). cbn [outer] in O1. cbn [srun sstep] in B2.
    destruct (outer sp1) as [|[d l] ro]; [discriminate|]. inversion O1 as [|? ? ? ? [Q1 Q2] Q3]; subst. cbn [fst snd] in *.
    destruct (IHr _ _ B2) as (O2 & n2 & o2 & E2 & S2). cbn [outer inner] in *.
    split; [eapply same_outs_trans; eauto|]. exists n2, o2. split; [exact E2|]. eapply same_list_trans; eauto.
Qed.
(** Leaving a block restores exactly the bindings visible before it, and the depth, whatever was declared inside. *)
(** An identifier in an expression denotes the innermost visible variable or parameter, else the last global variable, else the last
    function, else the last enumeration constant of that name; no binding is the only failure. *)
Lemma find_filter (p : decl -> bool) l : find (fun _ => true) (filter p l) = find p l.
Proof. induction l as [|d l IH]; [reflexivity|]. cbn [filter find]. destruct (p d); [reflexivity|exact IH]. Qed.
Lemma find_app' (p : decl -> bool) l1 l2 : find p (l1 ++ l2) = match find p l1 with Some d => Some d | None => find p l2 end.
Proof. induction l1 as [|d l IH]; [reflexivity|]. cbn [app find]. destruct (p d); [reflexivity|exact IH]. Qed.
Lemma finds_else h b1 b2 p l1 l2 : finds h b1 p l1 -> finds h b2 (fun _ => true) l2 ->
  finds h (if negb (b1 =? 0) then b1 else b2) (fun _ => true) (filter p l1 ++ l2).
Proof.
  unfold finds. intros H1 H2. rewrite find_app', find_filter. destruct (find p l1) as [d|].
  - destruct H1 as [N H1]. rewrite (proj2 (Z.eqb_neq _ _) N). split; assumption.
  - rewrite H1. exact H2.
Qed.
Theorem c36_resolve (h : Z -> Z) (a : Z) (l : list ev) (s : env) : 0 < a -> Forall ev_ok l -> erun (env0 h a) l = Some s ->
  exists sp, srun scopes0 l = Some sp /\
    forall x, finds (heap s) (resolve_identifier s x) (fun _ => true)
      (filter (is_var x) (visible sp) ++ filter (is_var x) (gl sp) ++ filter (is_fun x) (gl sp) ++ filter (is_enum_cst x) (gl sp)).
Proof.
  intros Ha HF H. destruct (c36_lookup h a l s Ha HF H) as (sp & Hs & _ & V & _ & _ & _ & GV & GF & GE & _).
  exists sp. split; [exact Hs|]. intros x. unfold resolve_identifier. cbv zeta.
  apply finds_else; [apply V|]. apply finds_else; [apply GV|]. apply finds_else; [apply GF|].
  specialize (GE x). unfold finds in *. rewrite find_filter. exact GE.
Qed.

(** The heap never grows beyond its 2000000 cells, and an object is refused only when it would not fit. *)
Lemma estep_heap s e s' : estep s e = Some s' -> halloc s <= 2000000 -> halloc s <= halloc s' <= 2000000.
Proof.
  intros H L. destruct e; cbn [estep] in H; unfold add_local, alloc, HEAP_SIZE, set_field in H; cbn [halloc with_fs] in H;
  repeat match type of H with
  | context [if ?b then _ else _] => destruct b eqn:?
  | context [match saved ?s with _ => _ end] => destruct (saved s) as [|[? ?] ?]
  end; try discriminate H; injection H as <-; cbn [halloc with_fs with_locals with_globals with_galloc with_lfun with_saved with_saved_fun with_heap snd length] in *;
  repeat match goal with X : (_ <? _) = false |- _ => apply Z.ltb_ge in X end; lia.
Qed.
Theorem c36_heap_bound (h : Z -> Z) (a : Z) (l : list ev) (s : env) : a <= 2000000 -> erun (env0 h a) l = Some s ->
  a <= halloc s <= 2000000 /\ forall cells, estep s (EOther cells) = None <-> 2000000 < halloc s + Z.of_nat (length cells).
Proof.
  intros Ha H. split.
  - assert (G : forall l s s', halloc s <= 2000000 -> erun s l = Some s' -> halloc s <= halloc s' <= 2000000).
    { clear. induction l as [|e l IH]; intros s s' L H; cbn [erun] in H; [injection H as <-; lia|].
      destruct (estep s e) as [s1|] eqn:E; [|discriminate]. destruct (estep_heap _ _ _ E L). specialize (IH s1 s' ltac:(lia) H). lia. }
    exact (G l (env0 h a) s Ha H).
  - intros cells. cbn [estep]. unfold alloc, HEAP_SIZE. cbv zeta. destruct (Z.ltb_spec 2000000 (halloc s + Z.of_nat (length cells))); cbn; split; try easy; lia.
Qed.

Theorem c36_block_restores (b : list ev) (sp sp' : scopes) : block b -> srun sp (EOpen :: b ++ [EClose]) = Some sp' ->
  Forall2 same (visible sp) (visible sp') /\ depth sp' = depth sp.
Proof.
  intros Hb H. pose proof (blk_block b [] Hb blk_nil) as HB.
  cbn [srun sstep] in H.
  assert (HH : exists sp1, srun (Sc [] ((depth sp, inner sp) :: outer sp) (gl sp) (lf sp) (lf_saved sp) (depth sp) (next_addr sp)) b = Some sp1 /\
       srun sp1 [EClose] = Some sp').
  { revert H. generalize (Sc [] ((depth sp, inner sp) :: outer sp) (gl sp) (lf sp) (lf_saved sp) (depth sp) (next_addr sp)).
    clear. induction b as [|e b IH]; intros sc H; cbn [app srun] in *; [eauto|]. destruct (sstep sc e); [|discriminate]. apply IH, H. }
  destruct HH as (sp1 & B1 & B2). destruct (block_outer b Hb _ _ B1) as (O1 & _). cbn [outer] in O1. cbn [srun sstep] in B2.
  destruct (outer sp1) as [|[d l] ro]; [discriminate|]. inversion O1 as [|? ? ? ? [Q1 Q2] Q3]; subst. cbn [fst snd] in *. injection B2 as <-.
  unfold visible. cbn [inner outer depth]. split; [|auto]. apply Forall2_app; [exact Q2|]. clear -Q3.
  induction Q3 as [|x y l l' [_ H] H2 IH]; cbn; [constructor|]. apply Forall2_app; auto.
Qed.
(** The compiler's own pointers are restored too. *)
Theorem c36_pointers_restored (b : list ev) (s s' : env) : block b -> erun s (EOpen :: b ++ [EClose]) = Some s' ->
  locals s' = locals s /\ fs s' = fs s /\ saved s' = saved s.
Proof.
  intros Hb H.
  assert (G : forall b, block b -> forall s s', erun s b = Some s' -> saved s' = saved s).
  { clear. induction 1 as [|e r He Hr IH|b r Hb IHb Hr IHr]; intros s s' H.
    - injection H as <-. reflexivity.
    - cbn [erun] in H. destruct (estep s e) as [s1|] eqn:E; [|discriminate]. rewrite (IH _ _ H). clear IH H Hr.
      destruct e; try contradiction; cbn [estep] in E; unfold add_local, alloc, set_field in E;
        repeat match type of E with context [if ?c then _ else _] => destruct c end; try discriminate;
        injection E as <-; reflexivity.
    - cbn [erun estep] in H.
      assert (HH : exists s1, erun (with_saved s ((fs s, locals s) :: saved s)) b = Some s1 /\ erun s1 (EClose :: r) = Some s').
      { revert H. generalize (with_saved s ((fs s, locals s) :: saved s)). clear. induction b as [|e b IH]; intros sc H; cbn [app erun] in *; [eauto|].
        destruct (estep sc e); [|discriminate]. apply IH, H. }
      destruct HH as (s1 & B1 & B2). specialize (IHb _ _ B1). cbn [erun estep] in B2. rewrite IHb in B2. cbn in B2. rewrite (IHr _ _ B2). reflexivity. }
  cbn [erun estep] in H.
  assert (HH : exists s1, erun (with_saved s ((fs s, locals s) :: saved s)) b = Some s1 /\ erun s1 [EClose] = Some s').
  { revert H. generalize (with_saved s ((fs s, locals s) :: saved s)). clear. induction b as [|e b IH]; intros sc H; cbn [app erun] in *; [eauto|].
    destruct (estep sc e); [|discriminate]. apply IH, H. }
  destruct HH as (s1 & B1 & B2). specialize (G _ Hb _ _ B1). cbn [erun estep] in B2. rewrite G in B2. cbn in B2. injection B2 as <-. cbn. auto.
Qed.
Lemma local_enum_run (h : Z -> Z) (x v : Z) : exists s, erun (env0 h 1009) [EFunBegin; EFunBody; EOpen; EVar x 1 7; EOpen; EEnumCst x v] = Some s.
Proof.
  assert (E : match erun (env0 h 1009) [EFunBegin; EFunBody; EOpen; EVar x 1 7; EOpen; EEnumCst x v] with Some _ => true | None => false end = true)
    by (vm_compute; reflexivity).
  destruct (erun _ _) as [s|]; [eauto|discriminate].
Qed.
(** Enumerators declared in a block are put in the global environment, so they do not shadow an outer local
    variable, contrary to C: in [int x; { enum { x = 5 }; ... x ... }] the name denotes the variable. *)
Theorem c36_local_enum_refuted (h : Z -> Z) (x v : Z) : exists s b,
  erun (env0 h 1009) [EFunBegin; EFunBody; EOpen; EVar x 1 7; EOpen; EEnumCst x v] = Some s /\ resolve_identifier s x = b /\
  heap s (b + 1) = K_VAR /\ heap s (b + 2) = x.
Proof.
  destruct (local_enum_run h x v) as [s Hs]. exists s.
  destruct (c36_lookup h 1009 [EFunBegin; EFunBody; EOpen; EVar x 1 7; EOpen; EEnumCst x v] s) as (sp & Hsp & _ & Hv & _); [lia|repeat constructor|exact Hs|].
  injection Hsp as <-. specialize (Hv x). unfold finds in Hv. cbn [visible inner outer map snd concat app find is_var decl_global decl_inner] in Hv.
  rewrite Z.eqb_refl in Hv. destruct Hv as [Hb Hc].
  assert (HR : resolve_identifier s x = lookup_var (heap s) x (locals s)).
  { unfold resolve_identifier. apply Z.eqb_neq in Hb. cbv zeta. rewrite Hb. reflexivity. }
  exists (lookup_var (heap s) x (locals s)). split; [exact Hs|]. split; [exact HR|]. revert Hc. generalize (lookup_var (heap s) x (locals s)) as b.
  intros b Hc. pose proof (Hc 0%nat ltac:(cbn; lia)) as H0. pose proof (Hc 1%nat ltac:(cbn; lia)) as H1.
  cbn [cells_of nth] in H0, H1. replace (b + 1 + Z.of_nat 0) with (b + 1) in H0 by lia. replace (b + 1 + Z.of_nat 1) with (b + 2) in H1 by lia. auto.
Qed.

Example c36_example : let l := [EFunBegin; EParam 5 1 0; EFunBody; EOpen; EVar 6 1 0; EOpen; ELoop 9 8; EVar 5 2 0; EOpen; ESwitch 3 4; EClose] in
  Forall ev_ok l /\ match erun (env0 (fun _ => 0) 1009) l with
    | Some s => lookup_var (heap s) 5 (locals s) = 1024 /\ heap s (1024 + 1) = K_VAR /\ heap s (1024 + 3) = 3 /\
                lookup_enclosing_loop_or_switch (heap s) (locals s) = 1019
    | None => False end.
Proof. split; [repeat constructor|]. vm_compute. repeat split. Qed.

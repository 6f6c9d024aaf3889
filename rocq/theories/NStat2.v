(** * Static facts about statements: code for a statement leaves cgc_fs as it was *)
From Coq Require Import ZArith List Lia Bool.
From Verif Require Import Base Asm AsmProof X86 X86Proof X86Sem NMach NPtr CLang NGen NSupp NBin NRun NBop NEqs NStat.
Import ListNotations.
Open Scope Z_scope.

Scheme stmt_ind2 := Induction for stmt Sort Prop with items_ind2 := Induction for items Sort Prop with swl_ind2 := Induction for swl Sort Prop.
Combined Scheme stmt_items_swl_ind from stmt_ind2, items_ind2, swl_ind2.

Section F.
Variables (W : Z) (funs : cdecls) (glo : list gbnd).
Hypothesis HW : W = 4 \/ W = 8.
Hypothesis HF : decl_ok funs glo.
Definition GL (G : list (Z * ty)) (loc : list bnd) : Prop := forall x t, lookupZ G x = Some t -> var_type glo loc x = Some t.
Lemma GL_loop G loc a b c : GL G loc -> GL G (BLoop a b c :: loc).
Proof. intros H x t Hx. exact (H x t Hx). Qed.
Lemma GL_sw G loc a b : GL G loc -> GL G (BSwitch a b :: loc).
Proof. intros H x t Hx. exact (H x t Hx). Qed.
Lemma GL_loc G loc x o t : GL G loc -> GL ((x, t) :: G) (BLocal x o t :: loc).
Proof. intros H y u Hy. unfold var_type. cbn [look_loc lookupZ] in *. destruct (y =? x); [exact Hy|]. exact (H y u Hy). Qed.
Lemma test_fs G loc m e c l s u code s' : GL G loc -> supp W funs G m e = true -> test W glo loc e c l s = Some (u, code, s') -> fst s' = fst s.
Proof.
  intros HG HS H. destruct s, s'. unfold test in H. mi. match goal with X : codegen_rvalue _ _ _ _ _ = _ |- _ => eapply rv_fs in X; [|exact HW|exact HG|exact HF|exact HS] end. cbn. lia.
Qed.
Lemma opt_fs G loc m e s u code s' : GL G loc -> match e with Some e => supp W funs G m e = true | None => True end ->
  codegen_opt W glo loc e s = Some (u, code, s') -> fst s' = fst s.
Proof.
  intros HG HS H. destruct s, s'. unfold codegen_opt in H. destruct e; mi; [|reflexivity].
  match goal with X : codegen_rvalue _ _ _ _ _ = _ |- _ => eapply rv_fs in X; [|exact HW|exact HG|exact HF|exact HS] end. cbn. lia.
Qed.
Lemma case_supp G z : supp W funs G (Mod W) (case_expr z) = true.
Proof. unfold case_expr. destruct (z <? 0); reflexivity. Qed.
Lemma labels_fs G loc l : forall st s st' code s', GL G loc -> codegen_labels W glo loc st l s = Some (st', code, s') -> fst s' = fst s.
Proof.
  induction l as [|lb l IH]; intros st s st' code s' HG H; destruct s, s'; cbn [codegen_labels] in H; [mi; reflexivity|].
  mi. apply IH in H; auto. cbn [fst] in *. subst.
  match goal with X : codegen_label _ _ _ _ _ _ = _ |- _ => rename X into HL end. unfold codegen_label in HL. destruct st as [nxt dfl]. destruct lb.
  - mi. match goal with X : codegen_rvalue _ _ _ _ _ = _ |- _ => eapply rv_fs in X; [|exact HW|exact HG|exact HF|apply case_supp] end. lia.
  - destruct dfl; mi. reflexivity.
Qed.
Definition fs1 (c : stmt) := forall G rt cont loc s u code s', GL G loc -> ss W funs G rt cont c = true -> codegen_statement W glo loc c s = Some (u, code, s') -> fst s' = fst s.
Definition fs2 (l : items) := forall G rt cont loc s u code s', GL G loc -> si W funs G rt cont l = true -> codegen_items W glo loc l s = Some (u, code, s') -> fst s <= fst s'.
Definition fs3 (l : swl) := forall G rt cont t loc st s u code s', GL G loc -> sw W funs G rt cont t l = true -> codegen_swl W glo loc st l s = Some (u, code, s') -> fst s' = fst s.
Lemma csize_ge1 t : wfty W t = true -> scalar t || is_agg t = true -> 1 <= csize W t.
Proof.
  assert (A : forall t, wfty W t = true -> scalar t || is_struct t = true -> 1 <= csize W t).
  { intros u Hw Hs. destruct u as [k s| | | |un id sz]; try discriminate; cbn [csize].
    - apply wf_int in Hw; auto. apply isz_pos in Hw; auto. lia.
    - destruct HW; lia.
    - cbn [wfty] in Hw. bt. lia. }
  intros Hw Hs. destruct (is_arr t) eqn:Ea.
  - destruct t as [| |u n| |]; try discriminate. cbn [wfty csize] in *. bt. assert (1 <= csize W u) by (apply A; auto).
    match goal with X : (0 <? n) = true |- _ => apply Z.ltb_lt in X end. nia.
  - apply A; auto. unfold is_agg in Hs. rewrite Ea in Hs. exact Hs.
Qed.
Lemma local_pos t : wfty W t = true -> scalar t || is_agg t = true -> 0 < local_size W t /\ csize W t <= W * local_size W t /\ (scalar t = true -> local_size W t = 1).
Proof.
  intros Hw Hs. pose proof (csize_ge1 t Hw Hs) as C1. unfold local_size. destruct (is_agg t) eqn:Ea.
  - unfold type_width, word_size_align. rewrite width_true. set (c := csize W t) in *.
    assert (E : (c + W - 1) / W * W / W = (c + W - 1) / W) by (apply Z.div_mul; destruct HW; lia). rewrite E.
    pose proof (Z.div_mod (c + W - 1) W ltac:(destruct HW; lia)). pose proof (Z.mod_pos_bound (c + W - 1) W ltac:(destruct HW; lia)).
    split; [|split; [|destruct t; discriminate]]; destruct HW; nia.
  - rewrite orb_false_r in Hs. assert (csize W t <= W).
    { destruct t as [k s| | | |]; try discriminate; cbn; [|lia]. apply wf_int in Hw; auto. apply isz_pos in Hw; auto. lia. }
    rewrite Z.div_same by (destruct HW; lia). destruct HW; lia.
Qed.
Ltac un HS H := match type of HS with
  | ss _ _ _ _ _ _ = _ => rewrite ss_eq in HS; unfold ss_body in HS; rewrite codegen_statement_eq in H; unfold codegen_statement_body in H; cbv beta iota zeta in HS, H
  | si _ _ _ _ _ _ = _ => rewrite si_eq in HS; unfold si_body in HS; rewrite codegen_items_eq in H; unfold codegen_items_body in H; cbv beta iota zeta in HS, H
  | sw _ _ _ _ _ _ _ = _ => rewrite sw_eq in HS; unfold sw_body in HS; rewrite codegen_swl_eq in H; unfold codegen_swl_body in H; cbv beta iota zeta in HS, H
  end.
Ltac fst_all HG := repeat match goal with
  | X : test _ _ _ _ _ _ _ = Some _ |- _ => eapply test_fs in X; [cbn [fst snd] in X|now repeat first [exact HG | apply GL_loop | apply GL_sw]|eassumption]
  | X : codegen_opt _ _ _ _ _ = Some _ |- _ => eapply opt_fs with (m := Mod 0) in X; [cbn [fst snd] in X|now repeat first [exact HG | apply GL_loop | apply GL_sw]|try exact I; try eassumption]
  | X : codegen_rvalue _ _ _ _ _ = Some (_, _, (_, _)) |- _ => eapply rv_fs in X; [|exact HW|now repeat first [exact HG | apply GL_loop | apply GL_sw]|exact HF|eassumption]
  | IH : fs1 ?c, X : codegen_statement _ _ _ ?c _ = Some _ |- _ => eapply IH in X; [cbn [fst snd] in X|now repeat first [exact HG | apply GL_loop | apply GL_sw]|eassumption]
  | IH : fs3 ?c, X : codegen_swl _ _ _ _ ?c _ = Some _ |- _ => eapply IH in X; [cbn [fst snd] in X|now repeat first [exact HG | apply GL_loop | apply GL_sw]|eassumption]
  | IH : fs2 ?c, X : codegen_items _ _ _ ?c _ = Some _ |- _ => eapply IH in X; [cbn [fst snd] in X|now repeat first [exact HG | apply GL_loop | apply GL_sw]|eassumption]
  end.
Lemma stmt_fs : (forall c, fs1 c) /\ (forall l, fs2 l) /\ (forall l, fs3 l).
Proof.
  apply stmt_items_swl_ind.
  - intros G rt cont loc s u code s' HG HS H; un HS H; destruct s, s'; mi; reflexivity.
  - intros e G rt cont loc s u code s' HG HS H; un HS H; destruct s, s'; mi; fst_all HG; cbn; lia.
  - intros e c1 I1 c2 I2 G rt cont loc s u code s' HG HS H; un HS H; destruct s, s'; bt; mi; fst_all HG; cbn; lia.
  - intros e c1 I1 G rt cont loc s u code s' HG HS H; un HS H; destruct s, s'; bt; mi; reflexivity.
  - intros c1 I1 e G rt cont loc s u code s' HG HS H; un HS H; destruct s, s'; bt; mi; reflexivity.
  - intros i t st c1 I1 G rt cont loc s u code s' HG HS H; un HS H; destruct s, s'; bt; mi; reflexivity.
  - intros e l I1 G rt cont loc s u code s' HG HS H; un HS H; destruct s, s'; mi; reflexivity.
  - intros G rt cont loc s u code s' HG HS H; un HS H; destruct s, s'. destruct (encl_any loc) as [[? ?]|]; mi; reflexivity.
  - intros G rt cont loc s u code s' HG HS H; un HS H; destruct s, s'. destruct (encl_loop loc) as [[? ?]|]; mi; reflexivity.
  - intros [e|] G rt cont loc s u code s' HG HS H; un HS H; destruct s, s'.
    + mi. assert (HS' : supp W funs G (Mod W) e = true) by (bt; assumption).
      match goal with X : codegen_opt _ _ _ _ _ = Some _ |- _ => eapply opt_fs with (m := Mod W) in X; [exact X|exact HG|exact HS'] end.
    + unfold codegen_opt in H. mi. reflexivity.
  - intros l I1 G rt cont loc s u code s' HG HS H; un HS H; destruct s, s'; mi; reflexivity.
  - intros G rt cont loc s u code s' HG HS H; un HS H; destruct s, s'; mi; cbn; lia.
  - intros c I1 l I2 G rt cont loc s u code s' HG HS H; un HS H; destruct s, s'; bt; mi; fst_all HG; cbn; lia.
  - intros x t i l I1 G rt cont loc s u code s' HG HS H; un HS H; destruct s, s'. apply andb_true_iff in HS as [HS S3].
    apply andb_true_iff in HS as [HS S2]. apply andb_true_iff in HS as [Wt Sc]. destruct (local_pos t Wt Sc) as [Lp _]. mi.
    match goal with X : codegen_items _ _ _ _ _ = Some _ |- _ => eapply I1 in X; [cbn [fst snd] in X|apply GL_loc; exact HG|exact S3] end.
    destruct i as [e|]; [|mi; cbn; lia]. destruct (is_agg t); mi. apply andb_true_iff in S2 as [_ S2].
    match goal with X : codegen_rvalue _ _ _ _ _ = Some _ |- _ => eapply rv_fs in X; [|exact HW|apply GL_loc; exact HG|exact HF|exact S2] end.
    match goal with X : write_mem_location _ _ _ _ _ _ = Some _ |- _ => unfold write_mem_location in X end.
    match goal with X : (if _ then _ else _) _ = Some _ |- _ => destruct (_ && _) in X end; mi. cbn; lia.
  - intros G rt cont t loc st s u code s' HG HS H; un HS H; destruct s, s'; mi; reflexivity.
  - intros labs c I1 l I2 G rt cont t loc st s u code s' HG HS H; un HS H; destruct s, s'; bt; mi. fst_all HG.
    match goal with X : codegen_labels _ _ _ _ _ _ = Some _ |- _ => eapply labels_fs in X; [|exact HG] end. cbn in *. lia.
Qed.
End F.

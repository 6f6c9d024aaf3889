(** * From assembled bytes to placed code *)
From Coq Require Import ZArith List Lia Bool.
From Verif Require Import Base Asm AsmProof X86 X86Proof X86Sem NMach.
Import ListNotations.
Open Scope Z_scope.

(** A helper emits bytes and uses of its own label. *)
Definition plain (ol : option Z) (l : list aop) : Prop :=
  Forall (fun o => match o with OByte _ => True | OUse x => ol = Some x | _ => False end) l.
Lemma plain_app ol a b : plain ol a -> plain ol b -> plain ol (a ++ b).
Proof. intros. apply Forall_app. now split. Qed.
Lemma plain_B ol l : plain ol (B l).
Proof. unfold plain, B. apply Forall_forall. intros o H. apply in_map_iff in H as (x & <- & _). exact I. Qed.
Lemma plain_use l : plain (Some l) [OUse l].
Proof. constructor; [reflexivity|constructor]. Qed.
Lemma plain_nil ol : plain ol [].
Proof. constructor. Qed.
Lemma plain_emit W h : plain (hlabel h) (emit_of W h).
Proof.
  destruct h; cbn [emit_of hlabel];
    repeat match goal with |- plain _ (match ?x with _ => _ end) => destruct x end;
    unfold add_reg_reg, or_reg_reg, and_reg_reg, sub_reg_reg, xor_reg_reg, cmp_reg_reg, mov_reg_reg, add_reg_imm, add_reg_lbl,
      mov_reg_imm, mov_reg_large_imm, mov_mem8_reg, mov_mem16_reg, mov_mem32_reg, mov_mem64_reg, mov_reg_mem8, mov_reg_mem16,
      mov_reg_mem32, mov_reg_mem64, mov_reg_mem8_sign_ext, mov_reg_mem16_sign_ext, mov_reg_mem32_sign_ext, imul_reg_reg,
      idiv_reg, div_reg, cdq_cqo, op_reg_slash_digit, op_reg_reg, push_reg, pop_reg, jump, call, call_reg, ret, jump_cond, int_i8, syscall_,
      rex_prefix, mod_rm, mov_memory, mov_memory_extend, imm64, imm32;
    repeat first [apply plain_app | apply plain_B | apply plain_use | apply plain_nil | progress unfold rex_prefix
                 | match goal with |- plain _ (match ?x with _ => _ end) => destruct x end].
Qed.
Lemma plain_noframe ol l : plain ol l -> noframe l.
Proof. intros H o Ho n ->. unfold plain in H. rewrite Forall_forall in H. exact (H _ Ho). Qed.

Section Link.
Variables (W cb : Z) (bytes : list Z) (lab : Z -> option Z) (glab : Z -> option (Z * Z)).
Hypothesis HW : W = 4 \/ W = 8.

Lemma plain_len ol l : plain ol l -> (forall x, ol = Some x -> lab x <> None) -> forall pos fs,
  zlen (second_pass W lab glab pos fs l) = ops_size W l.
Proof.
  intros H Hl. induction l as [|o l IH]; intros pos fs; cbn [second_pass ops_size]; [reflexivity|].
  inversion H as [|? ? Ho H']; subst. rewrite zlen_app, IH by assumption. f_equal.
  destruct o; try contradiction; cbn [op_bytes op_size]; [reflexivity|].
  specialize (Hl _ Ho). destruct (lab l0); [reflexivity|congruence].
Qed.

(** Labels defined in [l], placed at [p], have their address in [lab]. *)
Fixpoint labs_at (p : Z) (l : list hop) : Prop :=
  match l with
  | [] => True
  | HC h :: k => labs_at (p + ilen W h) k
  | HD x :: k => lab x = Some p /\ labs_at p k
  end.
(** Helper calls are encodable; labels used are defined. *)
Definition hop_ok (x : hop) : Prop :=
  match x with HC h => valid W h /\ (forall l, hlabel h = Some l -> lab l <> None) | HD _ => True end.

Lemma ilen_nonneg h : 0 <= ilen W h.
Proof.
  unfold ilen. induction (emit_of W h) as [|o l IH]; cbn [ops_size]; [lia|].
  assert (0 <= op_size W o) by (destruct o; cbn; unfold goto_size; try destruct (W =? 8); lia). lia.
Qed.
Lemma hsize_nonneg l : 0 <= hsize W l.
Proof. induction l as [|[h|x] l IH]; cbn [hsize]; try lia. pose proof (ilen_nonneg h). lia. Qed.
Lemma hsize_ops l : ops_size W (hops W l) = hsize W l.
Proof.
  induction l as [|[h|x] l IH]; cbn [hsize hops flat_map]; [reflexivity| |].
  - rewrite size_app. unfold ilen. unfold hops in IH. lia.
  - cbn [app ops_size op_size]. unfold hops in IH. lia.
Qed.

Lemma placed_link : forall l p pre fs, zlen pre = p ->
  Forall hop_ok l -> labs_at p l -> p + hsize W l <= 2147483647 ->
  (forall x a, lab x = Some a -> 0 <= a <= 2147483647) ->
  forall post, bytes = pre ++ second_pass W lab glab p fs (hops W l) ++ post ->
  placed W cb bytes lab p l.
Proof.
  induction l as [|[h|x] l IH]; intros p pre fs Hp Hok Hlab Hsz Hr post E; cbn [placed labs_at hsize] in *; [exact I| |].
  - inversion Hok as [|? ? Ho Hok']; subst x l0. cbn [hop_ok] in Ho. destruct Ho as [Hv Hl].
    pose proof (hsize_nonneg l). pose proof (ilen_nonneg h). pose proof (zlen_nonneg pre).
    pose proof (plain_emit W h) as Pl.
    assert (E' : second_pass W lab glab p fs (hops W (HC h :: l)) =
      second_pass W lab glab p fs (emit_of W h) ++ second_pass W lab glab (p + ilen W h) fs (hops W l)).
    { unfold hops. cbn [flat_map]. rewrite second_pass_app by (eapply plain_noframe; exact Pl). reflexivity. }
    assert (Len : zlen (second_pass W lab glab p fs (emit_of W h)) = ilen W h) by (eapply plain_len; eassumption).
    rewrite E' in E. split.
    + intros m Hc. split; [|split; [exact Hl|]; rewrite E, !zlen_app, Len; pose proof (zlen_nonneg (second_pass W lab glab (p + ilen W h) fs (hops W l)));
        pose proof (zlen_nonneg post); lia]. unfold ilen. eapply helper_decodes; [exact HW|exact Hv| |].
      * intros lb Hlb. specialize (Hl lb Hlb). destruct (lab lb) as [a|] eqn:El; [|congruence].
        exists a. split; [reflexivity|]. specialize (Hr _ _ El). unfold int_range. fold (ilen W h). lia.
      * unfold codeok in Hc. rewrite E, <- app_assoc in Hc. apply at_app in Hc as [_ Hc]. rewrite Hp in Hc.
        apply at_app in Hc as [Hc _]. exact Hc.
    + eapply IH with (pre := pre ++ second_pass W lab glab p fs (emit_of W h)) (fs := fs) (post := post); auto.
      * rewrite zlen_app. lia.
      * lia.
      * rewrite E, <- !app_assoc. reflexivity.
  - inversion Hok; subst x0 l0. destruct Hlab as [Hx Hlab]. split; [exact Hx|].
    eapply IH with (pre := pre) (fs := fs) (post := post); auto.
    rewrite E. unfold hops. cbn [flat_map app second_pass op_bytes op_size frame_after]. now rewrite Z.add_0_r.
Qed.
End Link.

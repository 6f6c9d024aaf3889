(** * The linked program *)
From Coq Require Import ZArith List Lia Bool.
From Verif Require Import Base Asm AsmProof Elf PropAsm X86 X86Proof X86Sem NMach NPtr CLang CProg NGen NSupp NBin NRun NBop NEqs NStat NStat2 NJudge NLink NRt NMain NProg NMono NLab NSetup NWhole NWhole3 NWhole4.
Import ListNotations.
Open Scope Z_scope.

Ltac eqs := repeat match goal with |- context [?a =? ?b] => rewrite (proj2 (Z.eqb_neq a b)) by lia end;
  repeat match goal with H : context [?a =? ?b] |- _ => rewrite (proj2 (Z.eqb_neq a b)) in H by lia end.
Section X.
Variable W : Z.
Hypothesis HW : W = 4 \/ W = 8.

Lemma pend0 l x : forallb (fun f => (f =? id_main) || negb (builtin f)) l = true -> NoDup l -> pend begin_glo l x = if memZ id_main l then n1 x main_lbl else 0.
Proof.
  assert (X : forall f, builtin f = false -> look_fun f begin_glo = None).
  { intros f H. unfold builtin in H. unfold begin_glo. cbn [look_fun]. unfold id_printf, id_free, id_malloc, id_fgetc, id_fclose, id_fopen, id_getchar, id_putchar, id_unlink, id_lseek, id_close, id_open, id_write, id_read, id_exit, id_main in *.
    repeat match goal with |- context [f =? ?n] => destruct (Z.eqb_spec f n) as [E|_]; [exfalso; rewrite E in H; discriminate H|] end. reflexivity. }
  intros H N. induction l as [|f l IH]; [reflexivity|]. cbn [forallb] in H. apply andb_true_iff in H as [H1 H2]. inversion N as [|? ? N1 N2]; subst. cbn [pend]. rewrite (IH H2 N2).
  unfold memZ. cbn [existsb]. fold (memZ id_main l). unfold lb1. destruct (Z.eqb_spec f id_main) as [E|E].
  - rewrite E in *. rewrite Z.eqb_refl. cbn [orb]. replace (look_fun id_main begin_glo) with (Some (main_lbl, TVoid)) by reflexivity. destruct (memZ id_main l) eqn:M; [apply memZ_in in M; contradiction|]. lia.
  - cbn [orb] in H1. apply negb_true_iff in H1. rewrite (X f H1). replace (id_main =? f) with false by (symmetry; apply Z.eqb_neq; congruence). cbn [orb]. lia.
Qed.
Lemma prog_labels ds code sF : codegen_prog W ds = Some (code, sF) -> sprog W ds = true -> linked ds = true ->
  exists n, (forall x, cnt x code = ind 0 n x) /\ (forall x, used x code -> 0 <= x < n).
Proof.
  intros H HS HK. unfold codegen_prog, codegen_begin in H. destruct (codegen_decls W ds _) as [[c s]|] eqn:E; [|discriminate]. apply Some_inj, pair_equal_spec in H as [<- ->].
  unfold linked in HK. apply andb_true_iff in HK as [K1 K2]. rewrite forallb_forall in K2. unfold sprog in HS. repeat (apply andb_true_iff in HS as [HS ?]).
  assert (ND : NoDup (dnames ds)) by (apply nodupb_ok; assumption).
  match goal with X : forallb (sdecl W ds) ds = true |- _ => rewrite forallb_forall in X; rename X into SD end.
  destruct (decls_labels W ds _ _ _ E) as (A & [B1 B2] & C & D).
  { split; cbn [ginit glbl gglo]; [unfold init_start_lbl; lia|]. intros f lb t Hf. unfold begin_glo in Hf. cbn [look_fun] in Hf.
    repeat match type of Hf with (if ?b then _ else _) = _ => destruct b; [apply Some_inj, pair_equal_spec in Hf as [<- _]; unfold printf_lbl, free_lbl, malloc_lbl, fgetc_lbl, fclose_lbl, fopen_lbl, getchar_lbl, putchar_lbl, unlink_lbl, seek_lbl, close_lbl, open_lbl, write_lbl, read_lbl, exit_lbl, main_lbl; lia|] end. discriminate. }
  { exact ND. }
  { intros f rt I. specialize (K2 _ I). cbn in K2. apply orb_true_iff in K2 as [K2|K2]; [right|left; now apply memZ_in]. cbn [gglo]. unfold builtin in K2.
    apply andb_true_iff in K2 as [Ka Kb]. apply Z.leb_le in Ka, Kb. assert (Kc : f = 1 \/ f = 2 \/ f = 3 \/ f = 4 \/ f = 5 \/ f = 6 \/ f = 7 \/ f = 8 \/ f = 9 \/ f = 10 \/ f = 11 \/ f = 12 \/ f = 13 \/ f = 14 \/ f = 15 \/ f = 16) by lia.
    repeat destruct Kc as [Kc|Kc]; subst f; discriminate. }
  cbn [glbl ginit gglo] in *. exists (glbl sF + 4). cbn [app].
  assert (P0 : forall x, pend begin_glo (dnames ds) x = n1 x main_lbl).
  { intros x. rewrite pend0, K1; [reflexivity| |exact ND]. apply forallb_forall. intros f Hf. apply in_flat_map in Hf as (d & Hd & Hf). destruct d; try contradiction. destruct Hf as [<-|[]].
    specialize (SD _ Hd). cbn [sdecl] in SD. apply andb_true_iff in SD as [SD _]. apply andb_true_iff in SD as [SD _]. exact SD. }
  split; intros x.
  - cbn [cnt]. rewrite cnt_app, <- (keep_cnt x (codegen_end W sF)), keep_end. specialize (C x). rewrite P0 in C. cbn [cnt].
    unfold ind, n1, init_start_lbl, main_lbl in *. unfold setup_lbl, printf_lbl, free_lbl, malloc_lbl, fgetc_lbl, fclose_lbl, fopen_lbl, getchar_lbl, putchar_lbl, unlink_lbl, seek_lbl, close_lbl, open_lbl, write_lbl, read_lbl, exit_lbl.
    set (gi := if x =? ginit sF then 1 else 0) in *. clearbody gi. clear D B1 B2 K1 K2 SD P0.
    assert (Lo : x < 18 \/ 18 <= x) by lia. destruct Lo as [Lo|Lo].
    + destruct (Z.ltb_spec x 0) as [Lz|Lz].
      * eqs. rewrite !(proj2 (Z.leb_gt _ _)) by lia. rewrite (proj2 (Z.leb_gt 18 x)) in C by lia. cbn [andb] in *. lia.
      * rewrite (proj2 (Z.leb_gt 18 x)) in C by lia. rewrite (proj2 (Z.leb_le 0 x)), (proj2 (Z.ltb_lt x _)) by lia. cbn [andb] in *.
        rewrite !(proj2 (Z.eqb_neq x (glbl sF + _))), (proj2 (Z.eqb_neq x (glbl sF))) by lia.
        assert (Kc : x = 0 \/ x = 1 \/ x = 2 \/ x = 3 \/ x = 4 \/ x = 5 \/ x = 6 \/ x = 7 \/ x = 8 \/ x = 9 \/ x = 10 \/ x = 11 \/ x = 12 \/ x = 13 \/ x = 14 \/ x = 15 \/ x = 16 \/ x = 17) by lia.
        clear - C Kc. repeat destruct Kc as [Kc|Kc]; rewrite Kc in *; cbn [Z.eqb Pos.eqb] in *; lia.
    + rewrite (proj2 (Z.leb_le 18 x)) in C by lia. rewrite (proj2 (Z.leb_le 0 x)) by lia. cbn [andb] in *.
      assert (Y : forall k, 0 <= k < 18 -> x =? k = false) by (intros; apply Z.eqb_neq; lia). rewrite !Y by lia. rewrite !Y in C by lia.
      revert C. bdestr; lia.
  - cbn [used hlabel]. rewrite used_app, <- (keep_used x (codegen_end W sF)), keep_end. cbn [used hlabel].
    unfold init_start_lbl, main_lbl, setup_lbl in *. intros U. repeat match goal with X : _ \/ _ |- _ => destruct X as [X|X] end; try contradiction; try (apply Some_inj in U; lia).
    destruct (D x U) as [|(f & t & G0)]; [lia|]. specialize (B2 _ _ _ G0). lia.
Qed.

(** ** Labels of the assembled program *)
Lemma plain_defs ol l : plain ol l -> defs l = [].
Proof. induction 1 as [|o l H _ IH]; [reflexivity|]. destruct o; try contradiction; exact IH. Qed.
Lemma plain_gdefs ol l : plain ol l -> gdefs l = [].
Proof. induction 1 as [|o l H _ IH]; [reflexivity|]. destruct o; try contradiction; exact IH. Qed.
Lemma defs_app a b : defs (a ++ b) = defs a ++ defs b. Proof. apply flat_map_app. Qed.
Lemma gdefs_app a b : gdefs (a ++ b) = gdefs a ++ gdefs b. Proof. apply flat_map_app. Qed.
Fixpoint hdefs (l : list hop) : list Z := match l with [] => [] | HD x :: r => x :: hdefs r | HC _ :: r => hdefs r end.
Lemma hops_HC h l : hops W (HC h :: l) = emit_of W h ++ hops W l. Proof. reflexivity. Qed.
Lemma hops_HD x l : hops W (HD x :: l) = ODef x :: hops W l. Proof. reflexivity. Qed.
Lemma hops_defs l : defs (hops W l) = hdefs l.
Proof. induction l as [|[h|x] l IH]; [reflexivity| |]. - rewrite hops_HC, defs_app, (plain_defs _ _ (plain_emit W h)), IH. reflexivity. - rewrite hops_HD. cbn [defs flat_map app hdefs]. fold (defs (hops W l)). now rewrite IH. Qed.
Lemma hops_gdefs l : gdefs (hops W l) = [].
Proof. induction l as [|[h|x] l IH]; [reflexivity| |]. - rewrite hops_HC, gdefs_app, (plain_gdefs _ _ (plain_emit W h)), IH. reflexivity. - rewrite hops_HD. exact IH. Qed.
Lemma cnt_hdefs x l : cnt x l = Z.of_nat (count_occ Z.eq_dec (hdefs l) x).
Proof. induction l as [|[h|y] l IH]; cbn [cnt hdefs]; [reflexivity|exact IH|]. cbn [count_occ]. destruct (Z.eqb_spec x y), (Z.eq_dec y x); try congruence; lia. Qed.
Lemma hops_use x l : In (OUse x) (hops W l) -> used x l.
Proof.
  induction l as [|[h|y] l IH]; cbn [used]; [intros []| |].
  - rewrite hops_HC. intros H. apply in_app_iff in H as [H|H]; [left|right; auto]. pose proof (plain_emit W h) as P. unfold plain in P. rewrite Forall_forall in P. exact (P _ H).
  - rewrite hops_HD. intros [H|H]; [discriminate|auto].
Qed.
Lemma hops_nogoto x l : ~ In (OGoto x) (hops W l).
Proof.
  induction l as [|[h|y] l IH]; [intros []| |].
  - rewrite hops_HC. intros H. apply in_app_iff in H as [H|H]; [|auto]. pose proof (plain_emit W h) as P. unfold plain in P. rewrite Forall_forall in P. exact (P _ H).
  - rewrite hops_HD. intros [H|H]; [discriminate|auto].
Qed.
Lemma la_plain ol l x : plain ol l -> forall p r, label_addr W p (l ++ r) x = label_addr W (p + ops_size W l) r x.
Proof. induction 1 as [|o l H _ IH]; intros p r; cbn [app ops_size]; [now rewrite Z.add_0_r|]. destruct o; try contradiction; cbn [label_addr]; rewrite IH; f_equal; lia. Qed.
Lemma la_hops pre x k : forall p, cnt x pre = 0 -> label_addr W p (hops W (pre ++ HD x :: k)) x = Some (p + hsize W pre).
Proof.
  induction pre as [|[h|y] pre IH]; intros p H; cbn [app cnt hsize] in *.
  - rewrite hops_HD. cbn [label_addr]. rewrite Z.eqb_refl. f_equal. lia.
  - rewrite hops_HC, (la_plain _ _ x (plain_emit W h)), IH by exact H. f_equal. unfold ilen. lia.
  - assert (0 <= cnt x pre) by (rewrite cnt_hdefs; lia). rewrite hops_HD. cbn [label_addr]. destruct (x =? y); [lia|]. apply IH. lia.
Qed.
Lemma ga_plain ol l x : plain ol l -> forall p fs r, goto_addr W p fs (l ++ r) x = goto_addr W (p + ops_size W l) fs r x.
Proof. induction 1 as [|o l H _ IH]; intros p fs r; cbn [app ops_size]; [now rewrite Z.add_0_r|]. destruct o; try contradiction; cbn [goto_addr frame_after]; rewrite IH; f_equal; lia. Qed.
Lemma ga_hops l x : forall p fs, goto_addr W p fs (hops W l) x = None.
Proof.
  induction l as [|[h|y] l IH]; intros p fs; [reflexivity| |].
  - rewrite hops_HC, (ga_plain _ _ x (plain_emit W h)). apply IH.
  - rewrite hops_HD. cbn [goto_addr]. apply IH.
Qed.
Lemma la_range l x : forall p a, label_addr W p (hops W l) x = Some a -> p <= a <= p + hsize W l.
Proof.
  induction l as [|[h|y] l IH]; intros p a H; [discriminate| |].
  - rewrite hops_HC, (la_plain _ _ x (plain_emit W h)) in H. apply IH in H. cbn [hsize]. unfold ilen in *. pose proof (NLink.ilen_nonneg W h). unfold ilen in *. lia.
  - rewrite hops_HD in H. cbn [label_addr] in H. cbn [hsize]. destruct (x =? y); [apply Some_inj in H as <-; pose proof (hsize_nonneg W l); lia|]. apply IH in H. exact H.
Qed.
Lemma la_labs l : (forall x, cnt x l <= 1) -> labs_at W (label_addr W 0 (hops W l)) 0 l.
Proof.
  intros H. assert (X : forall k pre, l = pre ++ k -> labs_at W (label_addr W 0 (hops W l)) (hsize W pre) k).
  { induction k as [|[h|x] k IH]; intros pre E; cbn [labs_at]; [exact I| |].
    - replace (hsize W pre + ilen W h) with (hsize W (pre ++ [HC h])). { apply IH. rewrite <- app_assoc. exact E. }
      clear. induction pre as [|[g|y] pre IH]; cbn [app hsize]; lia.
    - split.
      + pose proof (H x) as Hx. rewrite E, cnt_app in Hx. cbn [cnt] in Hx. rewrite Z.eqb_refl in Hx. assert (0 <= cnt x k) by (rewrite cnt_hdefs; lia). assert (0 <= cnt x pre) by (rewrite cnt_hdefs; lia).
        rewrite E, la_hops by lia. f_equal.
      + replace (hsize W pre) with (hsize W (pre ++ [HD x])). { apply IH. rewrite <- app_assoc. exact E. }
        clear. induction pre as [|[g|y] pre IH]; cbn [app hsize]; lia. }
  apply (X l []). reflexivity.
Qed.
(** Immediate operands and offsets fit 32 bits, and the registers can be encoded. *)
Definition irb (n : Z) : bool := (-2147483648 <=? n) && (n <=? 2147483647).
Definition regb (r : Z) : bool := (0 <=? r) && (r <? if W =? 8 then 16 else 8).
Definition reg8 (r : Z) : bool := (0 <=? r) && (r <? 8).
Definition validb (h : hcall) : bool :=
  match h with
  | HAlu _ d s | HImul d s => regb d && regb s
  | HAddImm d n | HMovImm d n => regb d && irb n
  | HAddLbl d _ | HMovLarge d _ _ | HIdiv d | HDiv d | HShift _ d => regb d
  | HStore w b o s => irb o && ((w =? W) && regb b && regb s || (w =? 1) && reg8 b && (0 <=? s) && (s <? 4) || ((w =? 2) || (w =? 4)) && reg8 b && reg8 s)
  | HLoad sg w d b o => irb o && (((w =? 1) || (w =? 2) || (w =? W)) && regb d && regb b && (negb (w =? 4) || negb sg) ||
       (w =? 4) && (W =? 8) && if sg then regb d && regb b else reg8 d && reg8 b)
  | HCdq | HRet | HJump _ | HCall _ => true
  | HPush r | HPop r | HCallR r => reg8 r
  | HJcc c _ => (0 <=? c) && (c <? 16)
  | HInt n => (0 <=? n) && (n <? 256)
  | HSyscall => W =? 8
  end.
Definition encodable (code : list hop) : bool := forallb (fun o => match o with HC h => validb h | HD _ => true end) code.
Lemma validb_ok h : validb h = true -> valid W h.
Proof.
  destruct h; cbn [validb valid]; unfold regb, reg8, irb, is_reg, int_range; intros H;
  repeat match goal with
  | H : _ && _ = true |- _ => apply andb_true_iff in H as [? ?]
  | H : _ || _ = true |- _ => apply orb_true_iff in H as [H|H]
  | H : (_ <=? _) = true |- _ => apply Z.leb_le in H
  | H : (_ <? _) = true |- _ => apply Z.ltb_lt in H
  | H : (_ =? _) = true |- _ => apply Z.eqb_eq in H
  | H : negb _ = true |- _ => apply negb_true_iff in H
  | H : (_ =? _) = false |- _ => apply Z.eqb_neq in H
  | H : (if ?s then _ else _) = true |- _ => destruct s
  end; subst; auto; try (split; lia); try lia.
  all: split; [lia|].
  all: try (left; repeat split; auto; lia).
  all: try (right; left; repeat split; auto; lia).
  all: try (right; right; repeat split; auto; lia).
  all: try (right; repeat split; auto; lia).
  all: try (left; repeat split; auto; try lia; intros; congruence).
Qed.

Theorem program_placed ds code sF cb : codegen_prog W ds = Some (code, sF) -> sprog W ds = true -> linked ds = true -> encodable code = true ->
  ops_size W (hops W code) <= MAX_CODE_SIZE ->
  labels_ok W (hops W code) /\ placed W cb (assemble W (hops W code)) (label_addr W 0 (hops W code)) 0 code.
Proof.
  intros Hc HS HK HE HM. destruct (prog_labels ds code sF Hc HS HK) as (n & Hn & Hu).
  assert (C1 : forall x, cnt x code <= 1) by (intros x; rewrite Hn; unfold ind; destruct (_ && _); lia).
  assert (Hp : exists k, code = HC (HJump setup_lbl) :: k).
  { unfold codegen_prog, codegen_begin in Hc. destruct (codegen_decls W ds _) as [[c s]|]; [|discriminate]. apply Some_inj, pair_equal_spec in Hc as [<- _]. eexists. reflexivity. }
  destruct Hp as [k Ek].
  assert (Pos : forall x a, label_addr W 0 (hops W code) x = Some a -> 0 < a).
  { intros x a Ha. rewrite Ek, hops_HC, (la_plain _ _ x (plain_emit W _)) in Ha. apply la_range in Ha. assert (0 < ops_size W (emit_of W (HJump setup_lbl))) by (destruct HW as [-> | ->]; reflexivity). lia. }
  assert (Def : forall x, used x code -> label_addr W 0 (hops W code) x <> None).
  { intros x U. specialize (Hu x U). assert (C : cnt x code = 1) by (rewrite Hn; unfold ind; bdestr; cbn [andb]; lia).
    destruct (label_addr_def W (hops W code) 0 x) as [a Ha]; [|congruence]. rewrite hops_defs. rewrite cnt_hdefs in C. apply (count_occ_In Z.eq_dec). lia. }
  split.
  - refine (conj _ (conj _ (conj _ (conj _ (conj _ _))))).
    + intros x U. apply hops_use in U. specialize (Hu x U). rewrite hops_defs. assert (C : cnt x code = 1) by (rewrite Hn; unfold ind; bdestr; cbn [andb]; lia).
      rewrite cnt_hdefs in C. apply (count_occ_In Z.eq_dec). lia.
    + intros x U. destruct (hops_nogoto _ _ U).
    + rewrite hops_defs. apply (NoDup_count_occ Z.eq_dec). intros x. specialize (C1 x). rewrite cnt_hdefs in C1. lia.
    + rewrite hops_gdefs. constructor.
    + exact Pos.
    + intros x a f Ha. rewrite ga_hops in Ha. discriminate.
  - eapply placed_link with (glab := goto_addr W 0 0 (hops W code)) (pre := []) (fs := 0) (post := []); [exact HW|reflexivity| |apply la_labs, C1| | |rewrite app_nil_r; reflexivity].
    + apply Forall_forall. intros [h|x] Hin; cbn [hop_ok]; [|exact I]. split.
      * unfold encodable in HE. rewrite forallb_forall in HE. apply validb_ok. exact (HE _ Hin).
      * intros l Hl. apply Def. clear - Hin Hl. induction code as [|[g|y] c IH]; cbn [used]; [destruct Hin| |]; destruct Hin as [E|Hin]; auto; [|discriminate]. injection E as ->. auto.
    + rewrite <- hsize_ops. unfold MAX_CODE_SIZE in HM. lia.
    + intros x a Ha. apply la_range in Ha. rewrite <- hsize_ops in Ha. unfold MAX_CODE_SIZE in HM. lia.
Qed.
End X.

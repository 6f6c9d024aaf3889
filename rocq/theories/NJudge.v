(** * What is proved about generated code: one judgment per code generation function *)
From Coq Require Import ZArith List Lia Bool.
From Verif Require Import Base Asm AsmProof X86 X86Proof X86Sem NMach NPtr CLang NGen NSupp NBin NRun NBop NEqs NStat.
Import ListNotations.
Open Scope Z_scope.

Section J.
Variables (W slim STOP cb GB : Z) (bytes : list Z) (lab : Z -> option Z).
Variables (funs : cdecls) (gvars : list (Z * (Z * ty))) (glo : list gbnd) (F : mst -> Prop) (mp : list Z).
Notation placed := (placed W cb bytes lab).
Notation hsize := (hsize W).
Notation wp := (wp W slim).
Notation MOD := (MOD W).
Notation St := (St W slim STOP cb GB bytes).
Notation ce := (ce W funs gvars).
Notation cl := (cl W funs gvars).
Notation cargs := (cargs W funs gvars).
Notation ccall := (ccall W funs gvars).

(** Where the code looks for a variable. *)
Definition at_var (loc : list bnd) (fp x a : Z) (t : ty) : Prop :=
  (exists y off, look_loc x loc = Some (BParam y off t) /\ is_arr t = false /\ a = fp - off * W) \/
  (exists y off, look_loc x loc = Some (BLocal y off t) /\ a = fp - off * W) \/
  (look_loc x loc = None /\ exists off, look_glo x glo = Some (off, t) /\ a = GB + off).
Definition VR (V : list (Z * (Z * ty))) (loc : list bnd) (fp : Z) : Prop :=
  forall x a t, lookupZ V x = Some (a, t) -> at_var loc fp x a t /\ 0 <= a < MOD.

Definition mok (m : mode) : Prop := match m with Mod k => 0 <= k <= W | Truth => True end.
Definition kof (m : mode) : Z := match m with Mod k => k | Truth => W end.
Definition vok (E : env) (e : expr) (v : Z) : Prop :=
  (forall t, ctype W funs (tys (vars E)) e = Some t -> inr_ W t v) /\ (boolish e = true -> v = 0 \/ v = 1).

Definition EX (k : nat) (e : expr) : Prop := forall E s Q m loc fp fs lb u code st' base ws m0 r mm p f,
  ce k E e s Q -> supp W funs (tys (vars E)) m e = true -> mok m ->
  codegen_rvalue W glo loc e (fs, lb) = Some (u, code, st') -> VR (vars E) loc fp -> placed p code ->
  St (live E) (cmem s) base ws m0 r mm -> fp = base - W * zlen ws + W * fs ->
  (forall v s' w r' m' f', Q v s' -> vok E e v -> rep m w v -> St (live E) (cmem s') base (w :: ws) m0 r' m' ->
     wp F (MS r' m' (cb + (p + hsize code)) f' (cout s') (cin s') mp)) ->
  wp F (MS r mm (cb + p) f (cout s) (cin s) mp).
Definition LX (k : nat) (e : expr) : Prop := forall E s Q loc fp fs lb u code st' base ws m0 r mm p f,
  cl k E e s Q -> slv W funs (tys (vars E)) e = true ->
  codegen_lvalue W glo loc e (fs, lb) = Some (u, code, st') -> VR (vars E) loc fp -> placed p code ->
  St (live E) (cmem s) base ws m0 r mm -> fp = base - W * zlen ws + W * fs ->
  (forall a s' r' m' f', Q a s' -> 0 <= a < MOD -> St (live E) (cmem s') base (a :: ws) m0 r' m' ->
     wp F (MS r' m' (cb + (p + hsize code)) f' (cout s') (cin s') mp)) ->
  wp F (MS r mm (cb + p) f (cout s) (cin s) mp).
Fixpoint arep (ts : list ty) (vs ws : list Z) : Prop :=
  match ts, vs, ws with
  | [], [], [] => True
  | t :: ts, v :: vs, w :: ws => rep (Mod (csize W t)) w v /\ arep ts vs ws
  | _, _, _ => False
  end.
Definition AX (k : nat) (l : args) : Prop := forall E s Q ts loc fp fs lb u code st' base ws m0 r mm p f,
  cargs k E l s Q -> sargs W funs (tys (vars E)) ts l = true ->
  codegen_params W glo loc l (fs, lb) = Some (u, code, st') -> VR (vars E) loc fp -> placed p code ->
  St (live E) (cmem s) base ws m0 r mm -> fp = base - W * zlen ws + W * fs ->
  (forall vs s' ws' r' m' f', Q vs s' -> arep ts vs ws' -> St (live E) (cmem s') base (ws' ++ ws) m0 r' m' ->
     wp F (MS r' m' (cb + (p + hsize code)) f' (cout s') (cin s') mp)) ->
  wp F (MS r mm (cb + p) f (cout s) (cin s) mp).
(** Calls: how much of the result is meaningful, and the parameter types. *)
Definition fk (f : Z) : Z := match funs f with Some (FUser _ TVoid _) => 0 | Some FPutchar => 1 | _ => W end.
Definition ptys (f : Z) : list ty := match funs f with Some (FUser ps _ _) => map snd ps | Some FPutchar => [TInt 1 true] | _ => [] end.
Definition rty (f : Z) : ty := match funs f with Some (FUser _ r _) => r | _ => tint end.
Definition CX (k : nat) : Prop := forall L g vs s Q lb t a base ra ws' ws m0 r mm f,
  ccall k L g vs s Q -> look_fun g glo = Some (lb, t) -> lab lb = Some a -> arep (ptys g) vs ws' ->
  St L (cmem s) base (ra :: ws' ++ ws) m0 r mm ->
  (forall v s' ws'' r' m' f', Q v s' -> zlen ws'' = zlen ws' -> inr_ W (rty g) v -> rep (Mod (fk g)) (r' 0) v ->
     St L (cmem s') base (ws'' ++ ws) m0 r' m' -> wp F (MS r' m' ra f' (cout s') (cin s') mp)) ->
  wp F (MS r mm (cb + a) f (cout s) (cin s) mp).
End J.

(** ** Tactics for the proofs *)
Lemma load_inv W dst b off w sg s u c s2 : load_mem_location W dst b off w sg s = Some (u, c, s2) ->
  c = [HC (HLoad (sg && negb (w =? W)) w dst b off)] /\ okw W w = true /\ s2 = s.
Proof. unfold load_mem_location. destruct (okw W w); [|discriminate]. intros H. apply emit_inv in H as [-> ->]. repeat split; reflexivity. Qed.
Lemma write_inv W b off src w s u c s2 : write_mem_location W b off src w s = Some (u, c, s2) ->
  c = [HC (HStore w b off src)] /\ okw W w = true /\ s2 = s.
Proof. unfold write_mem_location. destruct ((w <=? W) && okw W w) eqn:E; [|discriminate]. apply andb_true_iff in E as [_ ->]. intros H. apply emit_inv in H as [-> ->]. repeat split; reflexivity. Qed.
Ltac ap R := (eapply R; [eassumption|eassumption| |eassumption|..]); [eassumption|..].
Ltac side := first [discriminate | lia | assumption].
(** Start of a case: unfold the C judgment, the static check and the code. *)
Ltac case0 :=
  intros E s Q m loc fp fs lb u code st' base ws m0 r mm p f HC HS Hm HG HV Hp H Hfp K;
  rewrite ce_eq in HC; rewrite supp_eq in HS; rewrite codegen_rvalue_eq in HG;
  unfold ce_body, supp_body, codegen_rvalue_body in HC, HS, HG; cbv beta iota zeta in HC, HS, HG;
  destruct st' as [? ?]; try (match goal with |- X86Sem.wp ?W _ _ _ => fold (kof W m) in HS end).
Ltac norm Hp := repeat rewrite <- app_assoc in Hp; cbn [app] in Hp.
Tactic Notation "tpush" ident(H) ident(Hp) ident(r') ident(m') ident(Eq) :=
  ap r_push; [exact H|exact Hp|]; clear H; intros r' m' H Eq; nx Hp.
Tactic Notation "tpop" ident(H) ident(Hp) ident(r') ident(E0) ident(Eq) :=
  ap r_pop; [exact H|exact Hp|side|side|]; clear H; intros r' H E0 Eq; nx Hp.
Tactic Notation "tmovi" ident(H) ident(Hp) ident(r') ident(E0) ident(Eq) :=
  ap r_movi; [exact H|exact Hp|side|side|]; clear H; intros r' H E0 Eq; nx Hp.
Tactic Notation "tmov" ident(H) ident(Hp) ident(r') ident(E0) ident(Eq) :=
  ap r_mov; [exact H|exact Hp|side|side|]; clear H; intros r' H E0 Eq; nx Hp.
Tactic Notation "talu" ident(H) ident(Hp) ident(r') ident(E0) ident(Eq) :=
  ap r_alu; [exact H|exact Hp|side|side|reflexivity|]; clear H; intros r' H E0 Eq; nx Hp.

Ltac mj1 := match goal with
  | H : load_mem_location _ _ _ _ _ _ _ = Some _ |- _ => apply load_inv in H; destruct H as (-> & ? & H)
  | H : write_mem_location _ _ _ _ _ _ = Some _ |- _ => apply write_inv in H; destruct H as (-> & ? & H)
  | _ => mi1 end.
Ltac mj := repeat mj1.
Ltac apx R := (eapply R; [eassumption|eassumption| |eassumption|eassumption|eassumption|..]); [eassumption|..].

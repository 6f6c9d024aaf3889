(** * C34, C35, C48: native programs run as C says

    The C semantics is in CLang and CProg; the machine in X86Sem; the compiler in NGen, NRt and NProg; the covered
    fragment in NSupp ([supp], [ss]) and NWhole ([sprog]). *)
From Coq Require Import ZArith List Lia Bool.
From Verif Require Import Base Asm AsmProof Elf PropAsm X86 X86Proof X86Sem NMach NPtr CLang CProg NGen NSupp NBin NRun NBop NEqs NStat NStat2 NJudge NExpr NExpr4 NStmt NCall NLink NRt NMain NProg NMono NLab NSetup NWhole NWhole2 NWhole3 NWhole4 NWhole5.
Import ListNotations.
Open Scope Z_scope.

(** The program [ds] has been compiled: it is in the covered fragment, every function it declares is defined, immediate
    operands and frame offsets fit 32 bits, and the code fits the code buffer; [code] are the calls of the x86 helpers
    and label definitions, in order, [sF] the final state of the compiler, [bytes] the machine code. *)
Record compiled (W : Z) (ds : list gdecl) (code : list hop) (sF : gst) (bytes : list Z) : Prop := {
  cp_word : W = 4 \/ W = 8;
  cp_code : codegen_prog W ds = Some (code, sF);
  cp_frag : sprog W ds = true;
  cp_link : linked ds = true;
  cp_enc : encodable W code = true;
  cp_size : ops_size W (hops W code) <= MAX_CODE_SIZE;
  cp_bytes : bytes = assemble W (hops W code) }.
Definition labs (W : Z) (code : list hop) : Z -> option Z := label_addr W 0 (hops W code).

Lemma compiled_placed W ds code sF bytes cb : compiled W ds code sF bytes -> placed W cb bytes (labs W code) 0 code.
Proof. intros []. subst bytes. eapply program_placed; eassumption. Qed.

(** Running the machine for [k] steps. *)
Fixpoint run (W slim : Z) (k : nat) (s : mst) : outcome :=
  match k with O => Next s | S k => match step W slim s with Next s' => run W slim k s' | r => r end end.
Lemma wp_run W slim Q s : wp W slim Q s -> exists k, run W slim k s = Over \/ exists s', run W slim k s = Next s' /\ Q s'.
Proof.
  induction 1 as [s H|s s' H _ [k IH]|s H].
  - exists 0%nat. right. exists s. auto.
  - exists (S k). cbn [run]. rewrite H. exact IH.
  - exists 1%nat. left. cbn [run]. rewrite H. reflexivity.
Qed.
Lemma run_snoc W slim k : forall s s', run W slim k s = Next s' -> run W slim (S k) s = step W slim s'.
Proof.
  induction k as [|k IH]; intros s s' H; cbn [run] in *.
  - injection H as ->. destruct (step W slim s'); reflexivity.
  - destruct (step W slim s); try discriminate. apply IH in H. exact H.
Qed.

(** ** C48: whole programs *)
(** A process that has just been started: [La] are the blocks of memory that hold the arguments and the environment. *)
Record started (W : Z) (bytes : list Z) (alloc cb slim sp0 GB HB : Z) (La : list (Z * Z)) (argc : Z) (inp : list Z) (s : mst) : Prop := {
  sd_lay : layout W cb (zlen bytes) slim sp0 GB alloc HB La;
  sd_regs : regs_ok W (rg s);
  sd_mem : bytes_ok (mm s);
  sd_code : at_ (mm s) cb bytes;
  sd_pc : pc s = cb;
  sd_sp : rg s 4 = sp0;
  sd_argc : rd (Wn W) (mm s) sp0 = argc;
  sd_out : outp s = [];
  sd_in : X86Sem.inp s = inp;
  sd_maps : maps s = [GB; HB] }.

(** If C says that the program, given its arguments and standard input, ends with a status and an output satisfying [Q],
    the machine exits with such a status and output, or runs out of stack. *)
Theorem c48_native_program_partial : forall W ds code sF bytes, compiled W ds code sF bytes -> galloc sF < 2 ^ 31 ->
  forall cb slim sp0 GB HB La argc inp s, started W bytes (galloc sF) cb slim sp0 GB HB La argc inp s ->
  forall n Q, cprog W ds n La (mm s) argc (sp0 + W) inp (fun c st => Q c (cout st)) ->
  exists k, run W slim k s = Over \/ exists c s', run W slim k s = Exit c s' /\ Q c (outp s').
Proof.
  intros W ds code sF bytes HC HA cb slim sp0 GB HB La argc inp s [S1 S2 S3 S4 S5 S6 S7 S8 S9 S10] n Q HQ.
  destruct s as [r m q f o i mp]. cbn [rg mm pc outp X86Sem.inp maps] in *. subst q o i mp.
  pose proof (compiled_placed _ _ _ _ _ cb HC) as HP. destruct HC as [C1 C2 C3 C4 C5 C6 C7].
  pose proof (prog_run W cb bytes (labs W code) ds code sF slim sp0 GB HB La C1 C2 C3 HP S1 HA n argc m inp r f Q S2 S3 S4 S6 S7 HQ) as H.
  rewrite Z.add_0_r in H. apply wp_run in H as (k & [H|(s' & H & c & s'' & Hs & HQ')]); [exists k; auto|].
  exists (S k). right. exists c, s''. split; [|exact HQ']. rewrite (run_snoc _ _ _ _ _ H). exact Hs.
Qed.
(** The same for the file the compiler writes: it is an ELF executable whose entry point is at the code. *)
Theorem c48_native_file_partial : forall (w64 : bool) ds code sF bytes, compiled (if w64 then 8 else 4) ds code sF bytes ->
  exists st, do_ops (if w64 then 8 else 4) as0 (hops (if w64 then 8 else 4) code) = Some st /\
    let file := elf_file w64 (map (fun i => Asm.code st (Z.of_nat i)) (seq 0 (Z.to_nat (ca st)))) in
    loads w64 ((if w64 then read_elf64 else read_elf32) file) file bytes.
Proof.
  intros w64 ds code sF bytes HC. destruct HC as [C1 C2 C3 C4 C5 C6 C7]. rewrite C7.
  destruct (program_placed _ C1 ds code sF 0 C2 C3 C4 C5 C6) as [HL _]. exact (c37_program_file w64 _ HL C6).
Qed.

(** ** C34: expressions *)
(** Where the process is while the program runs: the stack lies between [slim] and [STOP], the global variables
    [gvars] are at the offsets the compiler gave them from [GB]. *)
Record running (W slim STOP cb GB : Z) (bytes : list Z) (ds : list gdecl) (sF : gst) (gvars : list (Z * (Z * ty))) : Prop := {
  ru_slim : 0 < slim;
  ru_stop : STOP < MOD W;
  ru_dis : STOP <= cb \/ cb + zlen bytes <= slim;
  ru_code : 0 <= cb /\ cb + zlen bytes <= MOD W;
  ru_tys : tys gvars = gtys ds [];
  ru_glo : forall x a t, lookupZ gvars x = Some (a, t) -> exists off, look_glo x (gglo sF) = Some (off, t) /\ a = GB + off /\ 0 <= a < MOD W }.

Section Run.
Variables (W slim STOP cb GB : Z) (bytes : list Z) (ds : list gdecl) (code : list hop) (sF : gst) (gvars : list (Z * (Z * ty))).
Hypothesis HC : compiled W ds code sF bytes.
Hypothesis HR : running W slim STOP cb GB bytes ds sF gvars.
Notation lab := (labs W code).
Notation glo := (gglo sF).
Notation St := (St W slim STOP cb GB bytes).

(** The code for an expression, started in a machine state that agrees with the C state [s], reaches its end with one
    word more on the stack, which is the C value modulo [2^(8k)]; the frame size the compiler computed is one more too. *)
Theorem c34_expression_partial : forall n E e s Q k loc fp fs lb u c st' base ws m0 r m p f mp,
  ce W (cfuns ds) gvars n E e s Q -> 0 <= k <= W -> supp W (cfuns ds) (tys (vars E)) (Mod k) e = true ->
  codegen_rvalue W glo loc e (fs, lb) = Some (u, c, st') -> VR W GB glo (vars E) loc fp -> placed W cb bytes lab p c ->
  St (live E) (cmem s) base ws m0 r m -> fp = base - W * zlen ws + W * fs ->
  fst st' = fs + 1 /\
  wp W slim (fun t => exists v s' w, Q v s' /\ w mod 2 ^ (8 * k) = v mod 2 ^ (8 * k) /\ pc t = cb + (p + hsize W c) /\
      outp t = cout s' /\ inp t = cin s' /\ maps t = mp /\ St (live E) (cmem s') base (w :: ws) m0 (rg t) (mm t))
    (MS r m (cb + p) f (cout s) (cin s) mp).
Proof.
  intros n E e s Q k loc fp fs lb u c st' base ws m0 r m p f mp H1 Hk H2 H3 H4 H5 H6 H7.
  pose proof (compiled_placed _ _ _ _ _ cb HC) as HP. destruct HC as [C1 C2 C3 C4 C5 C6 C7]. destruct HR as [R1 R2 R3 R4 R5 R6].
  assert (HVR : VR W GB glo gvars [] 0). { intros x a t Hx. destruct (R6 x a t Hx) as (off & X1 & X2 & X3). split; [|exact X3]. right; right. split; [reflexivity|]. exists off. auto. }
  split.
  - destruct st' as [fs' lb']. cbn [fst]. eapply rv_fs; [exact C1| |exact (HFF W cb bytes lab ds code sF C1 C2 C3 HP)|exact H2|exact H3]. 
    intros x t Hx. eapply (VR_ty W slim STOP cb GB bytes (cfuns ds)); [exact C1|exact R1|exact R2|exact R3|exact R4|exact (HFF W cb bytes lab ds code sF C1 C2 C3 HP)|exact H4|exact Hx].
  - eapply (EX_all W slim STOP cb GB bytes lab (cfuns ds) gvars glo _ mp C1 R1 R2 R3 R4 (HFF W cb bytes lab ds code sF C1 C2 C3 HP) (HUU W cb bytes lab ds code sF C1 C2 C3 HP gvars R5)
      (HRR W cb bytes lab ds code sF C1 C2 C3 HP) HVR (ND W cb bytes lab ds code sF C1 C2 C3 HP) n e E s Q (Mod k)); try eassumption.
    intros v s' w r' m' f' HQ _ Hrep HS. apply wp_now. exists v, s', w. cbn [pc outp inp maps rg mm]. repeat (split; [assumption || reflexivity|]). exact HS.
Qed.

(** ** C35: statements and functions *)
(** The code for a statement in a function with result type [rt], started with the stack pointer at [base], reaches:
    its end, with the stack pointer at [base] again, if C completes the statement normally; the target of the enclosing
    loop or switch, with the stack as high as it was there, if C breaks out of it or continues; the caller of the
    function, with the stack as high as before the call's return address, and the result in X, if C returns. *)
Definition left (rt : ty) (L : list (Z * Z)) (loc : list bnd) (fp base : Z) (m0 : Z -> Z) (end_ : Z) (mp : list Z) (o : out) (s : cst) (t : mst) : Prop :=
  outp t = cout s /\ inp t = cin s /\ maps t = mp /\
  match o with
  | ONormal => pc t = cb + end_ /\ St L (cmem s) base [] m0 (rg t) (mm t)
  | OBreak => exists bfs bl al, encl_any loc = Some (bfs, bl) /\ lab bl = Some al /\ pc t = cb + al /\ rg t 4 = fp - W * bfs /\ Xt W slim cb GB bytes L (cmem s) base m0 (rg t) (mm t)
  | OContinue => exists bfs bl al, encl_loop loc = Some (bfs, bl) /\ lab bl = Some al /\ pc t = cb + al /\ rg t 4 = fp - W * bfs /\ Xt W slim cb GB bytes L (cmem s) base m0 (rg t) (mm t)
  | OReturn v => pc t = rd (Wn W) (mm t) fp /\ rg t 4 = fp + W /\ (rt <> TVoid -> rg t 0 = conv W rt v mod MOD W) /\ Xt W slim cb GB bytes L (cmem s) base m0 (rg t) (mm t)
  end.
Theorem c35_statement_partial : forall n E c s Q rt cont loc fp fs lb u code' st' base m0 r m p f mp,
  cs W (cfuns ds) gvars n E c s Q -> ss W (cfuns ds) (tys (vars E)) rt cont c = true ->
  codegen_statement W glo loc c (fs, lb) = Some (u, code', st') -> VR W GB glo (vars E) loc fp -> placed W cb bytes lab p code' ->
  St (live E) (cmem s) base [] m0 r m -> fp = base + W * fs -> 0 <= fs -> fp + W < MOD W ->
  (forall bfs bl, encl_any loc = Some (bfs, bl) -> 0 <= bfs) -> (forall bfs bl, encl_loop loc = Some (bfs, bl) -> 0 <= bfs) ->
  fst st' = fs /\
  wp W slim (fun t => exists o s', Q o s' /\ left rt (live E) loc fp base m0 (p + hsize W code') mp o s' t) (MS r m (cb + p) f (cout s) (cin s) mp).
Proof.
  intros n E c s Q rt cont loc fp fs lb u code' st' base m0 r m p f mp H1 H2 H3 H4 H5 H6 H7 H8 H9 N1 N2.
  pose proof (compiled_placed _ _ _ _ _ cb HC) as HP. destruct HC as [C1 C2 C3 C4 C5 C6 C7]. destruct HR as [R1 R2 R3 R4 R5 R6].
  assert (HVR : VR W GB glo gvars [] 0). { intros x a t Hx. destruct (R6 x a t Hx) as (off & X1 & X2 & X3). split; [|exact X3]. right; right. split; [reflexivity|]. exists off. auto. }
  pose proof (HFF W cb bytes lab ds code sF C1 C2 C3 HP) as HF0. split.
  - destruct (stmt_fs W (cfuns ds) glo C1 HF0) as (A & _ & _). change fs with (fst (fs, lb)). eapply A; [|exact H2|exact H3]. intros x t Hx. eapply (VR_ty W slim STOP cb GB bytes (cfuns ds)); eassumption.
  - match goal with |- wp _ _ ?F _ => pose proof (PK_all W slim STOP cb GB bytes lab (cfuns ds) gvars glo F mp C1 R1 R2 R3 R4 HF0 (HUU W cb bytes lab ds code sF C1 C2 C3 HP gvars R5) (HRR W cb bytes lab ds code sF C1 C2 C3 HP) HVR n) as (SX & _) end.
    eapply SX; try eassumption.
    + refine (conj N1 (conj N2 (conj _ (conj _ _)))).
      * intros s' r' m' f' bfs bl al HQ X1 X2 X3 X4. apply wp_now. exists OBreak, s'. split; [exact HQ|]. unfold left. cbn [pc outp inp maps rg mm]. do 3 (split; [reflexivity|]). exists bfs, bl, al. auto.
      * intros _ s' r' m' f' bfs bl al HQ X1 X2 X3 X4. apply wp_now. exists OContinue, s'. split; [exact HQ|]. unfold left. cbn [pc outp inp maps rg mm]. do 3 (split; [reflexivity|]). exists bfs, bl, al. auto.
      * intros v s' r' m' f' HQ X1 X2 X3 X4. apply wp_now. exists (OReturn v), s'. split; [exact HQ|]. unfold left. cbn [pc outp inp maps rg mm]. do 3 (split; [reflexivity|]). split; [reflexivity|]. split; [exact X2|]. split; [|exact X1].
        intros Hv. assert (Rk W rt = W) by (destruct rt; try reflexivity; congruence). rewrite H in X3. cbn [rep] in X3. unfold eqm in X3. change (2 ^ (8 * W)) with (MOD W) in X3. rewrite <- X3. symmetry. apply Z.mod_small. apply X1.
    + intros s' r' m' f' HQ HS. apply wp_now. exists ONormal, s'. split; [exact HQ|]. unfold left. cbn [pc outp inp maps rg mm]. do 3 (split; [reflexivity|]). auto.
Qed.
(** A call of one of the program's functions, entered with the return address and the arguments on the stack: it returns,
    leaving the arguments on the stack, with the result in X. *)
Theorem c35_call_partial : forall g ps rt body lb t a n L vs ws' ws s Q base ra m0 r m f mp,
  cfuns ds g = Some (FUser ps rt body) -> look_fun g glo = Some (lb, t) -> lab lb = Some a ->
  bindp W ps vs gvars L (cmem s) (fun V L m => ci W (cfuns ds) gvars n (Env V L) body (setmem s m) (fun o s =>
    match o with OReturn v => Q (conv W rt v) s | ONormal => rt = TVoid /\ Q 0 s | _ => False end)) ->
  arep W (map snd ps) vs ws' -> St L (cmem s) base (ra :: ws' ++ ws) m0 r m ->
  wp W slim (fun t => exists v s' ws'', Q v s' /\ (rt <> TVoid -> rg t 0 = v mod MOD W) /\ zlen ws'' = zlen ws' /\ pc t = ra /\
      outp t = cout s' /\ inp t = cin s' /\ maps t = mp /\ St L (cmem s') base (ws'' ++ ws) m0 (rg t) (mm t))
    (MS r m (cb + a) f (cout s) (cin s) mp).
Proof.
  intros g ps rt body lb t a n L vs ws' ws s Q base ra m0 r m f mp Hg Hl Ha HB HAr HS.
  pose proof (compiled_placed _ _ _ _ _ cb HC) as HP. destruct HC as [C1 C2 C3 C4 C5 C6 C7]. destruct HR as [R1 R2 R3 R4 R5 R6].
  assert (HVR : VR W GB glo gvars [] 0). { intros x b u Hx. destruct (R6 x b u Hx) as (off & X1 & X2 & X3). split; [|exact X3]. right; right. split; [reflexivity|]. exists off. auto. }
  pose proof (HFF W cb bytes lab ds code sF C1 C2 C3 HP) as HF0. pose proof (HUU W cb bytes lab ds code sF C1 C2 C3 HP gvars R5) as HU0.
  destruct (HU0 g ps rt body lb t Hg Hl) as (F1 & F2 & F3).
  match goal with |- wp _ _ ?F _ => pose proof (PK_all W slim STOP cb GB bytes lab (cfuns ds) gvars glo F mp C1 R1 R2 R3 R4 HF0 HU0 (HRR W cb bytes lab ds code sF C1 C2 C3 HP) HVR n) as (_ & IX & _);
    eapply (c_fun W slim STOP cb GB bytes lab (cfuns ds) gvars glo F mp C1 R1 R2 R3 R4 HF0 n ps rt body lb F1 F2 F3 HVR (IX body)) end; [exact HB|exact Ha|exact HAr|exact HS|].
  intros v s' ws'' r' m' f' HQ Hlen Hin Hrep HS'. apply wp_now. exists v, s', ws''. cbn [pc outp inp maps rg mm].
  split; [exact HQ|]. split; [|auto 8]. intros Hv. assert (Rk W rt = W) by (destruct rt; try reflexivity; congruence). rewrite H in Hrep. cbn [rep] in Hrep. unfold eqm in Hrep.
  change (2 ^ (8 * W)) with (MOD W) in Hrep. rewrite <- Hrep. symmetry. apply Z.mod_small. apply HS'.
Qed.
End Run.

(* C21: calls do not disturb the caller's locals.
   Specification: a C-like semantics in which every call has its own frame.
   Theorem: whatever the generated shell code is (let/endlet or set variant),
   a call that C defines leaves every local variable and temporary of every
   active function as it was (except the one receiving the result), updates
   globals and memory cells exactly as C does, and delivers C's result. *)
From Coq Require Import ZArith List String Bool Lia.
From Verif Require Import Base ShLocals.
Import ListNotations.
Local Notation length := List.length.
Open Scope Z_scope.

(* ================= specification: C with one frame per call ================= *)
(* None: not a variable of the function; Some None: not yet assigned. *)
Definition frame := fvar -> option (option Z).
Definition globs := gvar -> Z.
Definition fset (f : frame) (x : fvar) (v : Z) : frame :=
  fun y => if fvar_eqb y x then Some (Some v) else f y.
Definition gset (g : globs) (x : gvar) (v : Z) : globs :=
  fun y => if gvar_eqb y x then v else g y.

Fixpoint ceval (f : frame) (g : globs) (e : ex) : option Z :=
  match e with
  | EInt z => Some z
  | EVar x => match f x with Some (Some v) => Some v | _ => None end
  | EGlo x => Some (g (GV x))
  | ECell e => match ceval f g e with Some a => Some (g (GC a)) | None => None end
  | EOp o a b => match ceval f g a with
                 | Some x => match ceval f g b with Some y => o x y | None => None end
                 | None => None end
  end.
Fixpoint cevals f g (l : list ex) : option (list Z) :=
  match l with
  | [] => Some []
  | e :: t => match ceval f g e with
              | Some v => match cevals f g t with Some vs => Some (v :: vs) | None => None end
              | None => None end
  end.
(* where an assignment goes *)
Inductive dest := DVar (x : fvar) | DGlo (x : gvar) | DNone.
Definition cdest f g (l : lv) : option dest :=
  match l with
  | LVar x => match f x with Some _ => Some (DVar x) | None => None end
  | LGlo x => Some (DGlo (GV x))
  | LCell e => match ceval f g e with Some a => Some (DGlo (GC a)) | None => None end
  | LNone => Some DNone
  end.
Definition store_to (d : dest) (v : Z) (f : frame) (g : globs) : frame * globs :=
  match d with DVar x => (fset f x v, g) | DGlo x => (f, gset g x v) | DNone => (f, g) end.

Fixpoint index (x : string) (l : list string) : option nat :=
  match l with
  | [] => None
  | y :: t => if String.eqb x y then Some O
              else match index x t with Some i => Some (S i) | None => None end
  end.
Definition enter (d : fundef) (args : list Z) : frame := fun v =>
  match v with
  | FV x => match index x (params d) with
            | Some i => Some (nth_error args i)
            | None => if existsb (String.eqb x) (decls d) then Some None else None
            end
  | FT k => if Nat.leb 1 k && Nat.leb k (temps d) then Some None else None
  end.

Inductive cres := CNext | CRet (v : option Z).
Section CSem.
Variable P : prog.
(* None: undefined behaviour, or [n] steps were not enough. *)
Fixpoint cexec (n : nat) (c : st) (fr : frame) (g : globs) : option (cres * frame * globs) :=
  match n with
  | O => None
  | S n =>
    let call f args g : option (option Z * globs) :=
      match P f with
      | None => None
      | Some d =>
        if Nat.eqb (length args) (length (params d)) then
          match cexec n (body d) (enter d args) g with
          | Some (CNext, _, g') => Some (None, g')
          | Some (CRet v, _, g') => Some (v, g')
          | None => None
          end
        else None
      end in
    match c with
    | SSkip => Some (CNext, fr, g)
    | SAsg l e =>
      match cdest fr g l, ceval fr g e with
      | Some d, Some v => let (fr', g') := store_to d v fr g in Some (CNext, fr', g')
      | _, _ => None end
    | SCall l f args =>
      match cdest fr g l, cevals fr g args with
      | Some d, Some vs =>
        match call f vs g with
        | Some (Some v, g') => let (fr', g'') := store_to d v fr g' in Some (CNext, fr', g'')
        | Some (None, g') => match d with DNone => Some (CNext, fr, g') | _ => None end
        | None => None end
      | _, _ => None end
    | SRet e => match ceval fr g e with Some v => Some (CRet (Some v), fr, g) | None => None end
    | SRet0 => Some (CRet None, fr, g)
    | SRetCall f args =>
      match cevals fr g args with
      | Some vs => match call f vs g with Some (v, g') => Some (CRet v, fr, g') | None => None end
      | None => None end
    | SSeq a b =>
      match cexec n a fr g with
      | Some (CNext, fr', g') => cexec n b fr' g'
      | x => x end
    | SIf e a b =>
      match ceval fr g e with
      | Some v => cexec n (if Z.eqb v 0 then b else a) fr g | None => None end
    | SWhile e a =>
      match ceval fr g e with
      | Some v => if Z.eqb v 0 then Some (CNext, fr, g)
                  else match cexec n a fr g with
                       | Some (CNext, fr', g') => cexec n c fr' g'
                       | x => x end
      | None => None end
    end
  end.
Definition ccall (n : nat) (f : string) (args : list Z) (g : globs) : option (option Z * globs) :=
  match P f with
  | None => None
  | Some d =>
    if Nat.eqb (length args) (length (params d)) then
      match cexec n (body d) (enter d args) g with
      | Some (CNext, _, g') => Some (None, g')
      | Some (CRet v, _, g') => Some (v, g')
      | None => None
      end
    else None
  end.
End CSem.

(* names a caller may pass as the result variable *)
Definition user_name (r : name) : Prop :=
  match r with NL _ | NG _ | NNone => True | _ => False end.

(* ================= proofs ================= *)
Ltac spl := lazymatch goal with |- ?G =>
  let H := eval hnf in G in lazymatch H with _ /\ _ => split; [spl|spl] | _ => idtac end end.
Lemma set_same s x v : set s x v x = v.
Proof. unfold set. destruct (name_eqb_spec x x); congruence. Qed.
Lemma set_other s x v y : y <> x -> set s x v y = s y.
Proof. unfold set. destruct (name_eqb_spec y x); congruence. Qed.

Definition stk_ok (s1 s2 : store) : Prop :=
  s2 NSP = s1 NSP /\ forall k, k <= s1 NSP -> s2 (NStk k) = s1 (NStk k).
Lemma stk_refl s : stk_ok s s. Proof. split; auto. Qed.
Lemma stk_trans a b c : stk_ok a b -> stk_ok b c -> stk_ok a c.
Proof. intros [H1 H2] [H3 H4]. split; [congruence|]. intros k Hk. rewrite H4 by lia. auto. Qed.
Lemma stk_set s x v : user_name x -> stk_ok s (set s x v).
Proof. intros H. split; intros; rewrite set_other; auto; intros E; subst x; exact H. Qed.

(* the pushes and pops *)
Definition letv (c : letc) : fvar := match c with Let x _ => x end.
Notation pushes args l s := (fold_left (run_let args) l s).

Lemma rt_let_spec s x v :
  let s' := rt_let s x v in
  s' NSP = s NSP + 1 /\ s' (NStk (s NSP + 1)) = s (NL x) /\
  (forall k, k <> s NSP + 1 -> s' (NStk k) = s (NStk k)) /\
  s' (NL x) = match v with Some w => w | None => 0 end /\
  (forall y, y <> x -> s' (NL y) = s (NL y)) /\
  (forall y, s' (NG y) = s (NG y)) /\ s' NNone = s NNone.
Proof.
  unfold rt_let. cbv zeta.
  spl; intros; rewrite ?set_same; rewrite ?set_other by congruence; rewrite ?set_same; auto.
  all: rewrite ?set_other by congruence; auto.
Qed.

Lemma pushes_spec args l : forall s,
  let s' := pushes args l s in
  s' NSP = s NSP + Z.of_nat (length l) /\
  (forall k, k <= s NSP -> s' (NStk k) = s (NStk k)) /\
  (forall y, ~ In y (map letv l) -> s' (NL y) = s (NL y)) /\
  (forall y, s' (NG y) = s (NG y)) /\ s' NNone = s NNone.
Proof.
  induction l as [|[x v] l IH]; intros s.
  - cbn [fold_left length]. spl; auto. lia.
  - cbn [fold_left run_let]. set (w := match v with Some k => pos args k | None => None end).
    destruct (rt_let_spec s x w) as (A & B & C & D & E & F & G).
    destruct (IH (rt_let s x w)) as (A' & C' & E' & F' & G').
    cbn [map letv length]. spl.
    + rewrite A', A. lia.
    + intros k Hk. rewrite C' by lia. apply C. lia.
    + intros y Hy. rewrite E'; [apply E|]; intros ?; apply Hy; [left; congruence|right; assumption].
    + intros y. rewrite F'. apply F.
    + rewrite G'. exact G.
Qed.

Lemma pops_spec args l : forall s s2,
  s2 NSP = s NSP + Z.of_nat (length l) ->
  (forall k, s NSP < k <= s NSP + Z.of_nat (length l) -> s2 (NStk k) = (pushes args l s) (NStk k)) ->
  let s3 := fold_left rt_pop (rev (map letv l)) s2 in
  s3 NSP = s NSP /\ (forall x, In x (map letv l) -> s3 (NL x) = s (NL x)) /\
  (forall y, y <> NSP -> (forall x, In x (map letv l) -> y <> NL x) -> s3 y = s2 y).
Proof.
  induction l as [|[x v] l IH]; intros s s2 Hsp Hst.
  - cbn [map rev fold_left length] in *. spl; auto; try lia. intros x [].
  - cbn [map rev letv]. rewrite fold_left_app. cbn [fold_left].
    cbn [fold_left run_let] in Hst.
    set (w := match v with Some k => pos args k | None => None end) in Hst.
    destruct (rt_let_spec s x w) as (A & B & C & D & E & F & G).
    cbn [length] in Hsp, Hst.
    destruct (IH (rt_let s x w) s2) as (I1 & I2 & I3).
    { rewrite A. lia. }
    { intros k Hk. apply Hst. rewrite A in Hk. lia. }
    set (s3 := fold_left rt_pop (rev (map letv l)) s2) in *. cbv zeta.
    assert (Ht : s3 (NStk (s NSP + 1)) = s (NL x)).
    { rewrite I3; [|congruence|congruence].
      rewrite Hst by lia.
      destruct (pushes_spec args l (rt_let s x w)) as (_ & C' & _).
      rewrite C' by (rewrite A; lia). exact B. }
    unfold rt_pop. rewrite I1, A.
    replace (s NSP + 1 - 1) with (s NSP) by lia.
    spl.
    + rewrite !set_other by congruence. apply set_same.
    + intros y Hy. destruct (fvar_eqb_spec y x) as [->|Hn].
      * rewrite set_same, !set_other by congruence. exact Ht.
      * rewrite !set_other by congruence.
        destruct Hy as [Hy|Hy]; [congruence|]. rewrite I2 by assumption. apply E. assumption.
    + intros y Hy Hn. rewrite !set_other; [|congruence|apply Hn; left; reflexivity].
      apply I3; [assumption|]. intros z Hz. apply Hn. right. assumption.
Qed.

(* the variables saved are those declared *)
Definition declared (d : fundef) (x : fvar) : Prop :=
  match x with
  | FV n => In n (params d) \/ In n (decls d)
  | FT k => (1 <= k <= temps d)%nat
  end.

Lemma existsb_fst (x : string) (env : list (string * bool)) : existsb (fun b => String.eqb (fst b) x) env = true <-> In x (map fst env).
Proof.
  rewrite existsb_exists, in_map_iff. split.
  - intros [b [H1 H2]]. apply String.eqb_eq in H2. eauto.
  - intros [b [H1 H2]]. exists b. split; auto. apply String.eqb_eq. assumption.
Qed.
Lemma add_var_in b env x y : In y (map fst (add_var b env x)) <-> y = x \/ In y (map fst env).
Proof.
  unfold add_var. destruct (existsb _ env) eqn:E.
  - apply existsb_fst in E. split; [auto|]. intros [->|]; assumption.
  - cbn [map fst In]. split; intros [H|H]; auto.
Qed.
Lemma fold_add_in b l : forall env y,
  In y (map fst (fold_left (add_var b) l env)) <-> In y l \/ In y (map fst env).
Proof.
  induction l as [|x l IH]; intros env y; cbn [fold_left In]; [tauto|].
  rewrite IH, add_var_in. split; intros H; intuition congruence.
Qed.
Lemma fold_add_params : forall l env,
  NoDup l -> (forall x, In x l -> ~ In x (map fst env)) ->
  fold_left (add_var true) l env = rev (map (fun x => (x, true)) l) ++ env.
Proof.
  induction l as [|x l IH]; intros env Hn Hd; cbn [fold_left map rev]; [reflexivity|].
  inversion Hn; subst. rewrite IH; auto.
  - unfold add_var. destruct (existsb _ env) eqn:E.
    + apply existsb_fst in E. exfalso. apply (Hd x); [left; reflexivity|assumption].
    + rewrite <- app_assoc. reflexivity.
  - intros y Hy Hi. apply add_var_in in Hi. destruct Hi as [->|Hi]; [contradiction|].
    apply (Hd y); [right; assumption|assumption].
Qed.
Lemma fold_add_locals : forall l env, exists new,
  fold_left (add_var false) l env = map (fun x => (x, false)) new ++ env.
Proof.
  induction l as [|x l IH]; intros env; cbn [fold_left]; [exists []; reflexivity|].
  destruct (IH (add_var false env x)) as [new Hn]. rewrite Hn. unfold add_var.
  destruct (existsb _ env).
  - exists new. reflexivity.
  - exists (new ++ [x]). rewrite map_app, <- app_assoc. reflexivity.
Qed.
Lemma locals_fun_shape d : NoDup (params d) -> exists new,
  locals_fun d = map (fun x => (x, false)) new ++ rev (map (fun x => (x, true)) (params d)).
Proof.
  intros Hn. unfold locals_fun. destruct (fold_add_locals (decls d) (fold_left (add_var true) (params d) [])) as [new H].
  exists new. rewrite H, fold_add_params; auto. rewrite app_nil_r. reflexivity.
Qed.
Lemma locals_fun_in d x : In x (map fst (locals_fun d)) <-> In x (params d) \/ In x (decls d).
Proof. unfold locals_fun. rewrite !fold_add_in. cbn [map In]. tauto. Qed.

Lemma down_in k x : In x (down k) <-> exists j, x = FT j /\ (1 <= j <= k)%nat.
Proof.
  induction k as [|k IH]; cbn [down In].
  - split; [tauto|]. intros (j & -> & H). lia.
  - rewrite IH. split.
    + intros [<- | (j & -> & H)]; [exists (S k)|exists j]; split; auto; lia.
    + intros (j & -> & H). destruct (Nat.eq_dec j (S k)) as [-> | Hj]; [left; reflexivity|].
      right. exists j. split; auto. lia.
Qed.
Lemma restore_in d x : In x (restore_local_vars d) <-> declared d x.
Proof.
  unfold restore_local_vars. rewrite in_app_iff, down_in.
  destruct x as [n|k]; cbn [declared].
  - rewrite <- locals_fun_in. split.
    + intros [(j & E & _)|H]; [congruence|]. apply in_map_iff in H. destruct H as (b & E & H).
      injection E as <-. apply in_map. assumption.
    + intros H. right. apply in_map_iff in H. destruct H as (b & <- & H). apply in_map_iff. eauto.
  - split.
    + intros [(j & E & H)|H]; [congruence|]. apply in_map_iff in H. destruct H as (b & E & _). congruence.
    + intros H. left. eauto.
Qed.

Lemma pre_temps_app k : forall res, map letv (pre_temps k res) = rev (down k) ++ map letv res.
Proof.
  induction k as [|k IH]; intros res; cbn [pre_temps down rev]; [reflexivity|].
  rewrite IH. cbn [map letv]. rewrite <- app_assoc. reflexivity.
Qed.
Lemma pre_env_params l : forall res, pre_env (map (fun x => (x, true)) l) res = res.
Proof. induction l as [|x l IH]; intros res; cbn [map pre_env]; auto. Qed.
Lemma pre_env_app a : forall b res, pre_env (a ++ b) res = pre_env b (pre_env a res).
Proof. induction a as [|[x []] a IH]; intros b res; cbn [app pre_env]; auto. Qed.
Lemma pre_env_locals l : forall res, map letv (pre_env (map (fun x => (x, false)) l) res) = rev (map FV l) ++ map letv res.
Proof.
  induction l as [|x l IH]; intros res; cbn [map pre_env rev]; [reflexivity|].
  rewrite IH. cbn [map letv]. rewrite <- app_assoc. reflexivity.
Qed.
Lemma let_params_vars ps : forall k, map letv (let_params_from k ps) = map FV ps.
Proof. induction ps as [|p ps IH]; intros k; cbn [let_params_from map letv]; [|rewrite IH]; reflexivity. Qed.

(* saves and restores are in opposite orders *)
Lemma save_restore d : NoDup (params d) ->
  restore_local_vars d = rev (map letv (let_params d ++ save_local_vars d)).
Proof.
  intros Hn. destruct (locals_fun_shape d Hn) as [new Hs].
  unfold restore_local_vars, let_params, save_local_vars. rewrite Hs.
  rewrite (map_app letv), let_params_vars, pre_env_app, <- map_rev, pre_env_params, pre_env_locals, pre_temps_app.
  cbn [map]. rewrite app_nil_r, !rev_app_distr, !rev_involutive, <- app_assoc.
  rewrite map_app, !map_map. cbn [fst].
  replace (map (fun x => FV x) new) with (map FV new) by reflexivity.
  rewrite map_rev. reflexivity.
Qed.

Lemma index_nth ps : forall p i, index p ps = Some i -> nth_error ps i = Some p.
Proof.
  induction ps as [|q ps IH]; intros p i; cbn [index]; [congruence|].
  destruct (String.eqb_spec p q) as [->|]; [intros [= <-]; reflexivity|].
  destruct (index p ps) as [j|] eqn:E; [|congruence]. intros [= <-]. cbn [nth_error]. auto.
Qed.
Lemma index_none ps p : index p ps = None <-> ~ In p ps.
Proof.
  induction ps as [|q ps IH]; cbn [index In]; [tauto|].
  destruct (String.eqb_spec p q) as [->|Hn].
  - split; [congruence|]. intros H. exfalso. apply H. left; reflexivity.
  - destruct (index p ps) as [j|]; split; intros H.
    + congruence.
    + exfalso. assert (In p ps -> False) by (intros; apply H; auto). destruct IH as [_ IH]. specialize (IH H0). congruence.
    + intros [E|Hi]; [congruence|]. destruct IH as [IH _]. apply IH; auto.
    + reflexivity.
Qed.

Lemma params_let args : forall ps k rest s p i,
  NoDup ps -> ~ In (FV p) (map letv rest) ->
  nth_error ps i = Some p -> (2 <= k)%nat ->
  pushes args (let_params_from k ps ++ rest) s (NL (FV p)) =
  match nth_error args (k - 2 + i) with Some v => v | None => 0 end.
Proof.
  induction ps as [|q ps IH]; intros k rest s p i Hn Hr Hi Hk; [destruct i; cbn in Hi; congruence|].
  inversion Hn; subst. cbn [let_params_from app fold_left run_let].
  destruct i as [|i]; cbn [nth_error] in Hi.
  - injection Hi as ->.
    destruct (pushes_spec args (let_params_from (S k) ps ++ rest) (rt_let s (FV p) (pos args k))) as (_ & _ & E & _).
    rewrite E.
    + destruct (rt_let_spec s (FV p) (pos args k)) as (_ & _ & _ & D & _). rewrite D.
      unfold pos. rewrite Nat.add_0_r. reflexivity.
    + rewrite map_app, in_app_iff, let_params_vars. intros [H|H]; [|contradiction].
      apply in_map_iff in H. destruct H as (z & E1 & H). injection E1 as ->. contradiction.
  - rewrite (IH (S k) rest _ p i); auto. f_equal. replace (S k - 2 + i)%nat with (k - 2 + S i)%nat by lia. reflexivity.
Qed.

(* ---- what entering and leaving a function do, for both variants ---- *)
Definition enter_s (mode : bool) (d : fundef) (args : list Z) (s : store) : store :=
  if mode then prologue_let d args s else snd (prologue_set d args s).
Definition enter_p (mode : bool) (d : fundef) (args : list Z) (s : store) : list Z :=
  if mode then args else fst (prologue_set d args s).
Definition leave (mode : bool) (d : fundef) (ps : list Z) (r : name) (s : store) : store :=
  if mode then epilogue_let d r s else epilogue_set d ps r s.

Definition enter_spec (d : fundef) (args : list Z) (s s1 : store) : Prop :=
  (forall p i v, nth_error (params d) i = Some p -> nth_error args i = Some v -> s1 (NL (FV p)) = v) /\
  (forall x, ~ declared d x -> s1 (NL x) = s (NL x)) /\
  (forall x, s1 (NG x) = s (NG x)).
Definition leave_spec (d : fundef) (r : name) (s s2 s3 : store) : Prop :=
  s3 r = s2 r /\
  (forall x, declared d x -> NL x <> r -> s3 (NL x) = s (NL x)) /\
  (forall x, ~ declared d x -> NL x <> r -> s3 (NL x) = s2 (NL x)) /\
  (forall x, NG x <> r -> s3 (NG x) = s2 (NG x)) /\
  stk_ok s s3.

Lemma not_param_rest d p : NoDup (params d) -> In p (params d) -> ~ In (FV p) (map letv (save_local_vars d)).
Proof.
  intros Hn Hp. unfold save_local_vars.
  destruct (locals_fun_shape d Hn) as [new Hs]. rewrite Hs.
  rewrite pre_env_app, <- map_rev, pre_env_params, pre_env_locals, pre_temps_app.
  cbn [map]. rewrite app_nil_r, !in_app_iff, <- !in_rev, down_in. intros [H|(j & H & _)]; [|congruence].
  apply in_map_iff in H. destruct H as (z & E & H). injection E as ->.
  (* p is in [new]: then locals_fun contains it twice, impossible *)
  assert (G : forall l env q, In (q, true) env -> ~ In (q, false) env -> ~ In (q, false) (fold_left (add_var false) l env)).
  { induction l as [|y l IH]; intros env q H1 H2; cbn [fold_left]; [assumption|].
    apply IH.
    - unfold add_var. destruct (existsb _ env); [assumption|right; assumption].
    - unfold add_var. destruct (existsb _ env) eqn:E1; [assumption|].
      intros [E2|E2]; [|contradiction]. injection E2 as ->.
      assert (X : existsb (fun b => String.eqb (fst b) q) env = true); [|congruence].
      apply existsb_fst. apply in_map_iff. exists (q, true). auto. }
  apply (G (decls d) (fold_left (add_var true) (params d) []) p).
  - rewrite fold_add_params; auto. rewrite app_nil_r, <- in_rev. apply in_map_iff. eauto.
  - rewrite fold_add_params; auto. rewrite app_nil_r, <- in_rev. intros X. apply in_map_iff in X.
    destruct X as (z & E & _). congruence.
  - unfold locals_fun in Hs. rewrite Hs. rewrite in_app_iff. left. apply in_map_iff. eauto.
Qed.

Lemma save_vars_in d x : NoDup (params d) ->
  (In x (map letv (let_params d ++ save_local_vars d)) <-> declared d x).
Proof. intros Hn. rewrite <- restore_in, save_restore, <- in_rev by assumption. reflexivity. Qed.

Lemma enter_let_ok d args s : NoDup (params d) -> enter_spec d args s (prologue_let d args s).
Proof.
  intros Hn. unfold prologue_let. spl.
  - intros p i v Hp Hv. unfold let_params.
    rewrite (params_let args (params d) 2 (save_local_vars d) s p i); auto.
    + replace (2 - 2 + i)%nat with i by lia. rewrite Hv. reflexivity.
    + apply not_param_rest; auto. apply nth_error_In in Hp. assumption.
  - intros x Hx. destruct (pushes_spec args (let_params d ++ save_local_vars d) s) as (_ & _ & E & _).
    apply E. rewrite save_vars_in; assumption.
  - intros x. destruct (pushes_spec args (let_params d ++ save_local_vars d) s) as (_ & _ & _ & F & _). apply F.
Qed.

Lemma leave_let_ok d args r s s2 : NoDup (params d) -> user_name r ->
  stk_ok (prologue_let d args s) s2 -> leave_spec d r s s2 (epilogue_let d r s2).
Proof.
  intros Hn Hr [Hsp Hst].
  assert (U1 : r <> NTmp) by (intros E; subst r; exact Hr).
  assert (U2 : r <> NSP) by (intros E; subst r; exact Hr).
  assert (U3 : forall k, r <> NStk k) by (intros k E; subst r; exact Hr).
  unfold prologue_let in *.
  set (L := let_params d ++ save_local_vars d) in *.
  destruct (pushes_spec args L s) as (A & B & _).
  assert (Hlen : length L = length (restore_local_vars d)).
  { rewrite save_restore by assumption. fold L. rewrite rev_length, map_length. reflexivity. }
  unfold epilogue_let. destruct (restore_local_vars d) as [|x0 xs0] eqn:ER.
  - cbn [length] in Hlen. rewrite Hlen in A. spl; auto.
    + intros x Hx. apply restore_in in Hx. rewrite ER in Hx. contradiction.
    + rewrite Hsp, A. lia.
    + intros k Hk. rewrite Hst by (rewrite A; lia). apply B. lia.
  - rewrite <- ER in *. clear ER. unfold rt_endlet. cbv zeta.
    destruct (pops_spec args L s (set s2 NTmp (s2 r))) as (I1 & I2 & I3).
    { rewrite set_other by congruence. rewrite Hsp, A. reflexivity. }
    { intros k Hk. rewrite set_other by congruence. apply Hst. rewrite A. lia. }
    rewrite save_restore by assumption. fold L.
    set (s3 := fold_left rt_pop (rev (map letv L)) (set s2 NTmp (s2 r))) in *.
    assert (HT : s3 NTmp = s2 r).
    { rewrite I3; [apply set_same|congruence|congruence]. }
    spl.
    + rewrite set_same. exact HT.
    + intros x Hx Hne. rewrite set_other by assumption. apply I2. apply save_vars_in; assumption.
    + intros x Hx Hne. rewrite set_other by assumption. rewrite I3.
      * apply set_other. congruence.
      * congruence.
      * intros y Hy E. injection E as ->. apply Hx. apply save_vars_in in Hy; assumption.
    + intros x Hne. rewrite set_other by assumption. rewrite I3; [|congruence|congruence].
      apply set_other. congruence.
    + rewrite set_other by congruence. exact I1.
    + intros k Hk. rewrite set_other by (intros E; apply (U3 k); congruence).
      rewrite I3; [|congruence|congruence]. rewrite set_other by congruence.
      rewrite Hst by (rewrite A; lia). apply B. assumption.
Qed.

(* ---- the [set] variant ---- *)
Lemma init_params_other ps : forall l k s y, (forall p, In p l -> y <> NL (FV p)) -> init_params ps k l s y = s y.
Proof.
  induction l as [|q l IH]; intros k s y H; cbn [init_params]; [reflexivity|].
  rewrite IH; [|intros p Hp; apply H; right; assumption].
  apply set_other. apply H. left. reflexivity.
Qed.
Lemma init_params_at ps : forall l k s p i, NoDup l -> nth_error l i = Some p ->
  init_params ps k l s (NL (FV p)) = posz ps (k + i).
Proof.
  induction l as [|q l IH]; intros k s p i Hn Hi; [destruct i; cbn in Hi; congruence|].
  inversion Hn; subst. cbn [init_params]. destruct i as [|i]; cbn [nth_error] in Hi.
  - injection Hi as ->. rewrite init_params_other.
    + rewrite set_same, Nat.add_0_r. reflexivity.
    + intros p' Hp' E. injection E as ->. contradiction.
  - rewrite (IH _ _ p i); auto. f_equal. lia.
Qed.

Lemma enter_set_ok d args s : NoDup (params d) -> length args = length (params d) ->
  enter_spec d args s (snd (prologue_set d args s)).
Proof.
  intros Hn Hl. unfold prologue_set. cbn [snd]. spl.
  - intros p i v Hp Hv. rewrite (init_params_at _ _ _ _ p i); auto.
    unfold posz. replace (2 + i - 2)%nat with i by lia.
    rewrite app_nth1; [|apply nth_error_Some; congruence].
    apply nth_error_nth. assumption.
  - intros x Hx. apply init_params_other. intros p Hp E. injection E as ->. apply Hx. left. assumption.
  - intros x. apply init_params_other. intros p Hp E. congruence.
Qed.

Lemma pre_vars_app env : forall res, pre_vars env res = rev (map (fun b => FV (fst b)) env) ++ res.
Proof.
  induction env as [|[x b] env IH]; intros res; cbn [pre_vars map rev fst]; [reflexivity|].
  rewrite IH, <- app_assoc. reflexivity.
Qed.
Fixpoint ups (n c : nat) : list fvar :=
  match c with O => [] | S c' => FT (n - c + 1) :: ups n c' end.
Lemma app_temps_app n c : forall res, app_temps n c res = res ++ ups n c.
Proof.
  induction c as [|c IH]; intros res; cbn [app_temps ups]; [rewrite app_nil_r; reflexivity|].
  rewrite IH, <- app_assoc. reflexivity.
Qed.
Lemma ups_in n c x : (c <= n)%nat -> (In x (ups n c) <-> exists j, x = FT j /\ (n - c < j <= n)%nat).
Proof.
  induction c as [|c IH]; intros Hc.
  - cbn [ups In]. split; [tauto|]. intros (j & -> & H). lia.
  - cbn [ups In]. rewrite IH by lia. split.
    + intros [<- | (j & -> & H)]; [exists (n - S c + 1)%nat|exists j]; split; auto; lia.
    + intros (j & -> & H). destruct (Nat.eq_dec j (n - S c + 1)) as [-> | Hj]; [left; reflexivity|].
      right. exists j. split; auto. lia.
Qed.
Lemma ups_nodup n c : (c <= n)%nat -> NoDup (ups n c).
Proof.
  induction c as [|c IH]; intros Hc; cbn [ups]; constructor; [|apply IH; lia].
  rewrite ups_in by lia. intros (j & E & H). injection E as <-. lia.
Qed.

Lemma locals_nodup d : NoDup (map fst (locals_fun d)).
Proof.
  assert (G : forall b l env, NoDup (map fst env) -> NoDup (map fst (fold_left (add_var b) l env))).
  { induction l as [|y l IH]; intros env H; cbn [fold_left]; [assumption|]. apply IH.
    unfold add_var. destruct (existsb _ env) eqn:E; [assumption|]. cbn [map fst]. constructor; auto.
    intros X. apply existsb_fst in X. congruence. }
  unfold locals_fun. apply G, G. constructor.
Qed.
Lemma set_saved_in d x : In x (set_saved d) <-> declared d x.
Proof.
  unfold set_saved. rewrite app_temps_app, pre_vars_app, app_nil_r, in_app_iff, <- in_rev, ups_in by lia.
  rewrite <- restore_in. unfold restore_local_vars. rewrite in_app_iff, down_in. split.
  - intros [H|(j & -> & H)]; [right; assumption|left; exists j; split; auto; lia].
  - intros [(j & -> & H)|H]; [right; exists j; split; auto; lia|left; assumption].
Qed.
Lemma NoDup_map_inj {A B} (f : A -> B) l : (forall x y, f x = f y -> x = y) -> NoDup l -> NoDup (map f l).
Proof.
  intros Hf. induction 1; cbn [map]; constructor; auto.
  intros H1. apply in_map_iff in H1. destruct H1 as (y & E & Hy). apply Hf in E. subst. contradiction.
Qed.
Lemma NoDup_app2 {A} (a b : list A) : NoDup a -> NoDup b -> (forall x, In x a -> ~ In x b) -> NoDup (a ++ b).
Proof.
  intros Ha Hb Hd. induction Ha; cbn [app]; auto. constructor.
  - rewrite in_app_iff. intros [?|H1]; [contradiction|]. apply (Hd x); [left; reflexivity|assumption].
  - apply IHHa. intros y Hy. apply Hd. right. assumption.
Qed.
Lemma set_saved_nodup d : NoDup (set_saved d).
Proof.
  unfold set_saved. rewrite app_temps_app, pre_vars_app, app_nil_r. apply NoDup_app2.
  - apply NoDup_rev. replace (map (fun b => FV (fst b)) (locals_fun d)) with (map FV (map fst (locals_fun d))) by apply map_map.
    apply NoDup_map_inj; [congruence|]. apply locals_nodup.
  - apply ups_nodup. lia.
  - intros x H1 H2. apply in_rev, in_map_iff in H1. destruct H1 as (b & <- & _).
    rewrite ups_in in H2 by lia. destruct H2 as (j & E & _). congruence.
Qed.

(* restored positions: exactly those at which the variables were saved *)
Fixpoint numbered (k : nat) (l : list fvar) : list (fvar * nat) :=
  match l with [] => [] | x :: t => (x, k) :: numbered (S k) t end.
Lemma numbered_app a : forall k b, numbered k (a ++ b) = numbered k a ++ numbered (k + length a) b.
Proof.
  induction a as [|x a IH]; intros k b; cbn [app numbered length]; [rewrite Nat.add_0_r; reflexivity|].
  rewrite IH. repeat (lia || f_equal).
Qed.
Lemma pre_restore_app pc size env : forall lp res, (lp + length env = size)%nat ->
  pre_restore pc size lp env res =
  numbered (pc + 1) (rev (map (fun b => FV (fst b)) env)) ++ res.
Proof.
  induction env as [|[x b] env IH]; intros lp res H; cbn [pre_restore map rev fst]; [reflexivity|].
  cbn [length] in H. rewrite IH by lia. rewrite numbered_app, <- app_assoc. cbn [numbered].
  rewrite rev_length, map_length. cbn [app]. repeat (lia || f_equal).
Qed.
Lemma app_restore_app pc n c : forall lp res,
  app_restore pc n c lp res = res ++ numbered (pc + lp + 1) (ups n c).
Proof.
  induction c as [|c IH]; intros lp res; cbn [app_restore ups numbered]; [rewrite app_nil_r; reflexivity|].
  rewrite IH, <- app_assoc. cbn [app]. repeat (lia || f_equal).
Qed.
Lemma set_restored_numbered d pc : set_restored d pc = numbered (pc + 1) (set_saved d).
Proof.
  unfold set_restored, set_saved.
  rewrite app_restore_app, app_temps_app, pre_restore_app by reflexivity.
  rewrite pre_vars_app, !app_nil_r, numbered_app. f_equal. f_equal. rewrite rev_length, map_length. lia.
Qed.

Lemma restore_fold ps : forall l k s,
  let s' := fold_left (fun s b => set s (NL (fst b)) (posz ps (snd b))) (numbered k l) s in
  (forall y, (forall x, In x l -> y <> NL x) -> s' y = s y) /\
  (NoDup l -> forall i x, nth_error l i = Some x -> s' (NL x) = posz ps (k + i)).
Proof.
  induction l as [|x l IH]; intros k s; cbn [numbered fold_left fst snd]; cbv zeta.
  - split; auto. intros _ i y H. destruct i; cbn in H; congruence.
  - destruct (IH (S k) (set s (NL x) (posz ps k))) as [H1 H2]. split.
    + intros y Hy. rewrite H1; [apply set_other; apply Hy; left; reflexivity|].
      intros z Hz. apply Hy. right. assumption.
    + intros Hn i y Hi. inversion Hn; subst. destruct i as [|i]; cbn [nth_error] in Hi.
      * injection Hi as ->. rewrite H1; [rewrite set_same, Nat.add_0_r; reflexivity|].
        intros z Hz E. injection E as ->. contradiction.
      * rewrite (H2 H4 i y Hi). f_equal. lia.
Qed.

Lemma leave_set_ok d args r s s2 : NoDup (params d) -> length args = length (params d) -> user_name r ->
  stk_ok (snd (prologue_set d args s)) s2 ->
  leave_spec d r s s2 (epilogue_set d (fst (prologue_set d args s)) r s2).
Proof.
  intros Hn Hl Hr [Hsp Hst].
  assert (U1 : r <> NTmp) by (intros E; subst r; exact Hr).
  assert (U2 : r <> NSP) by (intros E; subst r; exact Hr).
  assert (U3 : forall k, r <> NStk k) by (intros k E; subst r; exact Hr).
  assert (K : stk_ok s s2).
  { unfold prologue_set in *. cbn [snd] in *. split.
    - rewrite Hsp. apply init_params_other. congruence.
    - intros k Hk. rewrite init_params_other in Hst by congruence. rewrite Hst by assumption.
      apply init_params_other. congruence. }
  clear Hsp Hst. destruct K as [Hsp Hst].
  unfold epilogue_set. rewrite set_restored_numbered.
  destruct (numbered (length (params d) + 1 + 1) (set_saved d)) as [|n0 l0] eqn:EN.
  - assert (HE : set_saved d = []) by (destruct (set_saved d); [reflexivity|cbn [numbered] in EN; congruence]).
    spl; auto. intros x Hx. apply set_saved_in in Hx. rewrite HE in Hx. contradiction.
  - rewrite <- EN. clear EN n0 l0. cbv zeta.
    set (ps := fst (prologue_set d args s)).
    destruct (restore_fold ps (set_saved d) (length (params d) + 1 + 1) (set s2 NTmp (s2 r))) as [H1 H2].
    specialize (H2 (set_saved_nodup d)).
    set (s3 := fold_left _ _ _) in *.
    assert (HT : s3 NTmp = s2 r) by (rewrite H1; [apply set_same|congruence]).
    spl.
    + rewrite set_same. exact HT.
    + intros x Hx Hne. rewrite set_other by assumption.
      apply set_saved_in in Hx. apply In_nth_error in Hx. destruct Hx as [i Hi].
      rewrite (H2 i x Hi). unfold posz, ps, prologue_set. cbn [fst].
      rewrite app_nth2 by lia.
      replace (length (params d) + 1 + 1 + i - 2 - length args)%nat with i by lia.
      erewrite nth_error_nth; [reflexivity|]. rewrite nth_error_map, Hi. reflexivity.
    + intros x Hx Hne. rewrite set_other by assumption. rewrite H1; [apply set_other; congruence|].
      intros y Hy E. injection E as ->. apply Hx. apply set_saved_in. assumption.
    + intros x Hne. rewrite set_other by assumption. rewrite H1 by congruence. apply set_other. congruence.
    + rewrite set_other by congruence. rewrite H1 by congruence. rewrite set_other by congruence. exact Hsp.
    + intros k Hk. rewrite set_other by (intros E; apply (U3 k); congruence). rewrite H1 by congruence.
      rewrite set_other by congruence. apply Hst. assumption.
Qed.

Lemma enter_ok mode d args s : NoDup (params d) -> length args = length (params d) ->
  enter_spec d args s (enter_s mode d args s).
Proof. intros. destruct mode; [apply enter_let_ok|apply enter_set_ok]; assumption. Qed.
Lemma leave_ok mode d args r s s2 : NoDup (params d) -> length args = length (params d) -> user_name r ->
  stk_ok (enter_s mode d args s) s2 -> leave_spec d r s s2 (leave mode d (enter_p mode d args s) r s2).
Proof.
  intros H1 H2 H3 H4. destruct mode.
  - apply (leave_let_ok d args); assumption.
  - apply (leave_set_ok d args); assumption.
Qed.

(* ---- simulation ---- *)
Definition agree (d : fundef) (fr : frame) (g : globs) (s : store) : Prop :=
  (forall x w, fr x = Some w -> declared d x) /\
  (forall x v, fr x = Some (Some v) -> s (NL x) = v) /\
  (forall x, s (NG x) = g x).

Lemma seval_ok d fr g s : agree d fr g s -> forall e v, ceval fr g e = Some v -> seval s e = Some v.
Proof.
  intros (A & B & C). induction e as [z|x|x|e IH|f a IHa b IHb]; intros v; cbn [ceval seval].
  - auto.
  - destruct (fr x) as [[w|]|] eqn:E; try congruence. intros [= ->]. rewrite (B _ _ E). reflexivity.
  - intros [= <-]. rewrite C. reflexivity.
  - destruct (ceval fr g e) as [a|]; [|congruence]. intros [= <-].
    rewrite (IH _ eq_refl), C. reflexivity.
  - destruct (ceval fr g a) as [x|]; [|congruence]. destruct (ceval fr g b) as [y|]; [|congruence].
    intros H. rewrite (IHa _ eq_refl), (IHb _ eq_refl). exact H.
Qed.
Lemma sevals_ok d fr g s : agree d fr g s -> forall l vs, cevals fr g l = Some vs -> sevals s l = Some vs.
Proof.
  intros H. induction l as [|e l IH]; intros vs; cbn [cevals sevals]; [auto|].
  destruct (ceval fr g e) as [v|] eqn:E; [|congruence]. destruct (cevals fr g l) as [ws|]; [|congruence].
  intros [= <-]. rewrite (seval_ok d fr g s H e v E), (IH _ eq_refl). reflexivity.
Qed.
Definition dname (x : dest) : name := match x with DVar x => NL x | DGlo x => NG x | DNone => NNone end.
Lemma starget_ok d fr g s : agree d fr g s -> forall l x, cdest fr g l = Some x -> starget s l = Some (dname x).
Proof.
  intros H [x|x|e|] y; cbn [cdest starget].
  - destruct (fr x); [|congruence]. intros [= <-]. reflexivity.
  - intros [= <-]. reflexivity.
  - destruct (ceval fr g e) as [a|] eqn:E; [|congruence]. intros [= <-].
    rewrite (seval_ok d fr g s H e a E). reflexivity.
  - intros [= <-]. reflexivity.
Qed.
Lemma cdest_declared d fr g s l x : agree d fr g s -> cdest fr g l = Some (DVar x) -> declared d x.
Proof.
  intros (A & _) H. destruct l as [y|y|e|]; cbn [cdest] in H; try congruence.
  - destruct (fr y) eqn:E; [|congruence]. injection H as ->. eauto.
  - destruct (ceval fr g e); congruence.
Qed.

Definition kept (d : fundef) (s s' : store) : Prop :=
  (forall x, ~ declared d x -> s' (NL x) = s (NL x)) /\ stk_ok s s'.
Lemma kept_refl d s : kept d s s. Proof. split; auto using stk_refl. Qed.
Lemma kept_trans d a b c : kept d a b -> kept d b c -> kept d a c.
Proof.
  intros [A B] [C D]. split; [|eapply stk_trans; eassumption].
  intros x Hx. rewrite C by assumption. auto.
Qed.

(* State reached by a store to a destination, from a state right elsewhere. *)
Lemma store_agree d fr g x v s : agree d fr g s -> (forall y, x = DVar y -> declared d y) ->
  let (fr', g') := store_to x v fr g in
  forall s', s' (dname x) = v -> (forall y, NL y <> dname x -> s' (NL y) = s (NL y)) ->
   (forall y, NG y <> dname x -> s' (NG y) = s (NG y)) -> agree d fr' g' s'.
Proof.
  intros (A & B & C) Hd. destruct x as [x|x|]; cbn [store_to dname]; intros s' H1 H2 H3; spl.
  - intros y w. unfold fset. destruct (fvar_eqb_spec y x) as [->|]; [intros _; auto|eauto].
  - intros y w. unfold fset. destruct (fvar_eqb_spec y x) as [->|]; [intros [= <-]; assumption|].
    intros Hy. rewrite H2 by congruence. auto.
  - intros y. rewrite H3 by congruence. auto.
  - eauto.
  - intros y w Hy. rewrite H2 by congruence. auto.
  - intros y. unfold gset. destruct (gvar_eqb_spec y x) as [->|]; [assumption|].
    rewrite H3 by congruence. auto.
  - eauto.
  - intros y w Hy. rewrite H2 by congruence. auto.
  - intros y. rewrite H3 by congruence. auto.
Qed.

Section Sim.
Variable mode : bool.
Variable P : prog.
Hypothesis Pok : forall f d, P f = Some d -> NoDup (params d).

Definition call_post (n : nat) : Prop := forall f args g v g' rn s,
  ccall P n f args g = Some (v, g') -> (forall x, s (NG x) = g x) -> user_name rn ->
  exists s3, scall mode P n f rn args s = Some s3 /\ stk_ok s s3 /\
    (forall x, NG x <> rn -> s3 (NG x) = g' x) /\
    (forall x, NL x <> rn -> s3 (NL x) = s (NL x)) /\
    (forall z, v = Some z -> s3 rn = z).

Definition exec_post (n : nat) : Prop := forall d ps r c fr g s o fr' g',
  cexec P n c fr g = Some (o, fr', g') -> agree d fr g s -> user_name r ->
  match o with
  | CNext => exists s', sexec mode P n d ps r c s = Some (SNext s') /\ agree d fr' g' s' /\ kept d s s'
  | CRet v => exists s2, sexec mode P n d ps r c s = Some (SDone (leave mode d ps r s2)) /\
      stk_ok s s2 /\ (forall x, NG x <> r -> s2 (NG x) = g' x) /\
      (forall x, ~ declared d x -> NL x <> r -> s2 (NL x) = s (NL x)) /\
      (forall z, v = Some z -> s2 r = z)
  end.

Lemma enter_agree d args s g : NoDup (params d) -> length args = length (params d) ->
  (forall x, s (NG x) = g x) -> agree d (enter d args) g (enter_s mode d args s).
Proof.
  intros Hn Hl Hg. destruct (enter_ok mode d args s Hn Hl) as (A & B & C). spl.
  - intros [x|k] w; cbn [enter declared].
    + destruct (index x (params d)) as [i|] eqn:E.
      * intros _. left. apply index_nth in E. eapply nth_error_In; eassumption.
      * destruct (existsb _ _) eqn:E2; [|congruence]. intros _. right.
        apply existsb_exists in E2. destruct E2 as (y & Hy & E3). apply String.eqb_eq in E3. subst. assumption.
    + destruct (Nat.leb 1 k && Nat.leb k (temps d)) eqn:E; [|congruence]. intros _.
      apply andb_true_iff in E. destruct E as [E1 E2]. apply Nat.leb_le in E1, E2. auto.
  - intros [x|k] w; cbn [enter].
    + destruct (index x (params d)) as [i|] eqn:E.
      * intros [= H]. apply index_nth in E. eapply A; eassumption.
      * destruct (existsb _ _); congruence.
    + destruct (_ && _); congruence.
  - intros x. rewrite C. auto.
Qed.

Lemma call_from_exec n : exec_post n -> call_post n.
Proof.
  intros IH f args g v g' rn s Hc Hg Hr. unfold ccall in Hc. unfold scall.
  destruct (P f) as [d|] eqn:EP; [|congruence].
  destruct (Nat.eqb_spec (length args) (length (params d))) as [Hl|]; [|congruence].
  pose proof (Pok _ _ EP) as Hn.
  pose proof (enter_agree d args s g Hn Hl Hg) as Ha.
  destruct (cexec P n (body d) (enter d args) g) as [[[o fr'] g2]|] eqn:EX; [|congruence].
  pose proof (IH d (enter_p mode d args s) rn (body d) _ _ (enter_s mode d args s) _ _ _ EX Ha Hr) as Hx.
  destruct (enter_ok mode d args s Hn Hl) as (_ & Eu & _).
  fold (enter_s mode d args s). fold (enter_p mode d args s).
  destruct o as [|w].
  - injection Hc as <- <-. destruct Hx as (s' & Hs & (A1 & A2 & A3) & K1 & K2).
    rewrite Hs. change (if mode then epilogue_let d rn s' else epilogue_set d (enter_p mode d args s) rn s') with (leave mode d (enter_p mode d args s) rn s').
    destruct (leave_ok mode d args rn s s' Hn Hl Hr K2) as (L1 & L2 & L3 & L4 & L5).
    eexists; split; [reflexivity|]; spl; try apply L5.
    + intros x Hx. rewrite L4 by assumption. apply A3.
    + intros x Hx. destruct (in_dec (fun a b => reflect_dec _ _ (fvar_eqb_spec a b)) x (restore_local_vars d)) as [Hd|Hd].
      * apply restore_in in Hd. auto.
      * rewrite restore_in in Hd. rewrite L3 by assumption. rewrite K1 by assumption. auto.
    + intros z E. congruence.
  - injection Hc as <- <-. destruct Hx as (s2 & Hs & K2 & A3 & K1 & Hv).
    rewrite Hs.
    destruct (leave_ok mode d args rn s s2 Hn Hl Hr K2) as (L1 & L2 & L3 & L4 & L5).
    eexists; split; [reflexivity|]; spl; try apply L5.
    + intros x Hx. rewrite L4 by assumption. auto.
    + intros x Hx. destruct (in_dec (fun a b => reflect_dec _ _ (fvar_eqb_spec a b)) x (restore_local_vars d)) as [Hd|Hd].
      * apply restore_in in Hd. auto.
      * rewrite restore_in in Hd. rewrite L3 by assumption. rewrite K1 by assumption. auto.
    + intros z E. rewrite L1. auto.
Qed.

Lemma dname_user x : user_name (dname x). Proof. destruct x; exact I. Qed.

Lemma exec_ok n : exec_post n.
Proof.
  induction n as [|n IH]; intros d ps r c fr g s o fr' g' H Ha Hr; [cbn [cexec] in H; congruence|].
  pose proof (call_from_exec n IH) as IC. clear IC.
  assert (IC : call_post n) by (apply call_from_exec; exact IH).
  destruct c as [|l e|l f args|e| |f args|a b|e a b|e a]; cbn [cexec] in H; cbn [sexec].
  - injection H as <- <- <-. exists s. auto using kept_refl.
  - destruct (cdest fr g l) as [x|] eqn:Ed; [|congruence].
    destruct (ceval fr g e) as [v|] eqn:Ee; [|congruence].
    rewrite (starget_ok d fr g s Ha l x Ed), (seval_ok d fr g s Ha e v Ee).
    pose proof (store_agree d fr g x v s Ha) as Hst.
    destruct (store_to x v fr g) as [fr2 g2]. injection H as <- <- <-.
    eexists. split; [reflexivity|]. split.
    + apply Hst.
      * intros y ->. eapply cdest_declared; eassumption.
      * apply set_same.
      * intros y Hy. apply set_other. assumption.
      * intros y Hy. apply set_other. assumption.
    + split; [|apply stk_set, dname_user].
      intros y Hy. apply set_other. intros E. destruct x as [x|x|]; cbn [dname] in E; try congruence.
      injection E as ->. apply Hy. eapply cdest_declared; eassumption.
  - destruct (cdest fr g l) as [x|] eqn:Ed; [|congruence].
    destruct (cevals fr g args) as [vs|] eqn:Ee; [|congruence].
    rewrite (starget_ok d fr g s Ha l x Ed), (sevals_ok d fr g s Ha args vs Ee).
    fold (ccall P n f vs g) in H. fold (scall mode P n f (dname x) vs s).
    destruct (ccall P n f vs g) as [[v g2]|] eqn:EC; [|congruence].
    destruct (IC f vs g v g2 (dname x) s EC (proj2 (proj2 Ha)) (dname_user x)) as (s3 & Hs & K & G & L & V).
    rewrite Hs.
    destruct v as [v|].
    + assert (Ha2 : agree d fr g2 (fun y => match y with NG z => g2 z | _ => s y end)).
      { destruct Ha as (A & B & C). spl; auto. }
      pose proof (store_agree d fr g2 x v _ Ha2) as Hst.
      destruct (store_to x v fr g2) as [fr3 g3]. injection H as <- <- <-.
      eexists. split; [reflexivity|]. split.
      * apply Hst.
        -- intros y ->. eapply cdest_declared; [|eassumption]. exact Ha.
        -- apply V. reflexivity.
        -- intros y Hy. apply L. assumption.
        -- intros y Hy. apply G. assumption.
      * split; [|assumption]. intros y Hy. apply L. intros E.
        destruct x as [x|x|]; cbn [dname] in E; try congruence.
        injection E as ->. apply Hy. eapply cdest_declared; [exact Ha|eassumption].
    + destruct x as [x|x|]; try congruence. injection H as <- <- <-. cbn [dname] in *.
      eexists. split; [reflexivity|]. split.
      * destruct Ha as (A & B & C). spl; eauto.
        -- intros y w Hy. rewrite L by congruence. auto.
        -- intros y. apply G. congruence.
      * split; [|assumption]. intros y Hy. apply L. congruence.
  - destruct (ceval fr g e) as [v|] eqn:Ee; [|congruence]. injection H as <- <- <-.
    rewrite (seval_ok d fr g s Ha e v Ee). exists (set s r v). split; [reflexivity|].
    destruct Ha as (A & B & C). spl.
    + apply stk_set; assumption.
    + apply stk_set; assumption.
    + intros x Hx. rewrite set_other by assumption. auto.
    + intros x _ Hx. apply set_other. assumption.
    + intros z [= <-]. apply set_same.
  - injection H as <- <- <-. exists s. destruct Ha as (A & B & C). spl; auto; congruence.
  - destruct (cevals fr g args) as [vs|] eqn:Ee; [|congruence].
    rewrite (sevals_ok d fr g s Ha args vs Ee).
    fold (ccall P n f vs g) in H. fold (scall mode P n f r vs s).
    destruct (ccall P n f vs g) as [[v g2]|] eqn:EC; [|congruence]. injection H as <- <- <-.
    destruct (IC f vs g v g2 r s EC (proj2 (proj2 Ha)) Hr) as (s3 & Hs & K & G & L & V).
    rewrite Hs. exists s3. spl; auto; apply K.
  - destruct (cexec P n a fr g) as [[[o1 fr1] g1]|] eqn:E1; [|congruence].
    pose proof (IH d ps r a fr g s _ _ _ E1 Ha Hr) as H1. destruct o1 as [|v].
    + destruct H1 as (s1 & Hs1 & Ha1 & K1). rewrite Hs1.
      pose proof (IH d ps r b _ _ s1 _ _ _ H Ha1 Hr) as H2. destruct o as [|v].
      * destruct H2 as (s2 & Hs2 & Ha2 & K2). exists s2. split; [exact Hs2|]. split; [exact Ha2|].
        eapply kept_trans; eassumption.
      * destruct H2 as (s2 & Hs2 & K2 & G & L & V). exists s2. split; [exact Hs2|].
        destruct K1 as [K1a K1b]. split; [eapply stk_trans; eassumption|]. spl; auto.
        intros x Hx Hne. rewrite L by assumption. auto.
    + injection H as <- <- <-. destruct H1 as (s1 & Hs1 & R). rewrite Hs1. exists s1. split; [reflexivity|exact R].
  - destruct (ceval fr g e) as [v|] eqn:Ee; [|congruence].
    rewrite (seval_ok d fr g s Ha e v Ee). apply (IH d ps r _ fr g s _ _ _ H Ha Hr).
  - destruct (ceval fr g e) as [v|] eqn:Ee; [|congruence].
    rewrite (seval_ok d fr g s Ha e v Ee).
    destruct (Z.eqb v 0).
    { injection H as <- <- <-. exists s. auto using kept_refl. }
    destruct (cexec P n a fr g) as [[[o1 fr1] g1]|] eqn:E1; [|congruence].
    pose proof (IH d ps r a fr g s _ _ _ E1 Ha Hr) as H1. destruct o1 as [|w].
    + destruct H1 as (s1 & Hs1 & Ha1 & K1). rewrite Hs1.
      pose proof (IH d ps r (SWhile e a) _ _ s1 _ _ _ H Ha1 Hr) as H2. destruct o as [|w].
      * destruct H2 as (s2 & Hs2 & Ha2 & K2). exists s2. split; [exact Hs2|]. split; [exact Ha2|].
        eapply kept_trans; eassumption.
      * destruct H2 as (s2 & Hs2 & K2 & G & L & V). exists s2. split; [exact Hs2|].
        destruct K1 as [K1a K1b]. split; [eapply stk_trans; eassumption|]. spl; auto.
        intros x Hx Hne. rewrite L by assumption. auto.
    + injection H as <- <- <-. destruct H1 as (s1 & Hs1 & R). rewrite Hs1. exists s1. split; [reflexivity|exact R].
Qed.
End Sim.

(* ================= the theorem ================= *)
(* [mode]: which variant of the back end.  The program may be any set of
   mutually recursive functions whose parameter lists have no duplicates (the
   compiler rejects the others). *)
Theorem c21_calls_keep_locals : forall (mode : bool) (P : prog),
  (forall f d, P f = Some d -> NoDup (params d)) ->
  forall n f args g v g' (r : name) (s : store),
  (* in C the call f(args) from globals g returns v (None: no value) and leaves g' *)
  ccall P n f args g = Some (v, g') ->
  (forall x, s (NG x) = g x) -> user_name r ->
  (* then the shell command  _f r args  terminates, and *)
  exists s', scall mode P n f r args s = Some s' /\
    (* every local variable and temporary of every function is as before *)
    (forall x, NL x <> r -> s' (NL x) = s (NL x)) /\
    (* globals and memory are as in C *)
    (forall x, NG x <> r -> s' (NG x) = g' x) /\
    (* the result is where it was asked for *)
    (forall z, v = Some z -> s' r = z) /\
    (* and the save stack is as before *)
    s' NSP = s NSP /\ (forall k, k <= s NSP -> s' (NStk k) = s (NStk k)).
Proof.
  intros mode P HP n f args g v g' r s Hc Hg Hr.
  destruct (call_from_exec mode P HP n (exec_ok mode P HP n) f args g v g' r s Hc Hg Hr) as (s3 & H1 & [K1 K2] & H2 & H3 & H4).
  exists s3. repeat split; auto.
Qed.

(* Non-vacuity: a recursive function with a parameter, a local and a temporary,
   called with its own temporary as the result variable (as the recursive call
   itself does). *)
Definition fact : fundef :=
  mkfun ["n"%string] ["r"%string] 1
    (SIf (EVar (FV "n"))
       (SSeq (SCall (LVar (FT 1)) "fact" [EOp (fun a b => Some (a - b)) (EVar (FV "n")) (EInt 1)])
       (SSeq (SAsg (LVar (FV "r")) (EOp (fun a b => Some (a * b)) (EVar (FV "n")) (EVar (FT 1))))
             (SRet (EVar (FV "r")))))
       (SRet (EInt 1))).
Definition factP : prog := fun f => if String.eqb f "fact" then Some fact else None.
Example fact_hyps : (forall f d, factP f = Some d -> NoDup (params d)) /\
  fst (match ccall factP 30 "fact" [5] (fun _ => 0) with Some x => x | None => (None, fun _ => 0) end) = Some 120.
Proof.
  split; [|vm_compute; reflexivity].
  intros f d. unfold factP. destruct (String.eqb f "fact"); [|congruence]. intros [= <-].
  repeat constructor. intros [].
Qed.
Example fact_runs :
  let s0 : store := fun x => match x with NL (FV "n") => 77 | NL (FV "r") => 88 | NL (FT 1) => 99 | NSP => 4 | _ => 5 end in
  forall mode, match scall mode factP 30 "fact" (NL (FT 1)) [5] s0 with
  | Some s' => s' (NL (FV "n")) = 77 /\ s' (NL (FV "r")) = 88 /\ s' (NL (FT 1)) = 120 /\ s' NSP = 4
  | None => False end.
Proof. intros s0 []; vm_compute; repeat split. Qed.

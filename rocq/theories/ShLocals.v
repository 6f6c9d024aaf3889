(* Local variables of the shell back end: the code emitted around a function
   body to save and restore them (sh.c 630-796, 2155-2290), the runtime
   functions let/endlet (sh-runtime.c 84-107), and the calls that use them.

   Shell variables are modelled by an inductive type of names; that distinct
   elements are printed as distinct shell identifiers is property C26
   (ShNames.v).  Expressions are the pure part of shell arithmetic; calls have
   already been hoisted out of them (sh.c 893-1058, property C27). *)
From Coq Require Import ZArith List String Bool Lia.
From Verif Require Import Base.
Import ListNotations.
Local Notation length := List.length.
Open Scope Z_scope.

(* Variables of one C function: declared names and compiler temporaries
   (IDENTIFIER and IDENTIFIER_INTERNAL, sh.c 470-475, 513-530). *)
Inductive fvar := FV (x : string) | FT (k : nat).
(* Variables shared by all functions: C globals and memory cells _<n>. *)
Inductive gvar := GV (x : string) | GC (a : Z).
(* Shell variables: the above, the save stack __<n>, its pointer __SP, the
   scratch variable __tmp and the "no result" target __ (sh-runtime.c 84-107). *)
Inductive name :=
| NL (x : fvar) | NG (x : gvar) | NStk (k : Z) | NSP | NTmp | NNone.

Definition fvar_eqb (a b : fvar) : bool :=
  match a, b with
  | FV x, FV y => String.eqb x y | FT x, FT y => Nat.eqb x y | _, _ => false end.
Definition gvar_eqb (a b : gvar) : bool :=
  match a, b with
  | GV x, GV y => String.eqb x y | GC x, GC y => Z.eqb x y | _, _ => false end.
Definition name_eqb (a b : name) : bool :=
  match a, b with
  | NL x, NL y => fvar_eqb x y | NG x, NG y => gvar_eqb x y
  | NStk x, NStk y => Z.eqb x y | NSP, NSP => true | NTmp, NTmp => true
  | NNone, NNone => true | _, _ => false end.

Lemma fvar_eqb_spec a b : reflect (a = b) (fvar_eqb a b).
Proof.
  destruct a as [x|k], b as [y|l]; cbn [fvar_eqb]; try (constructor; congruence).
  - destruct (String.eqb_spec x y); constructor; congruence.
  - destruct (Nat.eqb_spec k l); constructor; congruence.
Qed.
Lemma gvar_eqb_spec a b : reflect (a = b) (gvar_eqb a b).
Proof.
  destruct a as [x|k], b as [y|l]; cbn [gvar_eqb]; try (constructor; congruence).
  - destruct (String.eqb_spec x y); constructor; congruence.
  - destruct (Z.eqb_spec k l); constructor; congruence.
Qed.
Lemma name_eqb_spec a b : reflect (a = b) (name_eqb a b).
Proof.
  destruct a, b; cbn [name_eqb]; try (constructor; congruence).
  - destruct (fvar_eqb_spec x x0); constructor; congruence.
  - destruct (gvar_eqb_spec x x0); constructor; congruence.
  - destruct (Z.eqb_spec k k0); constructor; congruence.
Qed.

Definition store := name -> Z.
Definition set (s : store) (x : name) (v : Z) : store :=
  fun y => if name_eqb y x then v else s y.

(* ---- the program, after hoisting of calls ---- *)
Inductive ex :=
| EInt (z : Z) | EVar (x : fvar) | EGlo (x : string) | ECell (e : ex)
| EOp (f : Z -> Z -> option Z) (a b : ex).
Inductive lv := LVar (x : fvar) | LGlo (x : string) | LCell (e : ex) | LNone.
Inductive st :=
| SSkip | SAsg (l : lv) (e : ex) | SCall (l : lv) (f : string) (args : list ex)
| SRet (e : ex) | SRet0 | SRetCall (f : string) (args : list ex)
| SSeq (a b : st) | SIf (e : ex) (a b : st) | SWhile (e : ex) (a : st).

(* [decls] lists the local declarations in the order the compiler meets them
   (a name may be declared again in another block); [temps] is fun_gensym_ix. *)
Record fundef := mkfun { params : list string; decls : list string; temps : nat; body : st }.
Definition prog := string -> option fundef.

(* env.c 128-136 cgc_add_local_var: a variable enters the cumulative
   environment cgc_locals_fun, newest first, unless a variable of that name is
   there; the flag is binding_kind == BINDING_PARAM_LOCAL. *)
Definition add_var (isparam : bool) (env : list (string * bool)) (x : string) :=
  if existsb (fun b => String.eqb (fst b) x) env then env else (x, isparam) :: env.
Definition locals_fun (d : fundef) : list (string * bool) :=
  fold_left (add_var false) (decls d) (fold_left (add_var true) (params d) []).

(* __tmp$counter, ..., __t1 *)
Fixpoint down (k : nat) : list fvar := match k with O => [] | S k' => FT k :: down k' end.

(* ---- code emitted by default: let / endlet ---- *)

(* One "let" command: variable and optional value ($k of the call). *)
Inductive letc := Let (x : fvar) (v : option nat).

(* sh.c 709-727 let_params: "let p1 $2; let p2 $3; ..." on the header line. *)
Fixpoint let_params_from (k : nat) (ps : list string) : list letc :=
  match ps with [] => [] | p :: t => Let (FV p) (Some k) :: let_params_from (S k) t end.
Definition let_params (d : fundef) := let_params_from 2 (params d).

(* sh.c 729-760 save_local_vars: both loops prepend. *)
Fixpoint pre_temps (k : nat) (res : list letc) : list letc :=
  match k with O => res | S k' => pre_temps k' (Let (FT k) None :: res) end.
Fixpoint pre_env (env : list (string * bool)) (res : list letc) : list letc :=
  match env with
  | [] => res
  | (x, true) :: t => pre_env t res
  | (x, false) :: t => pre_env t (Let (FV x) None :: res)
  end.
Definition save_local_vars (d : fundef) : list letc :=
  pre_env (locals_fun d) (pre_temps (temps d) []).

(* sh.c 762-796 restore_local_vars: "endlet $1 __tn .. __t1 newest .. oldest". *)
Definition restore_local_vars (d : fundef) : list fvar :=
  down (temps d) ++ map (fun b => FV (fst b)) (locals_fun d).

(* sh-runtime.c 88-92 let: push, then initialise. *)
Definition rt_let (s : store) (x : fvar) (v : option Z) : store :=
  let sp := s NSP + 1 in
  let s1 := set s NSP sp in
  let s2 := set s1 (NStk sp) (s1 (NL x)) in
  set s2 (NL x) (match v with Some w => w | None => 0 end).

Definition pos (args : list Z) (k : nat) : option Z := nth_error args (k - 2).

Definition run_let (args : list Z) (s : store) (c : letc) : store :=
  match c with Let x v => rt_let s x (match v with Some k => pos args k | None => None end) end.

(* sh-runtime.c 96-106 endlet. *)
Definition rt_pop (s : store) (x : fvar) : store :=
  let sp := s NSP - 1 in
  let s1 := set s NSP sp in
  set s1 (NL x) (s1 (NStk (sp + 1))).
Definition rt_endlet (s : store) (r : name) (xs : list fvar) : store :=
  let s1 := set s NTmp (s r) in
  let s2 := fold_left rt_pop xs s1 in
  set s2 r (s2 NTmp).

(* restore_local_vars emits nothing when there is nothing to restore. *)
Definition epilogue_let (d : fundef) (r : name) (s : store) : store :=
  match restore_local_vars d with [] => s | xs => rt_endlet s r xs end.
Definition prologue_let (d : fundef) (args : list Z) (s : store) : store :=
  fold_left (run_let args) (let_params d ++ save_local_vars d) s.

(* ---- code emitted with SH_SAVE_VARS_WITH_SET ---- *)

(* sh.c 631-658 save_local_vars: "set $@ $oldest .. $newest $__t1 .. $__tn"
   (the first loop prepends, the second appends). *)
Fixpoint pre_vars (env : list (string * bool)) (res : list fvar) : list fvar :=
  match env with [] => res | (x, _) :: t => pre_vars t (FV x :: res) end.
Fixpoint app_temps (n counter : nat) (res : list fvar) : list fvar :=
  match counter with O => res | S c => app_temps n c (res ++ [FT (n - counter + 1)]) end.
Definition set_saved (d : fundef) : list fvar :=
  app_temps (temps d) (temps d) (pre_vars (locals_fun d) []).

(* sh.c 661-705 restore_local_vars: the list of "$((x = $pos))", in the order of
   the text. *)
Fixpoint pre_restore (pc size lp : nat) (env : list (string * bool)) (res : list (fvar * nat))
  : list (fvar * nat) :=
  match env with
  | [] => res
  | (x, _) :: t => pre_restore pc size (S lp) t ((FV x, pc + size - lp)%nat :: res)
  end.
Fixpoint app_restore (pc n counter lp : nat) (res : list (fvar * nat)) : list (fvar * nat) :=
  match counter with
  | O => res
  | S c => app_restore pc n c (S lp) (res ++ [(FT (n - counter + 1), pc + lp + 1)%nat])
  end.
Definition set_restored (d : fundef) (pc : nat) : list (fvar * nat) :=
  let size := length (locals_fun d) in
  app_restore pc (temps d) (temps d) size (pre_restore pc size 0 (locals_fun d) []).

(* Positional parameters: $1 is the name of the result variable, $2.. numbers. *)
Definition posz (ps : list Z) (k : nat) : Z := nth (k - 2) ps 0.

(* Parameters are initialised after the save (sh.c 2248-2259). *)
Fixpoint init_params (ps : list Z) (k : nat) (l : list string) (s : store) : store :=
  match l with
  | [] => s
  | p :: t => init_params ps (S k) t (set s (NL (FV p)) (posz ps k))
  end.
Definition prologue_set (d : fundef) (args : list Z) (s : store) : list Z * store :=
  let ps := args ++ map (fun x => s (NL x)) (set_saved d) in
  (ps, init_params ps 2 (params d) s).
Definition epilogue_set (d : fundef) (ps : list Z) (r : name) (s : store) : store :=
  match set_restored d (length (params d) + 1) with
  | [] => s
  | l =>
    let s1 := set s NTmp (s r) in
    let s2 := fold_left (fun s b => set s (NL (fst b)) (posz ps (snd b))) l s1 in
    set s2 r (s2 NTmp)
  end.

(* ---- running the generated code ---- *)
Fixpoint seval (s : store) (e : ex) : option Z :=
  match e with
  | EInt z => Some z
  | EVar x => Some (s (NL x))
  | EGlo x => Some (s (NG (GV x)))
  | ECell e => match seval s e with Some a => Some (s (NG (GC a))) | None => None end
  | EOp f a b => match seval s a with
                 | Some x => match seval s b with Some y => f x y | None => None end
                 | None => None end
  end.
Fixpoint sevals (s : store) (l : list ex) : option (list Z) :=
  match l with
  | [] => Some []
  | e :: t => match seval s e with
              | Some v => match sevals s t with Some vs => Some (v :: vs) | None => None end
              | None => None end
  end.
Definition starget (s : store) (l : lv) : option name :=
  match l with
  | LVar x => Some (NL x) | LGlo x => Some (NG (GV x)) | LNone => Some NNone
  | LCell e => match seval s e with Some a => Some (NG (GC a)) | None => None end
  end.

(* [mode] = true: let/endlet, false: set.  A return statement assigns $1 and
   then runs the epilogue (sh.c 2038-2080); in tail position control reaches
   the epilogue at the end of the function instead (property C28), which is the
   same command. *)
Section Shell.
Variable mode : bool.
Variable P : prog.

Inductive sres := SNext (s : store) | SDone (s : store).

(* sh.c 1735-1777, 2155-2290: a call is "_f target args..". *)
Fixpoint sexec (n : nat) (d : fundef) (ps : list Z) (r : name) (c : st) (s : store) : option sres :=
  match n with
  | O => None
  | S n =>
    let call f rn args s : option store :=
      match P f with
      | None => None
      | Some d' =>
        let s1 := if mode then prologue_let d' args s else snd (prologue_set d' args s) in
        let ps' := if mode then args else fst (prologue_set d' args s) in
        match sexec n d' ps' rn (body d') s1 with
        | Some (SNext s2) => Some (if mode then epilogue_let d' rn s2 else epilogue_set d' ps' rn s2)
        | Some (SDone s2) => Some s2
        | None => None
        end
      end in
    let leave s := if mode then epilogue_let d r s else epilogue_set d ps r s in
    match c with
    | SSkip => Some (SNext s)
    | SAsg l e =>
      match starget s l, seval s e with
      | Some x, Some v => Some (SNext (set s x v)) | _, _ => None end
    | SCall l f args =>
      match starget s l, sevals s args with
      | Some x, Some vs => match call f x vs s with Some s' => Some (SNext s') | None => None end
      | _, _ => None end
    | SRet e => match seval s e with Some v => Some (SDone (leave (set s r v))) | None => None end
    | SRet0 => Some (SDone (leave s))
    | SRetCall f args =>
      match sevals s args with
      | Some vs => match call f r vs s with Some s' => Some (SDone (leave s')) | None => None end
      | None => None end
    | SSeq a b =>
      match sexec n d ps r a s with
      | Some (SNext s') => sexec n d ps r b s'
      | x => x end
    | SIf e a b =>
      match seval s e with
      | Some v => sexec n d ps r (if Z.eqb v 0 then b else a) s | None => None end
    | SWhile e a =>
      match seval s e with
      | Some v => if Z.eqb v 0 then Some (SNext s)
                  else match sexec n d ps r a s with
                       | Some (SNext s') => sexec n d ps r c s'
                       | x => x end
      | None => None end
    end
  end.

Definition scall (n : nat) (f : string) (rn : name) (args : list Z) (s : store) : option store :=
  match P f with
  | None => None
  | Some d' =>
    let s1 := if mode then prologue_let d' args s else snd (prologue_set d' args s) in
    let ps' := if mode then args else fst (prologue_set d' args s) in
    match sexec n d' ps' rn (body d') s1 with
    | Some (SNext s2) => Some (if mode then epilogue_let d' rn s2 else epilogue_set d' ps' rn s2)
    | Some (SDone s2) => Some s2
    | None => None
    end
  end.
End Shell.

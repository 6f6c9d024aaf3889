(** * Compile-time environments (env.c) *)
From Coq Require Import ZArith List Lia Bool.
From Verif Require Import Base.
Import ListNotations.
Open Scope Z_scope.

(** env.c:11-26 *)
Definition K_PARAM := 0. Definition K_VAR := 1. Definition K_GLOBAL := 2. Definition K_ENUM_CST := 3.
Definition K_LOOP := 4. Definition K_SWITCH := 5. Definition K_FUN := 6. Definition K_GOTO := 7.
Definition K_STRUCT := 8. Definition K_UNION := 9. Definition K_ENUM := 10.

(** ** Model *)
Definition HEAP_SIZE := 2000000.
(** The heap cells, [heap_alloc], [cgc_fs], [cgc_locals], [cgc_locals_fun], [cgc_globals], [cgc_global_alloc]
    (pnut.c:327-329, env.c:1-9), and the values of the C locals [save_fs]/[save_locals] (or [save_locals_fun]) of
    the active calls of codegen_body, codegen_statement and codegen_glo_fun_decl, innermost first. *)
Record env := Env { heap : Z -> Z; halloc : Z; fs : Z; locals : Z; locals_fun : Z; globals : Z; galloc : Z;
                    saved : list (Z * Z); saved_fun : Z }.

(** env.c:36-112: the lookup loops.  Bindings point to older, lower bindings, so [binding + 1] steps are enough. *)
Fixpoint lookup_go (test : Z -> bool) (h : Z -> Z) (fuel : nat) (b : Z) : Z :=
  match fuel with
  | O => 0
  | S f => if b =? 0 then 0 else if test b then b else lookup_go test h f (h b)
  end.
Definition lookup_loop (test : Z -> bool) (h : Z -> Z) (b : Z) : Z := lookup_go test h (S (Z.to_nat b)) b.
Definition lookup_binding_ident (h : Z -> Z) (kind ident b : Z) : Z :=
  lookup_loop (fun b => (h (b + 1) =? kind) && (h (b + 2) =? ident)) h b.
Definition lookup_last_binding (h : Z -> Z) (kind b : Z) : Z := lookup_loop (fun b => h (b + 1) =? kind) h b.
Definition lookup_var (h : Z -> Z) (ident b : Z) : Z :=
  lookup_loop (fun b => (h (b + 1) <=? K_GLOBAL) && (h (b + 2) =? ident)) h b.
Definition lookup_enclosing_loop_or_switch (h : Z -> Z) (b : Z) : Z :=
  lookup_loop (fun b => (h (b + 1) =? K_LOOP) || (h (b + 1) =? K_SWITCH)) h b.

(** pnut.c:332-343 [alloc_obj], then filling in the cells. *)
Fixpoint store (h : Z -> Z) (a : Z) (l : list Z) : Z -> Z :=
  match l with [] => h | v :: r => store (upd h a v) (a + 1) r end.
Definition alloc (s : env) (cells : list Z) : option (Z * env) :=
  let n := Z.of_nat (length cells) in
  if HEAP_SIZE <? halloc s + n then None
  else Some (halloc s, Env (store (heap s) (halloc s) cells) (halloc s + n) (fs s) (locals s) (locals_fun s) (globals s)
                           (galloc s) (saved s) (saved_fun s)).
Definition with_locals (s : env) (b : Z) := Env (heap s) (halloc s) (fs s) b (locals_fun s) (globals s) (galloc s) (saved s) (saved_fun s).
Definition with_globals (s : env) (b : Z) := Env (heap s) (halloc s) (fs s) (locals s) (locals_fun s) b (galloc s) (saved s) (saved_fun s).
Definition with_lfun (s : env) (b : Z) := Env (heap s) (halloc s) (fs s) (locals s) b (globals s) (galloc s) (saved s) (saved_fun s).
Definition with_fs (s : env) (n : Z) := Env (heap s) (halloc s) n (locals s) (locals_fun s) (globals s) (galloc s) (saved s) (saved_fun s).
Definition with_galloc (s : env) (n : Z) := Env (heap s) (halloc s) (fs s) (locals s) (locals_fun s) (globals s) n (saved s) (saved_fun s).
Definition with_heap (s : env) (h : Z -> Z) := Env h (halloc s) (fs s) (locals s) (locals_fun s) (globals s) (galloc s) (saved s) (saved_fun s).
Definition with_saved (s : env) (l : list (Z * Z)) := Env (heap s) (halloc s) (fs s) (locals s) (locals_fun s) (globals s) (galloc s) l (saved_fun s).
Definition with_saved_fun (s : env) (b : Z) := Env (heap s) (halloc s) (fs s) (locals s) (locals_fun s) (globals s) (galloc s) (saved s) b.

(** What the code generator does to its environment. *)
Inductive ev :=
| EParam (x width type : Z)          (* env.c:148-151 *)
| EVar (x width type : Z)            (* env.c:153-156 *)
| ELoop (brk cont : Z)               (* env.c:158-166, always called with cgc_fs *)
| ESwitch (brk next : Z)             (* env.c:168-177, always called with cgc_fs *)
| EGlobal (x width type : Z)         (* env.c:179-194, is_static_local = false *)
| EStatic (x width type : Z)         (* env.c:179-194, is_static_local = true *)
| EFun (x lbl type : Z)              (* env.c:196-205 *)
| EEnumCst (x value : Z)             (* env.c:207-214 *)
| ELabel (x lbl : Z)                 (* env.c:216-223 *)
| EType (x kind type : Z)            (* env.c:225-232 *)
| ENextCase (l : Z)                  (* exe.c:2254: heap[binding + 4] of the enclosing switch *)
| EDefault (l : Z)                   (* exe.c:2275: heap[binding + 5] of the enclosing switch *)
| EGrow (n : Z)                      (* grow_fs *)
| EOther (cells : list Z)            (* any other object allocated in the heap *)
| EOpen                              (* exe.c:2067-2068 and the loops/switch: save cgc_fs and cgc_locals *)
| EClose                             (* exe.c:2083-2084 and the loops/switch: restore them *)
| EFunBegin                          (* exe.c:2374, 2402-2403: cgc_fs = -1; cgc_locals = 0 *)
| EFunBody                           (* exe.c:2405: cgc_fs = 0 after the parameters *)
| EFunEnd.                           (* exe.c:2410-2414: cgc_fs = 0; cgc_locals_fun restored *)

Definition add_local (s : env) (kind x type : Z) : option env :=
  match alloc s [locals s; kind; x; fs s; type] with Some (b, s') => Some (with_locals s' b) | None => None end.
Definition set_field (s : env) (i v : Z) : option env :=
  let b := lookup_last_binding (heap s) K_SWITCH (locals s) in
  if b =? 0 then None else Some (with_heap s (upd (heap s) (b + i) v)).
Definition estep (s : env) (e : ev) : option env :=
  match e with
  | EParam x w t => match add_local s K_PARAM x t with Some s' => Some (with_fs s' (fs s' - w)) | None => None end
  | EVar x w t => add_local (with_fs s (fs s + w)) K_VAR x t
  | ELoop brk cont => match alloc s [locals s; K_LOOP; fs s; brk; cont] with Some (b, s') => Some (with_locals s' b) | None => None end
  | ESwitch brk next => match alloc s [locals s; K_SWITCH; fs s; brk; next; 0] with Some (b, s') => Some (with_locals s' b) | None => None end
  | EGlobal x w t => match alloc s [globals s; K_GLOBAL; x; galloc s; t] with Some (b, s') => Some (with_galloc (with_globals s' b) (galloc s' + w)) | None => None end
  | EStatic x w t => match alloc s [locals s; K_GLOBAL; x; galloc s; t] with Some (b, s') => Some (with_galloc (with_locals s' b) (galloc s' + w)) | None => None end
  | EFun x l t => match alloc s [globals s; K_FUN; x; 0; l; t] with Some (b, s') => Some (with_globals s' b) | None => None end
  | EEnumCst x v => match alloc s [globals s; K_ENUM_CST; x; v] with Some (b, s') => Some (with_globals s' b) | None => None end
  | ELabel x l => match alloc s [locals_fun s; K_GOTO; x; l] with Some (b, s') => Some (with_lfun s' b) | None => None end
  | EType x k t => match alloc s [globals s; k; x; t] with Some (b, s') => Some (with_globals s' b) | None => None end
  | ENextCase l => set_field s 4 l
  | EDefault l => set_field s 5 l
  | EGrow n => Some (with_fs s (fs s + n))
  | EOther cells => option_map snd (alloc s cells)
  | EOpen => Some (with_saved s ((fs s, locals s) :: saved s))
  | EClose => match saved s with (f, l) :: r => Some (with_saved (with_locals (with_fs s f) l) r) | [] => None end
  | EFunBegin => match saved s with [] => Some (with_saved_fun (with_locals (with_fs s (-1)) 0) (locals_fun s)) | _ => None end
  | EFunBody => Some (with_fs s 0)
  | EFunEnd => match saved s with [] => Some (with_lfun (with_fs s 0) (saved_fun s)) | _ => None end
  end.
Fixpoint erun (s : env) (l : list ev) : option env :=
  match l with [] => Some s | e :: r => match estep s e with Some s' => erun s' r | None => None end end.
(** pnut.c:329 (HASH_PRIME), env.c:1-9.  The heap starts with the identifier table, of any contents. *)
Definition env0 (h : Z -> Z) (a : Z) : env := Env h a 0 0 0 0 0 [] 0.
(** exe.c:803-820 [resolve_identifier]; 0: "identifier not found". *)
Definition resolve_identifier (s : env) (x : Z) : Z :=
  let b := lookup_var (heap s) x (locals s) in if negb (b =? 0) then b else
  let b := lookup_var (heap s) x (globals s) in if negb (b =? 0) then b else
  let b := lookup_binding_ident (heap s) K_FUN x (globals s) in if negb (b =? 0) then b else
  lookup_binding_ident (heap s) K_ENUM_CST x (globals s).

(** ** Specification: scopes as stacks of declarations *)
(** One declaration, loop or switch.  [slot] is the frame offset in words of a local, the address of a global. *)
Inductive decl :=
| DParam (x slot type : Z) | DVar (x slot type : Z) | DGlobal (x addr type : Z)
| DLoop (depth brk cont : Z) | DSwitch (depth brk next dflt : Z)
| DFun (x lbl type : Z) | DEnumCst (x v : Z) | DLabel (x lbl : Z) | DType (kind x type : Z).
(** Open scopes, innermost first, each with its declarations, latest first, and the frame depth at its opening. *)
Record scopes := Sc { inner : list decl; outer : list (Z * list decl); gl : list decl; lf : list decl; lf_saved : list decl;
                      depth : Z; next_addr : Z }.
Definition visible (s : scopes) : list decl := inner s ++ concat (map snd (outer s)).
Definition is_switch (d : decl) : bool := match d with DSwitch _ _ _ _ => true | _ => false end.
Definition is_loop (d : decl) : bool := match d with DLoop _ _ _ => true | _ => false end.
Definition is_var (x : Z) (d : decl) : bool :=
  match d with DParam y _ _ | DVar y _ _ | DGlobal y _ _ => y =? x | _ => false end.
Definition is_fun (x : Z) (d : decl) : bool := match d with DFun y _ _ => y =? x | _ => false end.
Definition is_enum_cst (x : Z) (d : decl) : bool := match d with DEnumCst y _ => y =? x | _ => false end.
Definition is_label (x : Z) (d : decl) : bool := match d with DLabel y _ => y =? x | _ => false end.
Definition is_type (k x : Z) (d : decl) : bool := match d with DType k' y _ => (k' =? k) && (y =? x) | _ => false end.
(** Change the first switch of a list of declarations; of the innermost scope that has one. *)
Fixpoint set1 (f : decl -> decl) (l : list decl) : option (list decl) :=
  match l with [] => None | d :: r => if is_switch d then Some (f d :: r) else option_map (cons d) (set1 f r) end.
Fixpoint set_out (f : decl -> decl) (l : list (Z * list decl)) : option (list (Z * list decl)) :=
  match l with
  | [] => None
  | (n, ds) :: r => match set1 f ds with Some ds' => Some ((n, ds') :: r) | None => option_map (cons (n, ds)) (set_out f r) end
  end.
Definition set_sw (f : decl -> decl) (s : scopes) : option scopes :=
  match set1 f (inner s) with
  | Some l => Some (Sc l (outer s) (gl s) (lf s) (lf_saved s) (depth s) (next_addr s))
  | None => match set_out f (outer s) with
            | Some o => Some (Sc (inner s) o (gl s) (lf s) (lf_saved s) (depth s) (next_addr s))
            | None => None end
  end.
Definition decl_inner (s : scopes) (d : decl) (dp na : Z) := Sc (d :: inner s) (outer s) (gl s) (lf s) (lf_saved s) dp na.
Definition decl_global (s : scopes) (d : decl) (na : Z) := Sc (inner s) (outer s) (d :: gl s) (lf s) (lf_saved s) (depth s) na.
Definition sstep (s : scopes) (e : ev) : option scopes :=
  match e with
  | EParam x w t => Some (decl_inner s (DParam x (depth s) t) (depth s - w) (next_addr s))
  | EVar x w t => Some (decl_inner s (DVar x (depth s + w) t) (depth s + w) (next_addr s))
  | ELoop b c => Some (decl_inner s (DLoop (depth s) b c) (depth s) (next_addr s))
  | ESwitch b n => Some (decl_inner s (DSwitch (depth s) b n 0) (depth s) (next_addr s))
  | EStatic x w t => Some (decl_inner s (DGlobal x (next_addr s) t) (depth s) (next_addr s + w))
  | EGlobal x w t => Some (decl_global s (DGlobal x (next_addr s) t) (next_addr s + w))
  | EFun x l t => Some (decl_global s (DFun x l t) (next_addr s))
  | EEnumCst x v => Some (decl_global s (DEnumCst x v) (next_addr s))
  | EType x k t => Some (decl_global s (DType k x t) (next_addr s))
  | ELabel x l => Some (Sc (inner s) (outer s) (gl s) (DLabel x l :: lf s) (lf_saved s) (depth s) (next_addr s))
  | ENextCase l => set_sw (fun d => match d with DSwitch a b _ e => DSwitch a b l e | _ => d end) s
  | EDefault l => set_sw (fun d => match d with DSwitch a b n _ => DSwitch a b n l | _ => d end) s
  | EGrow n => Some (Sc (inner s) (outer s) (gl s) (lf s) (lf_saved s) (depth s + n) (next_addr s))
  | EOther _ => Some s
  | EOpen => Some (Sc [] ((depth s, inner s) :: outer s) (gl s) (lf s) (lf_saved s) (depth s) (next_addr s))
  | EClose => match outer s with (d, l) :: r => Some (Sc l r (gl s) (lf s) (lf_saved s) d (next_addr s)) | [] => None end
  | EFunBegin => match outer s with [] => Some (Sc [] [] (gl s) (lf s) (lf s) (-1) (next_addr s)) | _ => None end
  | EFunBody => Some (Sc (inner s) (outer s) (gl s) (lf s) (lf_saved s) 0 (next_addr s))
  | EFunEnd => match outer s with [] => Some (Sc (inner s) [] (gl s) (lf_saved s) (lf_saved s) 0 (next_addr s)) | _ => None end
  end.
Fixpoint srun (s : scopes) (l : list ev) : option scopes :=
  match l with [] => Some s | e :: r => match sstep s e with Some s' => srun s' r | None => None end end.
Definition scopes0 := Sc [] [] [] [] [] 0 0.
(** The kinds of types that may be declared. *)
Definition ev_ok (e : ev) : Prop := match e with EType _ k _ => k = K_STRUCT \/ k = K_UNION \/ k = K_ENUM | _ => True end.

(** The cells of the binding of a declaration, after the link: what the code generator reads from it. *)
Definition cells_of (d : decl) : list Z :=
  match d with
  | DParam x o t => [K_PARAM; x; o; t] | DVar x o t => [K_VAR; x; o; t] | DGlobal x a t => [K_GLOBAL; x; a; t]
  | DLoop n b c => [K_LOOP; n; b; c] | DSwitch n b c d => [K_SWITCH; n; b; c; d]
  | DFun x l t => [K_FUN; x; 0; l; t] | DEnumCst x v => [K_ENUM_CST; x; v] | DLabel x l => [K_GOTO; x; l]
  | DType k x t => [k; x; t]
  end.
(** [b] is the binding of the first declaration of [l] satisfying [p]: 0 iff there is none. *)
Definition finds (h : Z -> Z) (b : Z) (p : decl -> bool) (l : list decl) : Prop :=
  match find p l with
  | None => b = 0
  | Some d => b <> 0 /\ forall i, (i < length (cells_of d))%nat -> h (b + 1 + Z.of_nat i) = nth i (cells_of d) 0
  end.

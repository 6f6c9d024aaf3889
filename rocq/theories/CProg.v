(** * Whole C programs (specification): declarations at file scope, and what running them means

    Global variables get objects of their own, zero (6.7.9 10), then the initializers are evaluated in order, then main is
    called; the program's status is what main returns, modulo 256 (0 for a void main).  As in CLang, [Q] must hold of every
    way to place the objects.  Falling off the end of a main that returns a value is treated as undefined (in C99 it
    returns 0: see PropNative for what pnut does). *)
From Coq Require Import ZArith List Lia Bool.
From Verif Require Import Base X86Sem CLang.
Import ListNotations.
Open Scope Z_scope.

(** Names of functions; 1-16 are the names pnut binds itself (exe.c:1669-1735). *)
Definition id_main := 1. Definition id_exit := 2. Definition id_read := 3. Definition id_write := 4. Definition id_open := 5.
Definition id_close := 6. Definition id_lseek := 7. Definition id_unlink := 8. Definition id_putchar := 9. Definition id_getchar := 10.
Definition id_fopen := 11. Definition id_fclose := 12. Definition id_fgetc := 13. Definition id_malloc := 14. Definition id_free := 15.
Definition id_printf := 16.

(** Top-level declarations: variables, function prototypes, function definitions, structures (the members with the
    offsets that the implementation chose). *)
Inductive gdecl :=
| DVar (x : Z) (t : ty) (i : option expr) | DProto (f : Z) (rt : ty) | DFun (f : Z) (ps : list (Z * ty)) (rt : ty) (body : items)
| DStruct (id : Z) (ms : list (Z * (Z * ty))).

Fixpoint fun_def (ds : list gdecl) (f : Z) : option (list (Z * ty) * ty * items) :=
  match ds with
  | [] => None
  | DFun g ps rt b :: r => if f =? g then Some (ps, rt, b) else fun_def r f
  | _ :: r => fun_def r f
  end.
(** The members of a structure. *)
Fixpoint str_def (ds : list gdecl) (id : Z) : option (list (Z * (Z * ty))) :=
  match ds with
  | [] => None
  | DStruct g ms :: r => if id =? g then Some ms else str_def r id
  | _ :: r => str_def r id
  end.
(** The functions that may be called: putchar, getchar and the program's own, but not main. *)
Definition cfun (ds : list gdecl) (f : Z) : option fdef :=
  if f =? id_putchar then Some FPutchar else if f =? id_getchar then Some FGetchar else if f =? id_main then None
  else match fun_def ds f with Some (ps, rt, b) => Some (FUser ps rt b) | None => None end.
Definition cmem_ (ds : list gdecl) (id m : Z) : option (Z * ty) := match str_def ds id with Some ms => lookupZ ms m | None => None end.
Definition cfuns (ds : list gdecl) : cdecls := CDecls (cfun ds) (cmem_ ds).

Section C.
Variables (W : Z) (funs : cdecls).
(** Objects for the global variables. *)
Fixpoint globals (ds : list gdecl) (V : list (Z * (Z * ty))) (L : list (Z * Z)) (K : list (Z * (Z * ty)) -> list (Z * Z) -> Prop) : Prop :=
  match ds with
  | [] => K V L
  | DVar x t _ :: r => forall a, fresh W L a (csize W t) -> globals r ((x, (a, t)) :: V) ((a, csize W t) :: L) K
  | _ :: r => globals r V L K
  end.
(** The initializers, in order. *)
Fixpoint inits (n : nat) (V : list (Z * (Z * ty))) (L : list (Z * Z)) (ds : list gdecl) (s : cst) (K : cst -> Prop) : Prop :=
  match ds with
  | [] => K s
  | DVar x t (Some e) :: r =>
      match lookupZ V x with
      | Some (a, _) => ce W funs V n (Env V L) e s (fun v s => writes W (Env V L) t a v s (fun s => inits n V L r s K))
      | None => False
      end
  | _ :: r => inits n V L r s K
  end.
End C.

(** [cprog W ds n La m0 argc argv inp Q]: running the program within [n] levels of recursion, with the memory blocks [La]
    (holding the arguments) and standard input [inp], ends with a status and a final state satisfying [Q]. *)
Definition cprog (W : Z) (ds : list gdecl) (n : nat) (La : list (Z * Z)) (m0 : Z -> Z) (argc argv : Z) (inp : list Z) (Q : Z -> cst -> Prop) : Prop :=
  globals W ds [] La (fun V L =>
    forall m, bytes_ok m -> (forall x, inlive La x -> m x = m0 x) -> (forall x, inlive L x -> ~ inlive La x -> m x = 0) ->
    inits W (cfuns ds) n V L ds (CS m [] inp) (fun s =>
      match fun_def ds id_main with
      | Some (ps, rt, body) =>
          (length ps <= 2)%nat /\ bindp W ps (firstn (length ps) [argc; argv]) V L (cmem s) (fun V' L' m' =>
            ci W (cfuns ds) V n (Env V' L') body (setmem s m') (fun o s =>
              match o with
              | OReturn v => Q (match rt with TVoid => 0 | _ => conv W rt v mod 256 end) s
              | ONormal => rt = TVoid /\ Q 0 s
              | _ => False
              end))
      | None => False
      end)).

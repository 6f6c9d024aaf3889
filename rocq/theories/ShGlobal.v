(** * The global declarations of a script (sh.c:2285-2490, sh-runtime.c:278-335, 448-508)

    Model of comp_glo_var_decl (sh.c:2285), comp_initializer_list (1097), comp_defstr (1060),
    comp_assignment_constant (2363), comp_enum_cases (2370), comp_struct (2413), handle_typedef (2458) and
    comp_glo_decl (2474) on declarations of variables, arrays, enumerations and structures, and of the runtime
    functions _malloc, initialize, defarr and defstr as they run at the start of a script.

    The state of the shell has unset variables ([gv] is partial: the scripts run under set -u), readonly
    variables and the definition of defarr, which depends on what was declared before it was first
    needed (sh-runtime.c:314-331: the text of a runtime function is printed once).

    Simplifications: the decoding of a string literal by defstr is C20, here defstr gets the bytes; the variables that
    the runtime functions use for themselves ([scratch]) get arbitrary values; initialiser lists have no string
    literals; initialisers of variables have no calls and no string literals; the comment lines and blank lines are left out;
    -D RT_UNSAFE_HEAP and SUPPORT_ADDRESS_OF_OP are off. *)
From Coq Require Import ZArith List Lia Bool.
From Verif Require Import Base Ast Parse ShArith ShExpr ShCSem ShSem.
Import ListNotations.
Open Scope Z_scope.
Local Notation length := List.length.

(** ** Declarations *)
Inductive elem := LInt (n : Z) | LHex (n : Z) | LOct (n : Z) | LChr (c : Z).
Inductive gdecl :=
| DVar (x : nat) (init : option xe)                         (* int x;  int x = init; *)
| DArr (x : nat) (len : Z) (els : option (list elem))       (* int x[len];  int x[len] = { els };  len = 0: int x[] *)
| DStr (x : nat) (len : Z) (bytes : list Z)                 (* char x[len] = "bytes";  len = 0: char x[] *)
| DEnum (l : list (nat * Z))                                (* enum { x = v, ... }, with the values of C16 *)
| DStruct (tag : option nat) (ms : list (nat * bool)).      (* struct tag { ms }; true: an array or a structure *)

(** ** Commands *)
(* the three texts of defarr: without initialisation; with it; the one of the default build, which calls a
   function that is not defined (sh-runtime.c:332) *)
Inductive arrdef := Plain | WithInit | Broken.
Inductive gcmd :=
| CSet (x : name) (w : list item)                           (* x=w *)
| CRo (x : name) (w : list item)                            (* readonly x=w *)
| CMalloc                                                   (* __ALLOC=1, and the definition of _malloc *)
| CDefarr (k : arrdef)                                      (* the definition of defarr *)
| CArr (x : name) (len : Z) (ws : list (list item))         (* defarr x len ws *)
| CStr (x : name) (bytes : list Z) (size : Z).              (* defstr x "bytes" size *)

(** ** Compilation *)
(* runtime_malloc_defined, runtime_defarr_defined, runtime_use_initialize *)
Record cgst := CG { cmal : bool; carr : bool; cini : bool }.
Definition cg0 : cgst := CG false false false.
Section Emit.
(* -D RT_NO_INIT_GLOBALS *)
Variable noinit : bool.
Variables (vn mn zn : nat -> name).
Notation rv := (comp_rvalue_go vn mn zn).

(* sh-runtime.c:278 *)
Definition need_malloc (c : cgst) : cgst * list gcmd :=
  if cmal c then (c, []) else (CG true (carr c) (cini c), [CMalloc]).
(* sh-runtime.c:314-331 *)
Definition need_defarr (c : cgst) : cgst * list gcmd :=
  if carr c then (c, [])
  else let '(c, k) := need_malloc c in
       (CG (cmal c) true (cini c), k ++ [CDefarr (if noinit then if cini c then WithInit else Plain else Broken)]).
(* sh.c:1097-1131: wrap_int for integers and characters, an arithmetic expansion for the others *)
Definition eword (e : elem) : list item :=
  match e with LInt n | LChr n => wrap_int n | LHex n => [Ar (wrap_hex n)] | LOct n => [Ar (wrap_oct n)] end.
(* sh.c:2413-2453: the members count from 0 *)
Fixpoint members (ms : list (nat * bool)) (off : Z) : option (list gcmd) :=
  match ms with
  | [] => Some []
  | (k, nested) :: ms =>
      if nested then None                                   (* Nested structures not supported by shell backend *)
      else match members ms (off + 1) with Some l => Some (CRo (mn k) (rv (XInt off) false 0) :: l) | None => None end
  end.
(* sh.c:2474-2504 *)
Definition glo_decl (d : gdecl) (c : cgst) : option (cgst * list gcmd) :=
  match d with
  | DVar x i => Some (c, [CSet (vn x) (rv (match i with Some e => e | None => XInt 0 end) false 0)])
  | DArr x len els =>
      let c := match els with Some _ => CG (cmal c) (carr c) true | None => c end in
      let n := match els with Some l => Z.of_nat (length l) | None => 0 end in
      let len' := if len =? 0 then n else len in
      if (negb (len =? 0) && (len <? n)) || (len' =? 0) then None
      else let '(c, k) := need_defarr c in
           Some (c, k ++ [CArr (vn x) len' (match els with Some l => map eword l | None => [] end)])
  | DStr x len bytes =>
      let n := Z.of_nat (length bytes) + 1 in
      if negb (len =? 0) && (len <? n) then None
      else let '(c, k) := need_malloc c in Some (c, k ++ [CStr (vn x) bytes (if len =? 0 then n else len)])
  | DEnum l => Some (c, map (fun '(x, v) => CRo (vn x) (rv (XInt v) false 0)) l)
  | DStruct tag ms =>
      match members ms 0 with
      | Some l => Some (c, l ++ match tag with Some t => [CRo (zn t) (rv (XInt (Z.of_nat (length ms))) false 0)] | None => [] end)
      | None => None
      end
  end.
Fixpoint glo_decls (ds : list gdecl) (c : cgst) : option (list gcmd) :=
  match ds with
  | [] => Some []
  | d :: ds => match glo_decl d c with
               | Some (c, k) => match glo_decls ds c with Some l => Some (k ++ l) | None => None end
               | None => None
               end
  end.
End Emit.

(** ** The shell *)
Record gst := GS { gv : name -> option Z; gro : name -> bool; garr : option arrdef }.
Definition gst0 : gst := GS (fun _ => None) (fun _ => false) None.
Definition ALLOC : name := [95; 95; 65; 76; 76; 79; 67].    (* __ALLOC *)
Definition cell (a : Z) : name := 95 :: decimal a.          (* _a *)
(* __ptr __size __i __str __addr __end __c __us_buf16 __us_buf256 __temp *)
Definition scratch : list name :=
  [[95;95;112;116;114]; [95;95;115;105;122;101]; [95;95;105]; [95;95;115;116;114]; [95;95;97;100;100;114]; [95;95;101;110;100]; [95;95;99];
   [95;95;117;115;95;98;117;102;49;54]; [95;95;117;115;95;98;117;102;50;53;54]; [95;95;116;101;109;112]].
Definition setx (n : name) (v : Z) (st : gst) : gst :=
  GS (fun m => if list_eq_dec Z.eq_dec m n then Some v else gv st m) (gro st) (garr st).
Definition setro (n : name) (st : gst) : gst :=
  GS (gv st) (fun m => if list_eq_dec Z.eq_dec m n then true else gro st m) (garr st).
Section Run.
(* POSIX expansion (C19) *)
Variable sev : list item -> vars -> option (list Z * vars).
(* -D RT_FREE_UNSETS_VARS: objects have a header with their size *)
Variable tag : bool.

(* the word's value depends on no unset variable, and changes nothing *)
Definition extends (g : vars) (st : gst) : Prop := forall n v, gv st n = Some v -> g n = v.
Definition reads (w : list item) (st : gst) (v : Z) : Prop :=
  forall g, extends g st -> exists g1, sev w g = Some (decimal v, g1) /\ forall n, g1 n = g n.

(* sh-runtime.c:280-291 _malloc $1 $2, with __ALLOC = a *)
Definition do_malloc (x : name) (size a : Z) (st : gst) : gst :=
  if tag then setx ALLOC (a + (size + 1)) (setx x (a + 1) (setx (cell a) size st))
  else setx ALLOC (a + size) (setx x a st).
Definition base (a : Z) : Z := if tag then a + 1 else a.
(* sh-runtime.c:297-311 initialize *)
Fixpoint put_list (a : Z) (vs : list Z) (st : gst) : gst :=
  match vs with [] => st | v :: vs => put_list (a + 1) vs (setx (cell a) v st) end.
Definition zeros (k : Z) : list Z := repeat 0 (Z.to_nat k).
Definition do_init (p len : Z) (vs : list Z) (st : gst) : gst := put_list p (vs ++ zeros (len - Z.of_nat (length vs))) st.
Definition same (st st' : gst) : Prop :=
  (forall n, ~ In n scratch -> gv st' n = gv st n) /\ (forall n, gro st' n = gro st n) /\ garr st' = garr st.
Definition writable (x : name) (st : gst) : Prop := gro st x = false /\ gro st ALLOC = false /\ forall a, gro st (cell a) = false.
Inductive gstep : gcmd -> gst -> gst -> Prop :=
| g_set x w v st : gro st x = false -> reads w st v -> gstep (CSet x w) st (setx x v st)
| g_ro x w v st : gro st x = false -> reads w st v -> gstep (CRo x w) st (setro x (setx x v st))
| g_malloc st : gro st ALLOC = false -> gstep CMalloc st (setx ALLOC 1 st)
| g_defarr k st : gstep (CDefarr k) st (GS (gv st) (gro st) (Some k))
| g_arr x len ws vs a st st' : garr st = Some Plain \/ garr st = Some WithInit -> writable x st -> gv st ALLOC = Some a -> Forall2 (fun w v => reads w st v) ws vs ->
    same (match garr st with
          | Some WithInit => match vs with [] => do_malloc x len a st | _ => do_init (base a) len vs (do_malloc x len a st) end
          | _ => do_malloc x len a st
          end) st' ->
    gstep (CArr x len ws) st st'
(* sh-runtime.c:488-508, 457-486: when the variable is unset or 0; the last loop runs while __ptr <= __end *)
| g_str x bytes size a st st' : gv st x = None \/ gv st x = Some 0 -> writable x st -> gv st ALLOC = Some a ->
    same (setx x (base a) (put_list (base a) (bytes ++ zeros (size - Z.of_nat (length bytes) + 1)) (do_malloc x size a st))) st' ->
    gstep (CStr x bytes size) st st'
| g_str_again x bytes size v st st' : gv st x = Some v -> v <> 0 -> same st st' -> gstep (CStr x bytes size) st st'.
Inductive grun : list gcmd -> gst -> gst -> Prop :=
| g_nil st : grun [] st st
| g_cons k l st st1 st2 : gstep k st st1 -> grun l st1 st2 -> grun (k :: l) st st2.
End Run.

(** ** C: what the declarations say *)
Section C.
Variables (moff zsz : nat -> Z).
(* constant expressions over the constants known so far ([c]) *)
Fixpoint kx (c : nat -> option Z) (e : xe) : bool :=
  match e with
  | XInt _ | XHex _ | XOct _ | XSize1 => true
  | XVar x => match c x with Some _ => true | None => false end
  | XPar e | XPlus e | XCast e | XUn _ e => kx c e
  | XBin _ a b => kx c a && kx c b
  | XCond c0 a b => kx c c0 && kx c a && kx c b
  | _ => false
  end.
Definition kstore (c : nat -> option Z) : store := fun l => match l with LV x => match c x with Some v => v | None => 0 end | _ => 0 end.
Definition kvalue (c : nat -> option Z) (e : xe) : option Z :=
  if kx c e && okx e then match cev moff zsz e (kstore c) with Some (v, _, _, _) => Some v | None => None end else None.
Definition kset (x : nat) (v : Z) (c : nat -> option Z) : nat -> option Z := fun y => if Nat.eqb y x then Some v else c y.
(* 6.7.9p10: a variable without initialiser starts as 0 *)
Fixpoint consts (ds : list gdecl) (c : nat -> option Z) : option (nat -> option Z) :=
  match ds with
  | [] => Some c
  | DVar x None :: ds => consts ds (kset x 0 c)
  | DVar x (Some e) :: ds => match kvalue c e with Some v => consts ds (kset x v c) | None => None end
  | DEnum l :: ds => consts ds (fold_left (fun c '(x, v) => kset x v c) l c)
  | _ :: ds => consts ds c
  end.
Definition evalue (e : elem) : Z := match e with LInt n | LHex n | LOct n | LChr n => n end.
(* 6.7.9p14, p21: the values of an array, filled with zeros *)
Definition fill (len : Z) (l : list Z) : list Z := if len =? 0 then l else l ++ zeros (len - Z.of_nat (length l)).
Definition array_of (d : gdecl) : option (nat * list Z * bool) :=
  match d with
  | DArr x len (Some els) => Some (x, fill len (map evalue els), true)
  | DArr x len None => Some (x, fill len [], false)
  | DStr x len bytes => Some (x, fill len (bytes ++ [0]), true)
  | _ => None
  end.
Definition arrays (ds : list gdecl) : list (nat * list Z * bool) := flat_map (fun d => match array_of d with Some a => [a] | None => [] end) ds.
(* the variables, members and tags that a declaration declares *)
Definition dvars (d : gdecl) : list nat :=
  match d with DVar x _ | DArr x _ _ | DStr x _ _ => [x] | DEnum l => map fst l | DStruct _ _ => [] end.
Definition dmembers (d : gdecl) : list nat := match d with DStruct _ ms => map fst ms | _ => [] end.
Definition dtags (d : gdecl) : list nat := match d with DStruct (Some t) _ => [t] | _ => [] end.
(* literals of int, characters *)
Definition ok_elem (e : elem) : bool := match e with LInt n | LHex n | LOct n => (0 <=? n) && (n <? 2 ^ 31) | LChr c => (0 <=? c) && (c <? 256) end.
Definition ok_decl (d : gdecl) : Prop :=
  match d with
  | DArr _ len els => 0 <= len /\ match els with Some l => l <> [] /\ Forall (fun e => ok_elem e = true) l | None => True end   (* 6.7.9p1: a list has an element *)
  | DStr _ len _ => 0 <= len
  | DEnum l => Forall (fun '(_, v) => int_range v) l
  | DStruct _ ms => Z.of_nat (length ms) < 2 ^ 31
  | _ => True
  end.
(* every array declared before the first one with an initialiser list has one too *)
Fixpoint lists_first (ds : list gdecl) : bool :=
  match ds with
  | [] => true
  | DArr _ _ (Some _) :: _ => true
  | DArr _ _ None :: ds => forallb (fun d => match d with DArr _ _ (Some _) => false | _ => true end) ds
  | _ :: ds => lists_first ds
  end.
End C.

(** * The compiler's two stores: the object heap (syntax tree nodes and symbols) and the
      string pool, with symbol interning.  pnut.c:308-675 *)
From Coq Require Import ZArith List Lia Bool.
From Verif Require Import Base.
Import ListNotations.
Open Scope Z_scope.

Definition HASH_PARAM : Z := 1026.       (* pnut.c:324 *)
Definition HASH_PRIME : Z := 1009.       (* pnut.c:325 *)
Definition HEAP_SIZE : Z := 2000000.     (* pnut.c:326 *)
Definition STRING_POOL_SIZE : Z := 500000. (* pnut.c:317 *)
Definition IDENTIFIER : Z := 500.        (* pnut.c:254 *)

(** Global state: arrays are total functions, [*_alloc] the bump pointers. *)
Record store := mkStore {
  heap : Z -> Z; heap_alloc : Z; pool : Z -> Z; pool_alloc : Z }.

(** pnut.c:318-328: zero-initialised arrays, the first HASH_PRIME heap cells are the buckets. *)
Definition store0 : store := mkStore (fun _ => 0) HASH_PRIME (fun _ => 0) 0.

(** A value stored into a (signed) char cell. *)
Definition s8 (c : Z) : Z := (c + 128) mod 256 - 128.

(** pnut.c:332-343 [alloc_obj]; [None] = fatal_error("heap overflow"). *)
Definition alloc_obj (st : store) (size : Z) : option (store * Z) :=
  let st' := mkStore (heap st) (heap_alloc st + size) (pool st) (pool_alloc st) in
  if HEAP_SIZE <? heap_alloc st' then None else Some (st', heap_alloc st).

Definition hset (st : store) (a v : Z) : store :=
  mkStore (upd (heap st) a v) (heap_alloc st) (pool st) (pool_alloc st).

(** Writing the fields of an object: heap[a], heap[a+1], ... *)
Fixpoint hset_list (st : store) (a : Z) (ws : list Z) : store :=
  match ws with
  | [] => st
  | w :: r => hset_list (hset st a w) (a + 1) r
  end.

(** pnut.c:477-531 [new_ast0] .. [new_ast4]: header word then children (a leaf has one value). *)
Definition new_object (st : store) (ws : list Z) : option (store * Z) :=
  match alloc_obj st (Z.of_nat (length ws)) with
  | Some (st', p) => Some (hset_list st' p ws, p)
  | None => None
  end.
Definition ast_words (op : Z) (children : list Z) : list Z :=
  (op + 1024 * Z.of_nat (length children)) :: children.
Definition leaf_words (op val : Z) : list Z := [op; val].

(** pnut.c:345-351, 452-466 accessors *)
Definition get_op (st : store) (n : Z) : Z := Z.land (heap st n) 1023.
Definition get_nb_children (st : store) (n : Z) : Z := Z.shiftr (heap st n) 10.
Definition get_child (st : store) (n i : Z) : Z := heap st (n + i + 1).
Definition set_child (st : store) (n i v : Z) : store := hset st (n + i + 1) v.

(** pnut.c:533-549 [clone_ast] *)
Fixpoint copy_children (k : nat) (i : Z) (st : store) (dst src : Z) : store :=
  match k with
  | O => st
  | S k' => copy_children k' (i + 1) (set_child st dst i (get_child st src i)) dst src
  end.
Definition clone_ast (st : store) (orig : Z) : option (store * Z) :=
  let nb := get_nb_children st orig in
  let nb := if nb =? 0 then 1 else nb in
  match alloc_obj st (nb + 1) with
  | Some (st', p) =>
      Some (copy_children (Z.to_nat nb) 0 (hset st' p (heap st' orig)) p orig, p)
  | None => None
  end.

(** pnut.c:582-590 [accum_string] (one character): hash update and pool write;
    [None] = fatal_error("string pool overflow"). *)
Definition hash_step (h c : Z) : Z := Z.rem (c + Z.lxor h HASH_PARAM) HASH_PRIME.
Definition accum_string (st : store) (h c : Z) : option (store * Z) :=
  let st' := mkStore (heap st) (heap_alloc st) (upd (pool st) (pool_alloc st) (s8 c)) (pool_alloc st + 1) in
  if STRING_POOL_SIZE <=? pool_alloc st' then None else Some (st', hash_step h c).

Fixpoint accum_all (st : store) (h : Z) (s : list Z) : option (store * Z) :=
  match s with
  | [] => Some (st, h)
  | c :: r => match accum_string st h c with
              | Some (st', h') => accum_all st' h' r
              | None => None
              end
  end.

(** pnut.c:646-656, the comparison loop of [end_ident]: compares the new string with an existing
    one up to a NUL.  [None] = out of fuel. *)
Fixpoint same_string (fuel : nat) (pl : Z -> Z) (a b : Z) : option bool :=
  match fuel with
  | O => None
  | S f => if pl a =? pl b
           then if pl a =? 0 then Some true else same_string f pl (a + 1) (b + 1)
           else Some false
  end.

Inductive probe_res := Found (p : Z) | NotFound (prev : Z).
(** pnut.c:642-661: walk the bucket chain. [prev] is the variable [hash] ("previous ident"). *)
Fixpoint probe_chain (fuel : nat) (cmp_fuel : nat) (st : store) (start prev probe : Z) : option probe_res :=
  if probe =? 0 then Some (NotFound prev)
  else match fuel with
       | O => None
       | S f =>
           match same_string cmp_fuel (pool st) start (heap st (probe + 1)) with
           | Some true => Some (Found probe)
           | Some false => probe_chain f cmp_fuel st start probe (heap st probe)
           | None => None
           end
       end.

(** pnut.c:638-675 [end_ident], [start] = string_start, [h] = hash. *)
Definition end_ident (st : store) (start h : Z) : option (store * Z) :=
  let st := mkStore (heap st) (heap_alloc st) (upd (pool st) (pool_alloc st) 0) (pool_alloc st + 1) in
  match probe_chain (Z.to_nat (heap_alloc st)) (Z.to_nat (pool_alloc st)) st start h (heap st h) with
  | Some (Found p) =>  (* undo string allocation *)
      Some (mkStore (heap st) (heap_alloc st) (pool st) start, p)
  | Some (NotFound prev) =>
      match alloc_obj st 5 with
      | Some (st', p) =>
          let st1 := hset st' prev p in
          Some (hset_list st1 p [0; start; IDENTIFIER; 0; pool_alloc st - start - 1], p)
      | None => None
      end
  | None => None
  end.

(** Reading one identifier / string literal with characters [s]:
    begin_string (pnut.c:576-579), accum_string for each character, end_ident. *)
Definition intern (st : store) (s : list Z) : option (store * Z) :=
  match accum_all st 0 s with
  | Some (st', h) => end_ident st' (pool_alloc st) h
  | None => None
  end.

(** pnut.c:572-574 STRING_BUF / STRING_LEN *)
Definition STRING_BUF (st : store) (p : Z) : Z := heap st (p + 1).
Definition STRING_LEN (st : store) (p : Z) : Z := heap st (p + 4).

(** ** Client operations: what the rest of the compiler does with the stores. *)
Inductive op :=
| Intern (s : list Z)              (* read an identifier or string literal *)
| NewObj (ws : list Z)             (* new_ast0..4, or any alloc_obj with its initial fields *)
| SetField (a i v : Z)             (* set_child / set_val on an existing object *)
| SetKind (p v : Z)                (* heap[p+2] = v on a symbol *)
| SetTag (p v : Z).                (* heap[p+3] = v on a symbol *)

Definition step (st : store) (o : op) : option (store * Z) :=
  match o with
  | Intern s => intern st s
  | NewObj ws => new_object st ws
  | SetField a i v => Some (hset st (a + i) v, 0)
  | SetKind p v => Some (hset st (p + 2) v, 0)
  | SetTag p v => Some (hset st (p + 3) v, 0)
  end.

(** ** Specification: an abstract store of named symbols and objects *)
Record sym := mkSym { sym_name : list Z; sym_kind : Z; sym_tag : Z }.
Record astore := mkA { syms : list (Z * sym); objs : list (Z * list Z) }.
Definition astore0 := mkA [] [].

Definition name_eqb (a b : list Z) : bool := if list_eq_dec Z.eq_dec a b then true else false.
Fixpoint find_name (l : list (Z * sym)) (s : list Z) : option Z :=
  match l with
  | [] => None
  | (p, y) :: r => if name_eqb (sym_name y) s then Some p else find_name r s
  end.
Fixpoint list_set (ws : list Z) (i : nat) (v : Z) : list Z :=
  match ws, i with
  | [], _ => []
  | _ :: r, O => v :: r
  | w :: r, S j => w :: list_set r j v
  end.
Definition map_at {A} (p : Z) (f : A -> A) (l : list (Z * A)) : list (Z * A) :=
  map (fun e => if fst e =? p then (fst e, f (snd e)) else e) l.

(** What each operation means abstractly, given the result [r] it returned. *)
Definition astep (a : astore) (o : op) (r : Z) : astore :=
  match o with
  | Intern s => match find_name (syms a) s with
                | Some _ => a
                | None => mkA ((r, mkSym s IDENTIFIER 0) :: syms a) (objs a)
                end
  | NewObj ws => mkA (syms a) ((r, ws) :: objs a)
  | SetField q i v => mkA (syms a) (map_at q (fun ws => list_set ws (Z.to_nat i) v) (objs a))
  | SetKind p v => mkA (map_at p (fun y => mkSym (sym_name y) v (sym_tag y)) (syms a)) (objs a)
  | SetTag p v => mkA (map_at p (fun y => mkSym (sym_name y) (sym_kind y) v) (syms a)) (objs a)
  end.

(** Strings the interning statement is about: bytes, no NUL. *)
Definition clean (s : list Z) : Prop := Forall (fun c => 0 < c < 256) s.

(** Client obligations: operate only on existing objects and symbols, within bounds. *)
Definition client_ok (a : astore) (o : op) : Prop :=
  match o with
  | Intern s => clean s
  | NewObj ws => True
  | SetField q i v => exists ws, In (q, ws) (objs a) /\ 0 <= i < Z.of_nat (length ws)
  | SetKind p _ | SetTag p _ => exists y, In (p, y) (syms a)
  end.

(** Histories: all executions of the store from its initial state. *)
Inductive reach : store -> astore -> list (op * Z) -> Prop :=
| reach_init : reach store0 astore0 []
| reach_step : forall st a h o st' r,
    reach st a h -> client_ok a o -> step st o = Some (st', r) ->
    reach st' (astep a o r) ((o, r) :: h).

(** The concrete store agrees with the abstract one. *)
Definition sym_agrees (st : store) (p : Z) (y : sym) : Prop :=
  heap st (p + 2) = sym_kind y /\ heap st (p + 3) = sym_tag y /\
  STRING_LEN st p = Z.of_nat (length (sym_name y)) /\
  (forall i, (i < length (sym_name y))%nat ->
     pool st (STRING_BUF st p + Z.of_nat i) = s8 (nth i (sym_name y) 0)) /\
  pool st (STRING_BUF st p + Z.of_nat (length (sym_name y))) = 0.
Definition obj_agrees (st : store) (p : Z) (ws : list Z) : Prop :=
  forall i, (i < length ws)%nat -> heap st (p + Z.of_nat i) = nth i ws 0.
Definition agrees (st : store) (a : astore) : Prop :=
  (forall p y, In (p, y) (syms a) -> sym_agrees st p y) /\
  (forall p ws, In (p, ws) (objs a) -> obj_agrees st p ws).

(** * Structure layout (exe.c:346-352, 622-800, 1825-1900) *)
From Coq Require Import ZArith List Lia Bool.
From Verif Require Import Base.
Import ListNotations.
Open Scope Z_scope.

(** Types after [canonicalize_type] (exe.c:671-692): a struct/union reference is replaced by its definition, the
    lookup itself is C36.  [BOther]: the default case of [type_width] (enum, float, double, function).  A member is
    an optional name (none: anonymous struct or union) and its type. *)
Inductive base := BVoid | BChar | BShort | BInt | BLong | BOther.
Inductive ty := TBase (b : base) | TPtr | TArr (t : ty) (n : Z) | TAgg (un : bool) (ms : list (option Z * ty)).

Section TyInd.
  Variable P : ty -> Prop.
  Hypothesis HB : forall b, P (TBase b).
  Hypothesis HP : P TPtr.
  Hypothesis HA : forall t n, P t -> P (TArr t n).
  Hypothesis HG : forall un ms, Forall (fun m => P (snd m)) ms -> P (TAgg un ms).
  Fixpoint ty_ind' (t : ty) : P t :=
    match t with
    | TBase b => HB b
    | TPtr => HP
    | TArr t n => HA t n (ty_ind' t)
    | TAgg un ms => HG un ms ((fix go (l : list (option Z * ty)) : Forall (fun m => P (snd m)) l :=
        match l with [] => Forall_nil _ | x :: r => Forall_cons x (ty_ind' (snd x)) (go r) end) ms)
    end.
End TyInd.

(** ** Model *)
(** exe.c:350-352; [None]: division by zero (the compiler crashes).  Sizes are mathematical integers: overflow of
    the compiler's [int] is not modelled. *)
Definition align_to (mul n : Z) : option Z := if mul =? 0 then None else Some (Z.quot (n + mul - 1) mul * mul).
Section Model.
Variable W : Z.
(** exe.c:631-653: the scalar cases; [long] is rejected on 32-bit targets. *)
Definition base_width (b : base) : option Z :=
  match b with BVoid => Some 1 | BChar => Some 1 | BShort => Some 2 | BInt => Some 4
             | BLong => if W =? 8 then Some 8 else None | BOther => Some W end.

(** exe.c:712-738, the loop over the members, given the size and largest-submember of each member. *)
Fixpoint agg_loop (l : list (option (Z * Z))) (sum mx lg : Z) : option (Z * Z * Z) :=
  match l with
  | [] => Some (sum, mx, lg)
  | None :: _ => None
  | Some (sz, lsub) :: r =>
      match (if sz =? 0 then Some sum else align_to lsub sum) with
      | None => None
      | Some s1 => agg_loop r (s1 + sz) (if mx <? sz then sz else mx) (if lg <? lsub then lsub else lg)
      end
  end.
(** exe.c:712-738 [struct_union_size]: (size, struct_union_size_largest_member). *)
Definition agg_size (un : bool) (l : list (option (Z * Z))) : option (Z * Z) :=
  match agg_loop l 0 0 0 with
  | None => None
  | Some (sum, mx, lg) =>
      match align_to lg sum, align_to lg mx with
      | Some s, Some m => Some (if un then m else s, lg)
      | _, _ => None
      end
  end.
(** exe.c:622-658 [type_width t true false] and 697-709 [type_largest_member t], together. *)
Fixpoint wl (t : ty) : option (Z * Z) :=
  match t with
  | TBase b => match base_width b with Some w => Some (w, w) | None => None end
  | TPtr => Some (W, W)
  | TArr t n => match wl t with Some (w, l) => Some (n * w, l) | None => None end
  | TAgg un ms => agg_size un (map (fun m => wl (snd m)) ms)
  end.
Definition type_width (t : ty) : option Z := option_map fst (wl t).
Definition type_largest_member (t : ty) : option Z := option_map snd (wl t).

(** exe.c:741-769 [struct_member_offset_go]: -1 when not found; [None] when the compiler stops. *)
Fixpoint member_offset (t : ty) (x : Z) : option Z :=
  match t with
  | TAgg un ms =>
      (fix go (ms : list (option Z * ty)) (offset : Z) : option Z :=
         match ms with
         | [] => Some (-1)
         | (nm, mt) :: r =>
             let next :=
               if un then go r offset
               else match wl mt with
                    | None => None
                    | Some (sz, lsub) =>
                        match (if sz =? 0 then Some offset else align_to lsub offset) with
                        | None => None
                        | Some o => go r (o + sz)
                        end
                    end in
             match nm with
             | None => match member_offset mt x with
                       | None => None
                       | Some sub => if sub =? -1 then next else Some (offset + sub)
                       end
             | Some y => if x =? y then Some offset else next
             end
         end) ms 0
  | _ => None (* not a struct: the compiler reads a child that is not there *)
  end.
(** exe.c:778-795 [struct_member_go]: the type of the member found. *)
Fixpoint member_type (t : ty) (x : Z) : option ty :=
  match t with
  | TAgg _ ms =>
      (fix go (ms : list (option Z * ty)) : option ty :=
         match ms with
         | [] => None
         | (nm, mt) :: r =>
             match nm with
             | None => match member_type mt x with Some u => Some u | None => go r end
             | Some y => if x =? y then Some mt else go r
             end
         end) ms
  | _ => None
  end.
(** exe.c:1868-1876: the offset at which the [i]-th element of a brace initializer is stored. *)
Fixpoint init_offset (ms : list (option Z * ty)) (i : nat) (offset : Z) : option Z :=
  match i, ms with
  | O, _ :: _ => Some offset
  | S i, m :: r => match type_width (snd m) with Some w => init_offset r i (offset + w) | None => None end
  | _, [] => None
  end.
End Model.

(** ** Specification: the System V ABI *)
Section Spec.
Variable W : Z.
Definition round_up (a n : Z) : Z := a * ((n + a - 1) / a).
Definition prim_size (b : base) : Z := match b with BVoid | BChar => 1 | BShort => 2 | BInt => 4 | BLong => 8 | BOther => W end.
Fixpoint zmax (d : Z) (l : list Z) : Z := match l with [] => d | x :: r => Z.max x (zmax d r) end.
Fixpoint alignof (t : ty) : Z :=
  match t with
  | TBase b => prim_size b | TPtr => W | TArr t _ => alignof t
  | TAgg _ ms => zmax 1 (map (fun m => alignof (snd m)) ms)
  end.
(** End of the last member when members of the given (size, alignment) are laid out from [o]. *)
Fixpoint lay (l : list (Z * Z)) (o : Z) : Z := match l with [] => o | (s, a) :: r => lay r (round_up a o + s) end.
Fixpoint sizeof (t : ty) : Z :=
  match t with
  | TBase b => prim_size b | TPtr => W | TArr t n => n * sizeof t
  | TAgg un ms =>
      let l := map (fun m => (sizeof (snd m), alignof (snd m))) ms in
      round_up (zmax 1 (map snd l)) (if un then zmax 0 (map fst l) else lay l 0)
  end.
(** The ABI offset of the [i]-th member of a struct. *)
Fixpoint abi_offset (ms : list (option Z * ty)) (i : nat) (o : Z) : option Z :=
  match i, ms with
  | O, m :: _ => Some (round_up (alignof (snd m)) o)
  | S i, m :: r => abi_offset r i (round_up (alignof (snd m)) o + sizeof (snd m))
  | _, [] => None
  end.
(** C types: positive array lengths, non-empty structs and unions, only structs and unions may be unnamed
    members; [long] only on 64-bit targets; [BOther] is a word. *)
Fixpoint wf (t : ty) : Prop :=
  match t with
  | TBase b => b = BLong -> W = 8
  | TPtr => True
  | TArr t n => 0 < n /\ wf t
  | TAgg _ ms => ms <> [] /\
      (fix all (l : list (option Z * ty)) : Prop :=
         match l with
         | [] => True
         | m :: r => wf (snd m) /\ (fst m = None -> exists un ms', snd m = TAgg un ms') /\ all r
         end) ms
  end.
(** The names that can be used after [.] on an object of the type. *)
Fixpoint names (t : ty) : list Z :=
  match t with
  | TAgg _ ms => flat_map (fun m => match fst m with Some x => [x] | None => names (snd m) end) ms
  | _ => []
  end.
Definition mnames (m : option Z * ty) : list Z := match fst m with Some x => [x] | None => names (snd m) end.
(** [x] and [y] denote members that C stores in distinct places, [x] before [y]: they are (in) distinct members of
    a struct, or both in the same anonymous member and apart there. *)
Inductive before : ty -> Z -> Z -> Prop :=
| before_here ms1 m1 ms2 m2 ms3 x y : In x (mnames m1) -> In y (mnames m2) ->
    before (TAgg false (ms1 ++ m1 :: ms2 ++ m2 :: ms3)) x y
| before_in un ms1 t ms2 x y : before t x y -> before (TAgg un (ms1 ++ (None, t) :: ms2)) x y.
End Spec.

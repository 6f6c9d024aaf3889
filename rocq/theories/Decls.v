(** * Generated declarations: model of sh.c:375-460 *)
From Coq Require Import ZArith List Lia Bool.
From Verif Require Import Base AsmProof Text.
Import ListNotations.
Open Scope Z_scope.

(** sh.c:341-343: [glo_decls] is an array of triples; here a list of them (the size of the array is not checked by
    the program and not modelled); indices count triples.  [nest_level] is the current indentation. *)
Record ent := En { lvl : Z; act : Z; dec : Z }.
Record gst := GS { decls : list ent; nest : Z }.

(** sh.c:375-380 *)
Definition append_glo_decl (d : Z) (g : gst) : gst := GS (decls g ++ [En (nest g) 1 d]) (nest g).
(** sh.c:382-388; the index returned is [length (decls g)]. *)
Definition append_glo_decl_fixup (g : gst) : gst := GS (decls g ++ [En (- nest g) 1 0]) (nest g).
Fixpoint set_nth (i : nat) (f : ent -> ent) (l : list ent) : list ent :=
  match l, i with [], _ => [] | x :: r, O => f x :: r | x :: r, S j => x :: set_nth j f r end.
(** sh.c:390-395; [None]: fatal error. *)
Definition fixup_glo_decl (ix : nat) (d : Z) (g : gst) : option gst :=
  if 0 <=? lvl (nth ix (decls g) (En 0 0 0)) then None
  else Some (GS (set_nth ix (fun x => En (- lvl x) (act x) d) (decls g)) (nest g)).
(** sh.c:404-409 *)
Fixpoint dec_from (start : nat) (l : list ent) : list ent :=
  match l, start with
  | [], _ => []
  | x :: r, O => En (lvl x) (act x - 1) (dec x) :: dec_from O r
  | x :: r, S k => x :: dec_from k r
  end.
Definition undo_glo_decls (start : nat) (g : gst) : gst := GS (dec_from start (decls g)) (nest g).
(** sh.c:413-419 *)
Definition any_active_glo_decls (start : nat) (g : gst) : bool :=
  existsb (fun x => negb (act x =? 0) && negb (dec x =? 0)) (skipn start (decls g)).
(** sh.c:425-433: the loop, [n] iterations from [start]. *)
Fixpoint replay_loop (start n : nat) (reindent : bool) (g : gst) : gst :=
  match n with
  | O => g
  | S k =>
      let x := nth start (decls g) (En 0 0 0) in
      let g1 := if act x =? 0
                then let g2 := append_glo_decl (dec x) g in
                     if reindent then g2
                     else GS (set_nth (length (decls g)) (fun y => En (lvl x) (act y) (dec y)) (decls g2)) (nest g2)
                else g in
      replay_loop (S start) k reindent g1
  end.
Definition replay_glo_decls (start end_ : nat) (reindent : bool) (g : gst) : gst := replay_loop start (end_ - start) reindent g.
(** sh.c:435-446; [sep] is the address of the string "; ". *)
Fixpoint inline_loop (sep : Z) (l : list ent) (res : Z) (s : tp) : option (tp * Z) :=
  match l with
  | [] => Some (s, res)
  | x :: r =>
      if act x =? 0 then
        match wrap_str_lit sep s with
        | Some (s1, w) => match concatenate_strings_with res (dec x) w s1 with
                          | Some (s2, res2) => inline_loop sep r res2 s2
                          | None => None
                          end
        | None => None
        end
      else inline_loop sep r res s
  end.
Definition replay_glo_decls_inline (sep : Z) (start end_ : nat) (g : gst) (s : tp) : option (tp * Z) :=
  match inline_loop sep (firstn (end_ - start) (skipn start (decls g))) 0 s with
  | Some (s1, res) =>
      if res =? 0 then Some (s1, res)
      else match wrap_str_lit sep s1 with Some (s2, w) => string_concat res w s2 | None => None end
  | None => None
  end.
(** sh.c:448-464; [show] prints a text. *)
Definition print_glo_decls (show : Z -> list Z) (g : gst) : list Z :=
  flat_map (fun x => if (act x =? 1) && negb (dec x =? 0)
                     then repeat 32 (2 * Z.to_nat (lvl x)) ++ show (dec x) ++ [10] else []) (decls g).

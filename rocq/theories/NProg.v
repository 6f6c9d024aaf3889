(** * Whole programs on the native backends (exe.c:1667-1735, 1964-1990, 2367-2440, 2457-2690; x86.c:639-664, 707-735, 808-830)

    Names are numbers; the names the compiler itself binds get fixed numbers (CProg).  Not covered: goto labels, static locals,
    initializer lists, NO_BUILTIN_LIBC builds, the macOS numbers of the system calls. *)
From Coq Require Import ZArith List Lia Bool String Ascii.
From Verif Require Import Base Asm AsmProof X86 X86Proof NMach NPtr CLang CProg NGen NRt.
Import ListNotations.
Open Scope Z_scope.

(** cgc_globals, cgc_global_alloc, init_next_lbl, cgc_locals, main_returns, the next label. *)
Record gst := GS { gglo : list gbnd; galloc : Z; ginit : Z; gloc : list bnd; gret : bool; glbl : Z }.

(** exe.c:1669-1735 [codegen_begin]: labels 0.. in order of allocation. *)
Definition setup_lbl := 0. Definition init_start_lbl := 1. Definition main_lbl := 2. Definition exit_lbl := 3. Definition read_lbl := 4.
Definition write_lbl := 5. Definition open_lbl := 6. Definition close_lbl := 7. Definition seek_lbl := 8. Definition unlink_lbl := 9.
Definition putchar_lbl := 10. Definition getchar_lbl := 11. Definition fopen_lbl := 12. Definition fclose_lbl := 13. Definition fgetc_lbl := 14.
Definition malloc_lbl := 15. Definition free_lbl := 16. Definition printf_lbl := 17.
Definition tchar := TInt 1 true.
Definition begin_glo : list gbnd :=
  [GFun id_printf printf_lbl tint; GFun id_free free_lbl TVoid; GFun id_malloc malloc_lbl (TPtr TVoid); GFun id_fgetc fgetc_lbl tint;
   GFun id_fclose fclose_lbl tint; GFun id_fopen fopen_lbl tint; GFun id_getchar getchar_lbl tchar; GFun id_putchar putchar_lbl TVoid;
   GFun id_unlink unlink_lbl tint; GFun id_lseek seek_lbl tint; GFun id_close close_lbl tint; GFun id_open open_lbl tint;
   GFun id_write write_lbl tint; GFun id_read read_lbl tint; GFun id_exit exit_lbl TVoid; GFun id_main main_lbl TVoid].
Definition codegen_begin (W : Z) : list hop * gst := ([HC (HJump setup_lbl)], GS begin_glo (2 * W) init_start_lbl [] false 18).

Section P.
Variable W : Z.

(** exe.c:1964-1990 [codegen_glo_var_decl] with the scalar case of [codegen_initializer] (exe.c:1912-1916), and env.c:186-200
    [cgc_add_global]; cgc_locals keeps the bindings of the last function. *)
Definition glo_var (x : Z) (t : ty) (s : gst) : gst * Z :=
  match look_glo x (gglo s) with
  | Some (off, _) => (s, off)
  | None => (GS (GVar x (galloc s) t :: gglo s) (galloc s + type_width W t true true) (ginit s) (gloc s) (gret s) (glbl s), galloc s)
  end.
Definition glo_init (s : gst) (t : ty) (off : Z) (e : expr) : M unit :=
  if is_agg t then fail else
  codegen_rvalue W (gglo s) (gloc s) e ;;; pop reg_X ;;; grow_fs (-1) ;;; write_mem_location W reg_glo off reg_X (type_width W t true false).
Definition glo_fun (f : Z) (rt : ty) (s : gst) : gst * Z :=
  match look_fun f (gglo s) with
  | Some (lb, _) => (s, lb)
  | None => (GS (GFun f (glbl s) rt :: gglo s) (galloc s) (ginit s) (gloc s) (gret s) (glbl s + 1), glbl s)
  end.
(** exe.c:2423-2455 [codegen_glo_decl], 2367-2416 [codegen_glo_fun_decl]. *)
Definition codegen_glo_decl (d : gdecl) (s : gst) : option (list hop * gst) :=
  match d with
  | DVar x t None => Some ([], fst (glo_var x t s))
  | DVar x t (Some e) =>
      let '(s1, off) := glo_var x t s in
      let l := glbl s1 in
      match glo_init s1 t off e (0, l + 1) with
      | Some (_, c, (_, l')) => Some ([HD (ginit s1)] ++ c ++ [HC (HJump l)], GS (gglo s1) (galloc s1) l (gloc s1) (gret s1) l')
      | None => None
      end
  | DProto f rt => Some ([], fst (glo_fun f rt s))
  | DStruct id ms =>                                         (* exe.c:1759-1780 [codegen_struct_or_union] *)
      match look_str id (gglo s) with
      | Some _ => None
      | None => Some ([], GS (GStruct id ms :: gglo s) (galloc s) (ginit s) (gloc s) (gret s) (glbl s))
      end
  | DFun f ps rt body =>
      if is_agg rt then None else
      let mr := if f =? id_main then match rt with TVoid => gret s | _ => true end else gret s in
      let '(s1, lb) := glo_fun f rt s in
      match codegen_fun W (gglo s1) lb ps body (0, glbl s1), add_params W ps (-1) [] with
      | Some (_, c, (_, l')), Some loc => Some (c, GS (gglo s1) (galloc s1) (ginit s1) loc mr l')
      | _, _ => None
      end
  end.
(** pnut.c:4105-4118: the declarations in order. *)
Fixpoint codegen_decls (ds : list gdecl) (s : gst) : option (list hop * gst) :=
  match ds with
  | [] => Some ([], s)
  | d :: ds => match codegen_glo_decl d s with
               | Some (c, s1) => match codegen_decls ds s1 with Some (c', s2) => Some (c ++ c', s2) | None => None end
               | None => None
               end
  end.

(** x86.c:707-718, 808-817 [os_allocate_memory] (Linux). *)
Definition os_allocate_memory (n : Z) : list hop :=
  if W =? 4 then
    [HC (HPush 3); HC (HMovImm 0 192); HC (HMovImm 3 0); HC (HMovImm 1 n); HC (HMovImm 2 3); HC (HMovImm 6 34); HC (HMovImm 7 (-1));
     HC (HMovImm 5 0); HC (HInt 128); HC (HPop 3)]
  else
    [HC (HMovImm 7 0); HC (HMovImm 6 n); HC (HMovImm 2 3); HC (HMovImm 10 34); HC (HMovImm 8 (-1)); HC (HMovImm 9 0); HC (HMovImm 0 9);
     HC HSyscall].
(** x86.c:639-664 [setup_proc_args] *)
Definition setup_proc_args (n : Z) : list hop :=
  [HC (HAlu Amov reg_X 4); HC (HAddImm reg_X (n + W)); HC (HPush reg_X); HC (HLoad false W reg_Y reg_X (- W)); HC (HPush reg_Y)].
(** x86.c:732-750, 832-860: the remaining system calls. *)
Definition os_open := syscall_3 W (if W =? 4 then 5 else 2) reg_X reg_Y reg_Z.
Definition os_close := syscall_3 W (if W =? 4 then 6 else 3) reg_X (-1) (-1).
Definition os_seek := syscall_3 W (if W =? 4 then 19 else 8) reg_X reg_Y reg_Z.
Definition os_unlink := syscall_3 W (if W =? 4 then 10 else 87) reg_X (-1) (-1).
(** exe.c:2466-2480 [rt_debug], [rt_crash] *)
Fixpoint rt_debug_go (msg : string) : list hop :=
  match msg with
  | EmptyString => []
  | String c r => [HC (HMovImm reg_X (Z.of_nat (nat_of_ascii c)))] ++ rt_putchar W ++ rt_debug_go r
  end.
Definition rt_crash (msg : string) : list hop := rt_debug_go msg ++ [HC (HMovImm reg_X 10)] ++ rt_putchar W ++ os_exit W.
Definition RT_HEAP_SIZE := 104857600.
(** exe.c:2499-2511 [rt_fopen] *)
Definition rt_fopen (l : Z) : list hop :=
  [HC (HLoad false W reg_X reg_SP W); HC (HMovImm reg_Y 0); HC (HMovImm reg_Z 0)] ++ os_open ++ [HC (HMovImm reg_Y 0)] ++
  h_jump_cond_reg_reg GE l reg_X reg_Y ++ [HC (HMovImm reg_X 0); HD l].
(** exe.c:2513-2531 [rt_malloc] *)
Definition rt_malloc (l : Z) : list hop :=
  [HC (HLoad false W reg_Y reg_glo W); HC (HAlu Aadd reg_X reg_Y); HC (HLoad false W reg_Y reg_glo 0); HC (HAddImm reg_Y RT_HEAP_SIZE)] ++
  h_jump_cond_reg_reg LE l reg_X reg_Y ++ rt_crash "Heap overflow" ++
  [HD l; HC (HLoad false W reg_Y reg_glo W); HC (HStore W reg_glo W reg_X); HC (HAlu Amov reg_X reg_Y)].
Definition args3 : list hop := [HC (HLoad false W reg_X reg_SP W); HC (HLoad false W reg_Y reg_SP (2 * W)); HC (HLoad false W reg_Z reg_SP (3 * W))].
Definition arg1 : list hop := [HC (HLoad false W reg_X reg_SP W)].

(** exe.c:2536-2570: set-up, then main and exit. *)
Definition setup_code (alloc : Z) : list hop :=
  [HD setup_lbl] ++ os_allocate_memory alloc ++ [HC (HAlu Amov reg_glo reg_X)] ++ os_allocate_memory RT_HEAP_SIZE ++
  [HC (HStore W reg_glo 0 reg_X); HC (HStore W reg_glo W reg_X); HC (HJump init_start_lbl)].
Definition main_code (init_next : Z) (main_returns : bool) : list hop :=
  [HD init_next] ++ setup_proc_args 0 ++ [HC (HCall main_lbl)] ++ (if main_returns then [] else [HC (HMovImm reg_X 0)]) ++
  [HC (HPush reg_X); HC (HPush reg_X); HD exit_lbl; HC (HLoad false W reg_X reg_SP W)] ++ os_exit W.
(** exe.c:2572-2684: the functions of the run-time library. *)
Definition rt_code1 : list hop :=
  [HD read_lbl] ++ args3 ++ os_read W ++ [HC HRet; HD write_lbl] ++ args3 ++ os_write W ++ [HC HRet; HD open_lbl] ++ args3 ++ os_open ++
  [HC HRet; HD close_lbl; HD fclose_lbl] ++ arg1 ++ os_close ++ [HC HRet; HD seek_lbl] ++ args3 ++ os_seek ++
  [HC HRet; HD unlink_lbl] ++ arg1 ++ os_unlink ++ [HC HRet].
Definition rt_code2 (l : Z) : list hop :=
  ([HD fopen_lbl] ++ rt_fopen (l + 1) ++ [HC HRet]) ++ ([HD fgetc_lbl] ++ arg1 ++ rt_fgetc W reg_X (l + 2) ++ [HC HRet]) ++
  ([HD malloc_lbl] ++ arg1 ++ rt_malloc (l + 3) ++ [HC HRet]) ++ ([HD free_lbl] ++ arg1 ++ [HC HRet]) ++
  ([HD printf_lbl] ++ rt_crash "printf is not supported yet." ++ [HC HRet]).
Definition codegen_end (s : gst) : list hop :=
  setup_code (galloc s) ++ main_code (ginit s) (gret s) ++ rt_code1 ++ fun_putchar W putchar_lbl ++ fun_getchar W getchar_lbl (glbl s) ++
  rt_code2 (glbl s).

(** The program's helper calls and labels, in order; [None]: fatal error. *)
Definition codegen_prog (ds : list gdecl) : option (list hop * gst) :=
  let '(c0, s0) := codegen_begin W in
  match codegen_decls ds s0 with Some (c, s) => Some (c0 ++ c ++ codegen_end s, s) | None => None end.
End P.

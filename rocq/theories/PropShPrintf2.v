(* C47, continued: a conversion the compiler does not support is refused, not printed wrongly. *)
From Coq Require Import ZArith List Bool Lia.
From Verif Require Import Base Text ShStr ShHeap PropShHeap PropShStr ShPrintf PropShPrintf.
Import ListNotations.
Open Scope Z_scope.
Local Notation length := List.length.
Local Notation R := (run step finish).

(** ** Specification *)
(* how many arguments a format takes *)
Fixpoint needed (ps : list piece) : nat :=
  match ps with [] => 0 | Dir d :: ps => S (stars d) + needed ps | _ :: ps => needed ps end.
(* %c with a width *)
Definition wide_char (d : dir) : Prop :=
  forallb isflag (flags d) = true /\ conv d = 99 /\ ells d = [] /\
  match width d with Some (Lit ds) => lit_ok ds | Some Star => True | None => False end /\
  match prec d with Some (Lit []) => True | Some (Lit ds) => lit_ok ds | _ => True end.

(** ** Proofs *)
Lemma run_fail c t s : step c t s = None -> R (c :: t) s = None.
Proof. intros E. unfold run. cbn [iter List.length]. rewrite E. reflexivity. Qed.
Lemma params_split d (pars : list par) n : length pars = (S (stars d) + n)%nat ->
  exists sw sq p rest, pars = sw ++ sq ++ p :: rest /\ length sw = is_star (width d) /\ length sq = is_star (prec d) /\ length rest = n.
Proof.
  unfold stars. generalize (is_star (width d)) (is_star (prec d)). intros a b H.
  destruct (skipn b (skipn a pars)) as [|p rest] eqn:E.
  - exfalso. pose proof (f_equal (@List.length par) E) as L. rewrite !skipn_length in L. cbn [List.length] in L. lia.
  - exists (firstn a pars), (firstn b (skipn a pars)), p, rest.
    pose proof (f_equal (@List.length par) E) as L. rewrite !skipn_length in L. cbn [List.length] in L.
    split; [rewrite <- E, !firstn_skipn; reflexivity|]. rewrite !firstn_length, skipn_length. lia.
Qed.
Lemma wide_fails d f seg pt pars out : wide_char d -> (S (stars d) <= length pars)%nat -> R (show (Dir d) ++ f) (cs seg pt pars out) = None.
Proof.
  intros (Wf & C & L & Ww & Wp) N. destruct (params_split d pars (length pars - S (stars d))) as (sw & sq & p & rest & -> & L1 & L2 & _); [lia|].
  cbn [show app]. rewrite r_pct, show_dir_eq, L, C. cbn [app]. rewrite <- !app_assoc, r_flags by exact Wf.
  assert (W' : match width d with Some (Lit ds) => lit_ok ds | _ => True end) by (destruct (width d) as [[]|]; auto).
  destruct (r_width seg pt (sq ++ p :: rest) out ((seg ++ [37]) ++ flags d) (prec_text (prec d) ++ [99] ++ f) (width d) sw W') as [ph [P E]]; [apply prec_nodig; reflexivity|exact L1|].
  rewrite E. destruct (r_prec seg pt (p :: rest) out (((seg ++ [37]) ++ flags d) ++ num_text (width d)) ([99] ++ f) (prec d) sq (starred (width d) sw) (some (width d)) ph Wp) as [ph' E']; [reflexivity|exact L2|exact P|].
  rewrite E'. cbn [app]. apply run_fail. destruct (width d); [reflexivity|contradiction].
Qed.
Lemma none_left d f seg pt out sw sq : wf_dir d -> length sw = is_star (width d) -> length sq = is_star (prec d) ->
  R (show (Dir d) ++ f) (cs seg pt (sw ++ sq) out) = None.
Proof.
  intros W S1 S2. cbn [show app]. rewrite r_pct. destruct (r_front d f seg pt [] out (seg ++ [37]) sw sq W S1 S2) as [ph E].
  rewrite app_nil_r in E. rewrite E. pose proof W as (_ & _ & _ & L & K).
  destruct K as [K|[(K & K' & _)|(K & K' & _)]]; [|rewrite K, K'; reflexivity|rewrite K, K'; cbn [app]; apply run_fail; destruct (width d); reflexivity].
  assert (NL : Z.eqb 108 (conv d) = false) by (unfold isint in K; lia).
  assert (HD : head_not (Z.eqb 108) ([conv d] ++ f)) by exact NL.
  pose proof (span_all (Z.eqb 108) (ells d) ([conv d] ++ f) L HD) as SP. rewrite <- app_assoc.
  destruct (ells d) as [|l ls]; cbn [app] in *.
  - apply run_fail. unfold step. rewrite (flag_no (conv d)), (dig_no (conv d)) by (unfold isint in K; cbn; lia).
    replace (conv d =? 46) with false by (unfold isint in K; lia). replace (conv d =? 42) with false by (unfold isint in K; lia).
    replace (conv d =? 37) with false by (unfold isint in K; lia). rewrite K, orb_true_r, SP, K. reflexivity.
  - cbn [forallb] in L. apply andb_prop in L as [L _]. apply Z.eqb_eq in L. subst l. apply run_fail. unfold step.
    change (isflag 108) with false. change (isdig 108) with false. change (108 =? 46) with false. change (108 =? 42) with false. change (108 =? 37) with false.
    change (108 =? 108) with true. cbn [orb]. rewrite SP, K. reflexivity.
Qed.
Lemma too_few d f seg pt out pars : wf_dir d -> (length pars < S (stars d))%nat -> R (show (Dir d) ++ f) (cs seg pt pars out) = None.
Proof.
  intros W N. unfold stars in N.
  destruct (Nat.eq_dec (length pars) (is_star (width d) + is_star (prec d))) as [E|NE].
  - rewrite <- (firstn_skipn (is_star (width d)) pars). apply none_left; [exact W|rewrite firstn_length; lia|rewrite skipn_length; lia].
  - cbn [show app]. rewrite r_pct, show_dir_eq, <- !app_assoc. pose proof W as (Wf & Ww & Wp & We & _). rewrite r_flags by exact Wf.
    destruct (le_lt_dec (is_star (width d)) (length pars)) as [L|L].
    + (* no argument for the precision *)
      assert (P : prec d = Some Star /\ length pars = is_star (width d)).
      { destruct (prec d) as [[ds|]|]; cbn [is_star] in *; try (exfalso; lia). split; [reflexivity|lia]. }
      destruct P as [P PL].
      destruct (r_width seg pt [] out ((seg ++ [37]) ++ flags d) (prec_text (prec d) ++ ells d ++ [conv d] ++ f) (width d) pars Ww) as [ph [PH E]]; [rewrite P; reflexivity|exact PL|].
      rewrite app_nil_r in E. rewrite E, P. cbn [prec_text show_num app].
      erewrite (run_step step finish step_shrink 46); [|destruct PH as [->| ->]; reflexivity]. apply run_fail. reflexivity.
    + (* no argument for the width *)
      assert (P : width d = Some Star /\ pars = []).
      { destruct (width d) as [[ds|]|]; cbn [is_star] in *; try (exfalso; lia). split; [reflexivity|]. destruct pars; [reflexivity|cbn in L; lia]. }
      destruct P as [P ->]. rewrite P. cbn [num_text show_num app]. apply run_fail. reflexivity.
Qed.
Lemma prefix_fails : forall ps f, Forall wf ps -> forall n, (forall seg pt pars out, length pars = n -> R f (cs seg pt pars out) = None) ->
  forall seg pt pars out, length pars = (needed ps + n)%nat -> R (format ps ++ f) (cs seg pt pars out) = None.
Proof.
  induction ps as [|pc ps IH]; intros f W n F seg pt pars out N; [exact (F seg pt pars out N)|].
  inversion W as [|? ? W1 W2]; subst. unfold format. cbn [flat_map]. fold (format ps). rewrite <- app_assoc.
  destruct pc as [c| |d]; cbn [needed] in N.
  - cbn [show app]. rewrite r_txt by (destruct W1; assumption). apply (IH f W2 n F). exact N.
  - cbn [show app]. rewrite r_pp. apply (IH f W2 n F). exact N.
  - cbn [wf] in W1. destruct (params_split d pars (needed ps + n)) as (sw & sq & p & rest & -> & L1 & L2 & L3); [lia|].
    pose proof W1 as (_ & _ & _ & _ & K). destruct K as [K|[(K & _)|(K & _ & K')]].
    + rewrite (r_int d (format ps ++ f)) by assumption. apply (IH f W2 n F). exact L3.
    + destruct (plain_s d) eqn:PS.
      * assert (E : width d = None /\ prec d = None).
        { unfold plain_s in PS. rewrite K in PS. cbn in PS. destruct (width d), (prec d); try discriminate. split; reflexivity. }
        destruct E as [E1 E2]. rewrite E1 in L1. rewrite E2 in L2. cbn in L1, L2. destruct sw; [|discriminate]. destruct sq; [|discriminate]. cbn [app].
        rewrite (r_plain d (format ps ++ f)) by assumption. apply (IH f W2 n F). exact L3.
      * rewrite (r_s d (format ps ++ f)) by assumption. apply (IH f W2 n F). exact L3.
    + rewrite K' in L1. cbn in L1. destruct sw; [|discriminate]. cbn [app]. rewrite (r_c d (format ps ++ f)) by assumption. apply (IH f W2 n F). exact L3.
Qed.

Lemma few_fail : forall ps f, Forall wf ps -> forall seg pt pars out, (length pars < needed ps)%nat -> R (format ps ++ f) (cs seg pt pars out) = None.
Proof.
  induction ps as [|pc ps IH]; intros f W seg pt pars out N; [cbn in N; lia|].
  inversion W as [|? ? W1 W2]; subst. unfold format. cbn [flat_map]. fold (format ps). rewrite <- app_assoc.
  destruct pc as [c| |d]; cbn [needed] in N.
  - cbn [show app]. rewrite r_txt by (destruct W1; assumption). apply (IH f W2). exact N.
  - cbn [show app]. rewrite r_pp. apply (IH f W2). exact N.
  - destruct (le_lt_dec (S (stars d)) (length pars)) as [L|L]; [|apply too_few; [exact W1|exact L]].
    replace (show (Dir d) ++ format ps ++ f) with (format [Dir d] ++ format ps ++ f) by (unfold format; cbn [flat_map]; rewrite app_nil_r; reflexivity).
    apply (prefix_fails [Dir d] (format ps ++ f)) with (n := (length pars - S (stars d))%nat).
    + constructor; [exact W1|constructor].
    + intros seg' pt' pars' out' E. apply (IH f W2). lia.
    + cbn [needed]. lia.
Qed.

(** ** C47 *)
(* Whatever supported pieces come before it and whatever comes after it. *)
Theorem c47_wide_char_refused : forall ps d rest params, Forall wf ps -> wide_char d -> (needed (ps ++ [Dir d]) <= length params)%nat ->
  comp_printf (format ps ++ show (Dir d) ++ rest) params = None.
Proof.
  intros ps d rest params W D N.
  assert (E : (needed (ps ++ [Dir d]) = needed ps + S (stars d))%nat).
  { clear. induction ps as [|[c| |e] ps IH]; cbn [needed app] in *; try assumption; lia. }
  assert (P : params <> []) by (intros ->; rewrite E in N; cbn in N; lia).
  assert (X : handle_printf_call (format ps ++ show (Dir d) ++ rest) params = None).
  { apply (prefix_fails ps (show (Dir d) ++ rest) W (length params - needed ps)); [|lia].
    intros seg pt pars out H. apply wide_fails; [assumption|lia]. }
  destruct params; [congruence|]. exact X.
Qed.
(* Fewer arguments than the conversions of a format, or of the first pieces of one, take. *)
Theorem c47_missing_argument_refused : forall ps rest params, params <> [] -> Forall wf ps -> (length params < needed ps)%nat ->
  comp_printf (format ps ++ rest) params = None.
Proof.
  intros ps rest params P W N. assert (X : handle_printf_call (format ps ++ rest) params = None) by (apply few_fail; assumption).
  destruct params; [congruence|]. exact X.
Qed.

(* Cases: "[%2d]%-5c!" with 1 and 'x'; "%d %s" with one argument. *)
Definition c5 : dir := {| flags := [45]; width := Some (Lit [53]); prec := None; ells := []; conv := 99 |}.
Definition two_d : dir := {| flags := []; width := Some (Lit [50]); prec := None; ells := []; conv := 100 |}.
Theorem c47_refused_instance :
  Forall wf [Txt 91; Dir two_d; Txt 93] /\ wide_char c5 /\ comp_printf [91; 37; 50; 100; 93; 37; 45; 53; 99; 33] [ParExp 0; ParExp 1] = None /\
  comp_printf [91; 37; 50; 100; 93; 37; 99; 33] [ParExp 0; ParExp 1] <> None /\ comp_printf [37; 100; 32; 37; 115] [ParExp 0] = None.
Proof.
  split.
  { repeat (apply Forall_cons; [wfp|]). apply Forall_nil. }
  split; [cbn; unfold wide_char; cbn; intuition (try lia; auto)|].
  split; [exact (c47_wide_char_refused [Txt 91; Dir two_d; Txt 93] c5 [33] [ParExp 0; ParExp 1] ltac:(repeat (apply Forall_cons; [wfp|]); apply Forall_nil) ltac:(cbn; unfold wide_char; cbn; intuition (try lia; auto)) ltac:(cbn; lia))|].
  split; [vm_compute; discriminate|].
  exact (c47_missing_argument_refused [Dir (simple 100); Txt 32; Dir (simple 115)] [] [ParExp 0] ltac:(discriminate) ltac:(repeat (apply Forall_cons; [wfp|]); apply Forall_nil) ltac:(cbn; lia)).
Qed.

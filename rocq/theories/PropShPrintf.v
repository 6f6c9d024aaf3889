(* C47: a printf with a constant format writes what C's printf writes. *)
From Coq Require Import ZArith List Bool Lia.
From Verif Require Import Base Text ShStr ShHeap PropShHeap PropShStr ShPrintf.
Import ListNotations.
Open Scope Z_scope.
Local Notation length := List.length.

(** ** Specification: formats and C's printf (C17 7.21.6.1) *)
(* an ordinary character, %%, a conversion *)
Inductive piece := Txt (c : Z) | Pct | Dir (d : dir).
Definition show_num (n : num) : list Z := match n with Lit ds => ds | Star => [42] end.
Definition show_dir (d : dir) : list Z :=
  flags d ++ match width d with Some n => show_num n | None => [] end ++
  match prec d with Some n => 46 :: show_num n | None => [] end ++ ells d ++ [conv d].
Definition show (p : piece) : list Z := match p with Txt c => [c] | Pct => [37; 37] | Dir d => 37 :: show_dir d end.
Definition format (ps : list piece) : list Z := flat_map show ps.
(* the conversions the compiler supports: flags, a width that does not start with 0, a precision that does not
   start with 0; d i o u x X with any number of l; s; c without width *)
Definition lit_ok (ds : list Z) : Prop := match ds with d :: t => 49 <= d <= 57 /\ forallb isdig t = true | [] => False end.
Definition wf_dir (d : dir) : Prop :=
  forallb isflag (flags d) = true /\
  match width d with Some (Lit ds) => lit_ok ds | _ => True end /\
  match prec d with Some (Lit []) => True | Some (Lit ds) => lit_ok ds | _ => True end /\
  forallb (Z.eqb 108) (ells d) = true /\
  (isint (conv d) = true \/
   conv d = 115 /\ ells d = [] /\ prec d <> Some (Lit []) \/
   conv d = 99 /\ ells d = [] /\ width d = None).
Definition wf (p : piece) : Prop := match p with Txt c => 0 < c < 256 /\ c <> 37 | Pct => True | Dir d => wf_dir d end.

Section C.
Variable fmt_int : list Z -> option Z -> option Z -> Z -> Z -> list Z.
Definition c_num (n : option num) (a : list arg) : option (option Z * list arg) :=
  match n with
  | None => Some (None, a)
  | Some (Lit ds) => Some (Some (numval ds), a)
  | Some Star => match a with VInt v :: a => Some (Some v, a) | _ => None end
  end.
(* the value converted: int and unsigned int have 32 bits, long and unsigned long 64 *)
Definition c_value (d : dir) (v : Z) : Z :=
  if (conv d =? 100) || (conv d =? 105) then v else v mod 2 ^ (if (length (ells d) =? 0)%nat then 32 else 64).
Definition c_dir (d : dir) (a : list arg) : option (list Z * list arg) :=
  match c_num (width d) a with
  | Some (w, a) =>
    match c_num (prec d) a with
    | Some (p, VInt v :: a) =>
      if isint (conv d) then Some (fmt_int (flags d) w p (conv d) (c_value d v), a)
      else if conv d =? 99 then Some (fmt_str (flags d) w None [v mod 256], a) else None
    | Some (p, VStr s :: a) => if conv d =? 115 then Some (fmt_str (flags d) w p s, a) else None
    | _ => None
    end
  | None => None
  end.
Fixpoint c_printf (ps : list piece) (a : list arg) : option (list Z) :=
  match ps with
  | [] => Some []
  | Txt c :: ps => option_map (cons c) (c_printf ps a)
  | Pct :: ps => option_map (cons 37) (c_printf ps a)
  | Dir d :: ps => match c_dir d a with Some (o, a) => option_map (app o) (c_printf ps a) | None => None end
  end.
End C.

(** ** The conditions *)
(* a conversion whose argument stays in the list of the shell's printf: all but %c and a %s without width and precision *)
Definition plain_s (d : dir) : bool := (conv d =? 115) && match width d, prec d with None, None => true | _, _ => false end.
Definition kept (d : dir) : bool := negb (conv d =? 99) && negb (plain_s d).
(* no such conversion comes after another one with a plain %s and no %c between them *)
Fixpoint no_stale (ps : list piece) (seen stale : bool) : bool :=
  match ps with
  | [] => true
  | Dir d :: ps =>
    if kept d then negb stale && no_stale ps true stale
    else if plain_s d then no_stale ps false (stale || seen)
    else no_stale ps false false
  | _ :: ps => no_stale ps seen stale
  end.
(* characters are bytes; unsigned conversions without l get a value that needs no conversion; a string printed
   with a width or a precision does not end in a newline *)
Definition good1 (d : dir) (v : arg) : Prop :=
  match v with
  | VInt v => if conv d =? 99 then 0 <= v < 256
              else conv d = 100 \/ conv d = 105 \/ ells d <> [] \/ 0 <= v < 2 ^ 32
  | VStr s => Forall (fun c => 0 < c < 256) s /\ (plain_s d = false -> last s 0 <> 10)
  end.
Definition is_star (n : option num) : nat := match n with Some Star => 1 | _ => 0 end.
Definition stars (d : dir) : nat := is_star (width d) + is_star (prec d).
Fixpoint good (ps : list piece) (a : list arg) : Prop :=
  match ps with
  | [] => True
  | Dir d :: ps => (forall v, nth_error a (stars d) = Some v -> good1 d v) /\ good ps (skipn (S (stars d)) a)
  | _ :: ps => good ps a
  end.

(** ** The loops *)
Lemma span_len P l : (length (snd (span P l)) <= length l)%nat.
Proof. induction l as [|c t IH]; cbn [span]; [reflexivity|]. destruct (P c); [destruct (span P t); cbn in *; lia|reflexivity]. Qed.
Section IterFacts.
Context {T R : Type}.
Variable stp : Z -> list Z -> T -> option (list Z * T).
Variable fin : T -> R.
Hypothesis shrink : forall c t s f s', stp c t s = Some (f, s') -> (length f <= length t)%nat.
Lemma iter_irrel : forall n m f s, (length f <= n)%nat -> (length f <= m)%nat -> iter stp fin n f s = iter stp fin m f s.
Proof.
  induction n as [|n IH]; intros m f s Hn Hm.
  - destruct f; [destruct m; reflexivity|cbn in Hn; lia].
  - destruct f as [|c t]; [destruct m; reflexivity|]. destruct m as [|m]; [cbn in Hm; lia|]. cbn [iter].
    destruct (stp c t s) as [[f' s']|] eqn:E; [|reflexivity]. apply shrink in E. cbn [List.length] in *. apply IH; lia.
Qed.
Lemma run_step c t s f s' : stp c t s = Some (f, s') -> run stp fin (c :: t) s = run stp fin f s'.
Proof. intros E. unfold run. cbn [iter List.length]. rewrite E. apply shrink in E. apply iter_irrel; lia. Qed.
Lemma run_nil s : run stp fin [] s = Some (fin s).
Proof. reflexivity. Qed.
End IterFacts.

Lemma step_shrink c t s f s' : step c t s = Some (f, s') -> (length f <= length t)%nat.
Proof.
  destruct s as [pre seg pt wt qt md hw hp ph pars out]. unfold step.
  destruct md; [|destruct (c =? 37); intros E; inversion E; subst; lia].
  destruct (isflag c); [destruct (ph =? 0); intros E; inversion E; subst; lia|].
  destruct (isdig c) eqn:D.
  { destruct ((ph =? 0) || (ph =? 2)); [|discriminate]. cbn [span]. rewrite D. pose proof (span_len isdig t).
    destruct (span isdig t). intros E; inversion E; subst. exact H. }
  destruct (c =? 46); [destruct (2 <=? ph); intros E; inversion E; subst; lia|].
  destruct (c =? 42); [destruct pars; [discriminate|]; destruct (ph =? 0); [|destruct (ph =? 2)]; intros E; inversion E; subst; lia|].
  destruct (c =? 37); [destruct (ph =? 0); intros E; inversion E; subst; lia|].
  destruct ((c =? 108) || isint c) eqn:L.
  { pose proof (span_len (Z.eqb 108) (c :: t)). destruct (span (Z.eqb 108) (c :: t)) as [ls [|d r]]; [discriminate|].
    destruct (isint d); [|discriminate]. destruct pars; [discriminate|]. intros E; inversion E; subst. cbn in H. lia. }
  destruct (c =? 99); [destruct pars; [discriminate|]; destruct hw; intros E; inversion E; subst; lia|].
  destruct (c =? 115); [destruct pars; [discriminate|]; destruct (hw || hp); intros E; inversion E; subst; lia|discriminate].
Qed.
Lemma num_len l : (length (snd (get_num l)) <= length l)%nat.
Proof.
  unfold get_num. destruct l as [|c t]; [reflexivity|]. destruct (c =? 42); [cbn; lia|].
  pose proof (span_len isdig (c :: t)). destruct (span isdig (c :: t)) as [[|d ds] r]; cbn [snd] in *; lia.
Qed.
Lemma prec_len l : (length (snd (get_prec l)) <= length l)%nat.
Proof.
  unfold get_prec. destruct l as [|c t]; [reflexivity|]. destruct (c =? 46); [|cbn; lia].
  pose proof (num_len t). destruct (get_num t) as [[n|] r]; cbn [snd List.length] in *; lia.
Qed.
Lemma dir_len l d r : get_dir l = Some (d, r) -> (length r < length l)%nat.
Proof.
  unfold get_dir. pose proof (span_len isflag l). destruct (span isflag l) as [fl l1]. pose proof (num_len l1). destruct (get_num l1) as [w l2].
  pose proof (prec_len l2). destruct (get_prec l2) as [p l3]. pose proof (span_len (Z.eqb 108) l3). destruct (span (Z.eqb 108) l3) as [e l4].
  cbn [snd] in *. destruct l4; [discriminate|]. intros E. inversion E; subst. cbn [List.length] in *. lia.
Qed.
Lemma sh_shrink fmt_int c t s f s' : sh_step fmt_int c t s = Some (f, s') -> (length f <= length t)%nat.
Proof.
  destruct s as [o a]. unfold sh_step. destruct (c =? 37).
  - assert (K : forall l, match get_dir l with Some (d, t) => match sh_dir fmt_int d a with Some (x, a) => Some (t, (o ++ x, a)) | None => None end | None => None end = Some (f, s') -> (length f <= length l)%nat).
    { intros l. destruct (get_dir l) as [[d r]|] eqn:G; [|discriminate]. apply dir_len in G. destruct (sh_dir fmt_int d a) as [[x a']|]; [|discriminate].
      intros E; inversion E; subst. lia. }
    destruct t as [|d t]; [apply K|]. destruct (Z.eq_dec d 37) as [->|N]; [intros E; inversion E; subst; cbn; lia|].
    intros E. apply K. destruct d as [|p|p]; try exact E. do 6 (destruct p as [p|p|]; try exact E). congruence.
  - destruct (c =? 92).
    + destruct t as [|d t]; [discriminate|]. destruct (isoct d); [discriminate|]. destruct (sh_fmt [92; d]); [|discriminate]. intros E; inversion E; subst. cbn; lia.
    + intros E; inversion E; subst. lia.
Qed.

(** ** The compiler on one conversion *)
Local Notation R := (run step finish).
Definition cs seg pt pars out := mk [] seg pt None None false false false 0 pars out.
(* between conversions the state of the last one does not matter *)
Lemma junk : forall n f, (length f <= n)%nat -> forall a seg pt b c d e g pars out,
  R f (mk a seg pt b c false d e g pars out) = R f (cs seg pt pars out).
Proof.
  induction n as [|n IH]; intros f Hf a seg pt b c d e g pars out; (destruct f as [|x t]; [reflexivity|]); cbn [List.length] in Hf; [lia|].
  destruct (Z.eqb_spec x 37) as [->|N].
  - rewrite (run_step step finish step_shrink 37 t (mk a seg pt b c false d e g pars out) t (mk seg (seg ++ [37]) pt None None true false false 0 pars out)) by reflexivity.
    rewrite (run_step step finish step_shrink 37 t (cs seg pt pars out) t (mk seg (seg ++ [37]) pt None None true false false 0 pars out)) by reflexivity. reflexivity.
  - apply Z.eqb_neq in N.
    rewrite (run_step step finish step_shrink x t (mk a seg pt b c false d e g pars out) t (mk a (seg ++ [x]) pt b c false d e g pars out)) by (unfold step; rewrite N; reflexivity).
    rewrite (run_step step finish step_shrink x t (cs seg pt pars out) t (cs (seg ++ [x]) pt pars out)) by (unfold step, cs; rewrite N; reflexivity).
    apply IH. lia.
Qed.
Lemma junk' f a seg pt b c d e g pars out : R f (mk a seg pt b c false d e g pars out) = R f (cs seg pt pars out).
Proof. exact (junk (length f) f (le_n _) a seg pt b c d e g pars out). Qed.

Definition head_not (P : Z -> bool) (f : list Z) : Prop := match f with c :: _ => P c = false | [] => True end.
Lemma span_all P ds f : forallb P ds = true -> head_not P f -> span P (ds ++ f) = (ds, f).
Proof.
  induction ds as [|d ds IH]; cbn [forallb app span]; intros H N.
  - destruct f as [|c t]; [reflexivity|]. cbn in N |- *. rewrite N. reflexivity.
  - apply andb_prop in H. destruct H as [H1 H2]. rewrite H1, (IH H2 N). reflexivity.
Qed.
Lemma isflag_cases c : isflag c = true -> c = 32 \/ c = 35 \/ c = 43 \/ c = 45 \/ c = 48.
Proof. unfold isflag. rewrite !orb_true_iff, !Z.eqb_eq. tauto. Qed.
Lemma isint_cases c : isint c = true -> c = 100 \/ c = 105 \/ c = 111 \/ c = 117 \/ c = 120 \/ c = 88.
Proof. unfold isint. rewrite !orb_true_iff, !Z.eqb_eq. tauto. Qed.
Lemma isdig_cases c : 49 <= c <= 57 -> c = 49 \/ c = 50 \/ c = 51 \/ c = 52 \/ c = 53 \/ c = 54 \/ c = 55 \/ c = 56 \/ c = 57.
Proof. lia. Qed.
Lemma conv_cases d : wf_dir d -> In (conv d) [100; 105; 111; 117; 120; 88; 115; 99].
Proof.
  intros [_ [_ [_ [_ [H|[[H _]|[H _]]]]]]]; [apply isint_cases in H|rewrite H; cbn; tauto|rewrite H; cbn; tauto].
  cbn. intuition.
Qed.
Lemma r_flags pre pt hw hp pars out : forall fl seg f wt qt, forallb isflag fl = true ->
  R (fl ++ f) (mk pre seg pt wt qt true hw hp 0 pars out) = R f (mk pre (seg ++ fl) pt wt qt true hw hp 0 pars out).
Proof.
  induction fl as [|c fl IH]; intros seg f wt qt H; [rewrite app_nil_r; reflexivity|]. cbn [forallb] in H. apply andb_prop in H. destruct H as [H1 H2].
  cbn [app]. rewrite (run_step step finish step_shrink c (fl ++ f) (mk pre seg pt wt qt true hw hp 0 pars out) (fl ++ f) (mk pre (seg ++ [c]) pt wt qt true hw hp 0 pars out))
    by (unfold step; rewrite H1; reflexivity).
  rewrite IH by exact H2. rewrite <- app_assoc. reflexivity.
Qed.
Lemma lit_isdig ds : lit_ok ds -> exists d t, ds = d :: t /\ isdig d = true /\ isflag d = false /\ forallb isdig ds = true.
Proof.
  destruct ds as [|d t]; [intros []|]. intros [H1 H2]. exists d, t. split; [reflexivity|].
  assert (isdig d = true /\ isflag d = false).
  { apply isdig_cases in H1. intuition; subst; reflexivity. }
  destruct H. split; [assumption|]. split; [assumption|]. cbn [forallb]. rewrite H, H2. reflexivity.
Qed.
(* a literal width or precision *)
Lemma r_lit pre pt pars out ds seg f wt qt hw hp ph : lit_ok ds -> head_not isdig f -> ph = 0 \/ ph = 2 ->
  R (ds ++ f) (mk pre seg pt wt qt true hw hp ph pars out) =
  R f (mk pre (seg ++ ds) pt wt qt true (if ph =? 0 then true else hw) (if ph =? 2 then true else hp) (ph + 1) pars out).
Proof.
  intros L N P. destruct (lit_isdig ds L) as [d [t [E [D [F A]]]]].
  assert (E2 : ds ++ f = d :: (t ++ f)) by (rewrite E; reflexivity). rewrite E2.
  apply (run_step step finish step_shrink). unfold step. rewrite F, D.
  replace ((ph =? 0) || (ph =? 2)) with true by (destruct P as [->| ->]; reflexivity).
  rewrite <- E2, (span_all isdig ds f A N). reflexivity.
Qed.
Definition num_text (n : option num) : list Z := match n with Some n => show_num n | None => [] end.
Definition prec_text (n : option num) : list Z := match n with Some n => 46 :: show_num n | None => [] end.
Definition some {A} (o : option A) : bool := match o with Some _ => true | None => false end.
Definition starred (n : option num) (l : list par) : option par := match n with Some Star => hd_error l | _ => None end.
(* the width *)
Lemma r_width pre pt rest out seg f n sw :
  match n with Some (Lit ds) => lit_ok ds | _ => True end -> head_not isdig f -> length sw = is_star n ->
  exists ph, (ph = 0 \/ ph = 1) /\
  R (num_text n ++ f) (mk pre seg pt None None true false false 0 (sw ++ rest) out) =
  R f (mk pre (seg ++ num_text n) pt (starred n sw) None true (some n) false ph rest out).
Proof.
  intros L N Hs. destruct n as [[ds|]|]; cbn [num_text show_num starred some is_star] in *.
  - destruct sw; [|discriminate]. exists 1. split; [auto|]. cbn [app]. exact (r_lit pre pt rest out ds seg f None None false false 0 L N (or_introl eq_refl)).
  - destruct sw as [|p [|? ?]]; try discriminate. exists 0. split; [auto|]. cbn [app hd_error]. apply (run_step step finish step_shrink). reflexivity.
  - destruct sw; [|discriminate]. exists 0. split; [auto|]. cbn [app]. rewrite app_nil_r. reflexivity.
Qed.
Definition has_prec (n : option num) : bool := match n with Some (Lit []) | None => false | _ => true end.
Lemma r_prec pre pt rest out seg f n sq wt hw ph :
  match n with Some (Lit []) => True | Some (Lit ds) => lit_ok ds | _ => True end -> head_not isdig f -> length sq = is_star n -> ph = 0 \/ ph = 1 ->
  exists ph',
  R (prec_text n ++ f) (mk pre seg pt wt None true hw false ph (sq ++ rest) out) =
  R f (mk pre (seg ++ prec_text n) pt wt (starred n sq) true hw (has_prec n) ph' rest out).
Proof.
  intros L N Hs P. destruct n as [[ds|]|]; cbn [prec_text show_num starred has_prec is_star] in *.
  - destruct sq; [|discriminate]. cbn [app].
    assert (D : R (46 :: ds ++ f) (mk pre seg pt wt None true hw false ph rest out) = R (ds ++ f) (mk pre (seg ++ [46]) pt wt None true hw false 2 rest out)).
    { apply (run_step step finish step_shrink). destruct P as [->| ->]; reflexivity. }
    rewrite D. destruct ds as [|d t]; [exists 2; reflexivity|].
    exists 3. rewrite (r_lit pre pt rest out (d :: t) (seg ++ [46]) f wt None hw false 2 L N (or_intror eq_refl)).
    rewrite <- app_assoc. reflexivity.
  - destruct sq as [|p [|? ?]]; try discriminate. exists 2. cbn [app hd_error].
    rewrite (run_step step finish step_shrink 46 (42 :: f) (mk pre seg pt wt None true hw false ph (p :: rest) out) (42 :: f) (mk pre (seg ++ [46]) pt wt None true hw false 2 (p :: rest) out))
      by (destruct P as [->| ->]; reflexivity).
    rewrite (run_step step finish step_shrink 42 f (mk pre (seg ++ [46]) pt wt None true hw false 2 (p :: rest) out) f (mk pre ((seg ++ [46]) ++ [42]) pt wt (Some p) true hw true 2 rest out)) by reflexivity.
    rewrite <- app_assoc. reflexivity.
  - destruct sq; [|discriminate]. exists ph. cbn [app]. rewrite app_nil_r. reflexivity.
Qed.
Lemma starred_words n sw : length sw = is_star n -> opt (starred n sw) = map WRef sw.
Proof. destruct n as [[ds|]|]; cbn [is_star starred]; destruct sw as [|p [|? ?]]; try discriminate; reflexivity. Qed.
(* the heads of what follows *)
Lemma tail_nodig P d f : (forall c, In c [100; 105; 111; 117; 120; 88; 115; 99; 108] -> P c = false) -> wf_dir d -> head_not P ((ells d ++ [conv d]) ++ f).
Proof.
  intros HP W. pose proof (conv_cases d W) as C. destruct W as [_ [_ [_ [E _]]]].
  destruct (ells d) as [|l ls]; cbn; [apply HP; cbn in *; tauto|].
  cbn [forallb] in E. apply andb_prop in E. destruct E as [E _]. apply Z.eqb_eq in E. subst l. apply HP. cbn. tauto.
Qed.
Lemma prec_nodig P n f : P 46 = false -> head_not P f -> head_not P (prec_text n ++ f).
Proof. intros H N. destruct n; cbn; assumption. Qed.
Lemma dig_no c : In c [100; 105; 111; 117; 120; 88; 115; 99; 108] -> isdig c = false.
Proof. cbn. intuition; subst; reflexivity. Qed.
Lemma flag_no c : In c [100; 105; 111; 117; 120; 88; 115; 99; 108] -> isflag c = false.
Proof. cbn. intuition; subst; reflexivity. Qed.
Lemma show_dir_eq d : show_dir d = flags d ++ num_text (width d) ++ prec_text (prec d) ++ (ells d ++ [conv d]).
Proof. reflexivity. Qed.
(* up to the length modifier *)
Lemma r_front d f pre pt rest out seg sw sq : wf_dir d -> length sw = is_star (width d) -> length sq = is_star (prec d) ->
  exists ph,
  R (show_dir d ++ f) (mk pre seg pt None None true false false 0 (sw ++ sq ++ rest) out) =
  R ((ells d ++ [conv d]) ++ f) (mk pre (seg ++ flags d ++ num_text (width d) ++ prec_text (prec d)) pt (starred (width d) sw) (starred (prec d) sq) true
    (some (width d)) (has_prec (prec d)) ph rest out).
Proof.
  intros W Hw Hq. rewrite show_dir_eq, <- !app_assoc. destruct (W) as [Wf [Ww [Wp [We _]]]].
  rewrite r_flags by exact Wf.
  assert (N1 : head_not isdig ((ells d ++ [conv d]) ++ f)) by (apply tail_nodig; [apply dig_no|exact W]).
  rewrite <- app_assoc in N1.
  destruct (r_width pre pt (sq ++ rest) out (seg ++ flags d) (prec_text (prec d) ++ ells d ++ [conv d] ++ f) (width d) sw Ww) as [ph [P E]];
    [apply prec_nodig; [reflexivity|exact N1]|exact Hw|]. rewrite E.
  destruct (r_prec pre pt rest out ((seg ++ flags d) ++ num_text (width d)) (ells d ++ [conv d] ++ f) (prec d) sq (starred (width d) sw) (some (width d)) ph Wp N1 Hq P) as [ph' E'].
  rewrite E'. exists ph'. rewrite <- !app_assoc. reflexivity.
Qed.
Lemma r_pct f seg pt pars out : R (37 :: f) (cs seg pt pars out) = R f (mk seg (seg ++ [37]) pt None None true false false 0 pars out).
Proof. apply (run_step step finish step_shrink). reflexivity. Qed.

Lemma r_int d f pt rest out seg sw sq p : wf_dir d -> isint (conv d) = true -> length sw = is_star (width d) -> length sq = is_star (prec d) ->
  R (show (Dir d) ++ f) (cs seg pt (sw ++ sq ++ p :: rest) out) =
  R f (cs (seg ++ show (Dir d)) (pt ++ map WRef sw ++ map WRef sq ++ [WRef p]) rest out).
Proof.
  intros W C Hw Hq. cbn [show app]. rewrite r_pct.
  destruct (r_front d f seg pt (p :: rest) out (seg ++ [37]) sw sq W Hw Hq) as [ph E]. rewrite E.
  destruct (W) as [_ [_ [_ [We _]]]].
  assert (HD : exists c t, (ells d ++ [conv d]) ++ f = c :: t /\ (c = 108 \/ c = conv d)).
  { destruct (ells d) as [|l ls] eqn:El; [cbn; eauto|]. cbn [forallb] in We. apply andb_prop in We. destruct We as [We _]. apply Z.eqb_eq in We. subst l.
    cbn. eauto. }
  destruct HD as [c [t [HT HC]]].
  assert (SP : span (Z.eqb 108) (c :: t) = (ells d, conv d :: f)).
  { rewrite <- HT, <- app_assoc. cbn [app]. apply span_all; [exact We|]. cbn. destruct (isint_cases _ C) as [K|[K|[K|[K|[K|K]]]]]; rewrite K; reflexivity. }
  assert (CC : isflag c = false /\ isdig c = false /\ (c =? 46) = false /\ (c =? 42) = false /\ (c =? 37) = false /\ (c =? 108) || isint c = true).
  { destruct HC as [->| ->]; [repeat split|]. destruct (isint_cases _ C) as [K|[K|[K|[K|[K|K]]]]]; rewrite K; repeat split. }
  destruct CC as (C1 & C2 & C3 & C4 & C5 & C6).
  rewrite HT.
  erewrite (run_step step finish step_shrink c t); [|unfold step; rewrite C1, C2, C3, C4, C5, C6, SP, C; reflexivity].
  rewrite junk'. rewrite (starred_words _ _ Hw), (starred_words _ _ Hq). f_equal. unfold cs. f_equal.
  cbn [app]. rewrite show_dir_eq, <- !app_assoc. reflexivity.
Qed.
Lemma r_s d f pt rest out seg sw sq p : wf_dir d -> conv d = 115 -> plain_s d = false -> length sw = is_star (width d) -> length sq = is_star (prec d) ->
  R (show (Dir d) ++ f) (cs seg pt (sw ++ sq ++ p :: rest) out) =
  R f (cs (seg ++ show (Dir d)) (pt ++ map WRef sw ++ map WRef sq ++ [WSub p]) rest out).
Proof.
  intros W C PS Hw Hq. cbn [show app]. rewrite r_pct.
  destruct (r_front d f seg pt (p :: rest) out (seg ++ [37]) sw sq W Hw Hq) as [ph E]. rewrite E.
  destruct (W) as [_ [_ [_ [_ [H|[[_ [El Pr]]|[H _]]]]]]]; [rewrite C in H; discriminate| |rewrite C in H; discriminate].
  assert (HP : some (width d) || has_prec (prec d) = true).
  { unfold plain_s in PS. rewrite C in PS. cbn in PS. destruct (width d); [reflexivity|]. destruct (prec d) as [[[|? ?]|]|]; try reflexivity; congruence. }
  replace ((ells d ++ [conv d]) ++ f) with (115 :: f) by (rewrite El, C; reflexivity).
  erewrite (run_step step finish step_shrink 115 f); [|unfold step; cbn -[app]; rewrite HP; reflexivity].
  rewrite junk'. rewrite (starred_words _ _ Hw), (starred_words _ _ Hq). f_equal. unfold cs. f_equal.
  rewrite show_dir_eq, El, C, <- !app_assoc. reflexivity.
Qed.
Lemma r_plain d f pt rest out seg p : wf_dir d -> plain_s d = true ->
  R (show (Dir d) ++ f) (cs seg pt (p :: rest) out) = R f (cs [] pt rest (out ++ printf_call seg pt false ++ [Cpstr p])).
Proof.
  intros W PS. unfold plain_s in PS. apply andb_prop in PS. destruct PS as [C PS]. apply Z.eqb_eq in C.
  destruct (width d) eqn:Ew; [discriminate|]. destruct (prec d) eqn:Ep; [discriminate|].
  cbn [show app]. rewrite r_pct.
  destruct (r_front d f seg pt (p :: rest) out (seg ++ [37]) [] [] W) as [ph E]; [rewrite Ew; reflexivity|rewrite Ep; reflexivity|]. cbn [app] in E. rewrite E.
  destruct (W) as [_ [_ [_ [_ [H|[[_ [El _]]|[H _]]]]]]]; [rewrite C in H; discriminate| |rewrite C in H; discriminate].
  replace ((ells d ++ [conv d]) ++ f) with (115 :: f) by (rewrite El, C; reflexivity). rewrite Ew, Ep.
  erewrite (run_step step finish step_shrink 115 f); [|unfold step; cbn -[app]; reflexivity]. rewrite junk'. reflexivity.
Qed.
Lemma r_c d f pt rest out seg sq p : wf_dir d -> conv d = 99 -> length sq = is_star (prec d) ->
  R (show (Dir d) ++ f) (cs seg pt (sq ++ p :: rest) out) = R f (cs [] [] rest (out ++ printf_call seg pt false ++ [comp_putchar_inline p])).
Proof.
  intros W C Hq.
  destruct (W) as [_ [_ [_ [_ [H|[[H _]|[_ [El Ew]]]]]]]]; [rewrite C in H; discriminate|rewrite C in H; discriminate|].
  cbn [show app]. rewrite r_pct.
  destruct (r_front d f seg pt (p :: rest) out (seg ++ [37]) [] sq W) as [ph E]; [rewrite Ew; reflexivity|exact Hq|]. cbn [app] in E. rewrite E.
  replace ((ells d ++ [conv d]) ++ f) with (99 :: f) by (rewrite El, C; reflexivity). rewrite Ew.
  erewrite (run_step step finish step_shrink 99 f); [|unfold step; cbn -[app]; reflexivity]. rewrite junk'. reflexivity.
Qed.
Lemma r_txt c f pt pars out seg : c <> 37 -> R (c :: f) (cs seg pt pars out) = R f (cs (seg ++ [c]) pt pars out).
Proof. intros N. apply Z.eqb_neq in N. apply (run_step step finish step_shrink). unfold step, cs. rewrite N. reflexivity. Qed.
Lemma r_pp f pt pars out seg : R (37 :: 37 :: f) (cs seg pt pars out) = R f (cs (seg ++ [37; 37]) pt pars out).
Proof.
  rewrite r_pct. rewrite (run_step step finish step_shrink 37 f (mk seg (seg ++ [37]) pt None None true false false 0 pars out) f (mk seg ((seg ++ [37]) ++ [37]) pt None None false false false 0 pars out)) by reflexivity.
  rewrite junk'. rewrite <- app_assoc. reflexivity.
Qed.

(** ** The shell on one conversion *)
Lemma num_read n f : match n with Some (Lit ds) => lit_ok ds | _ => True end -> head_not isdig f -> head_not (Z.eqb 42) f ->
  get_num (num_text n ++ f) = (n, f).
Proof.
  intros L N N2. destruct n as [[ds|]|]; cbn [num_text show_num].
  - destruct (lit_isdig ds L) as [d [t [E [D [F A]]]]]. unfold get_num. rewrite (span_all isdig ds f A N). subst ds. cbn [app].
    replace (d =? 42) with false; [reflexivity|]. symmetry. apply Z.eqb_neq. intros ->. discriminate D.
  - reflexivity.
  - cbn [app]. destruct f as [|c t]; [reflexivity|]. unfold head_not in N, N2. unfold get_num. rewrite Z.eqb_sym, N2. cbn [span]. rewrite N. reflexivity.
Qed.
Lemma prec_read n f : match n with Some (Lit []) => True | Some (Lit ds) => lit_ok ds | _ => True end -> head_not isdig f -> head_not (Z.eqb 42) f -> head_not (Z.eqb 46) f ->
  get_prec (prec_text n ++ f) = (n, f).
Proof.
  intros L N N2 N3. destruct n as [m|]; cbn [prec_text app].
  - unfold get_prec. cbn [Z.eqb Pos.eqb].
    destruct m as [[|d t]|].
    + assert (E : get_num ([] ++ f) = (None, f)) by (apply (num_read None); auto). cbn [show_num]. rewrite E. reflexivity.
    + assert (E : get_num ((d :: t) ++ f) = (Some (Lit (d :: t)), f)) by (apply (num_read (Some (Lit (d :: t)))); auto). cbn [show_num]. rewrite E. reflexivity.
    + assert (E : get_num ([42] ++ f) = (Some Star, f)) by (apply (num_read (Some Star)); auto). cbn [show_num]. rewrite E. reflexivity.
  - destruct f as [|c t]; [reflexivity|]. unfold head_not in N3. unfold get_prec. rewrite Z.eqb_sym, N3. reflexivity.
Qed.
Lemma num_noflag n f : match n with Some (Lit ds) => lit_ok ds | _ => True end -> head_not isflag f -> head_not isflag (num_text n ++ f).
Proof.
  intros L N. destruct n as [[ds|]|]; cbn [num_text show_num]; [|reflexivity|exact N].
  destruct (lit_isdig ds L) as [d [t [E [D [F A]]]]]. subst ds. exact F.
Qed.
Lemma dir_read d f : wf_dir d -> get_dir (show_dir d ++ f) = Some (d, f).
Proof.
  intros W. unfold get_dir. rewrite show_dir_eq, <- !app_assoc. destruct (W) as [Wf [Ww [Wp [We _]]]].
  assert (T : forall P, (forall c, In c [100; 105; 111; 117; 120; 88; 115; 99; 108] -> P c = false) -> head_not P (ells d ++ [conv d] ++ f)).
  { intros P HP. rewrite app_assoc. apply tail_nodig; [exact HP|exact W]. }
  rewrite (span_all isflag); [|exact Wf|].
  2: { apply num_noflag; [exact Ww|]. apply prec_nodig; [reflexivity|]. apply T, flag_no. }
  rewrite num_read; [|exact Ww| |].
  2: { apply prec_nodig; [reflexivity|]. apply T, dig_no. }
  2: { apply prec_nodig; [reflexivity|]. apply T. cbn. intuition; subst; reflexivity. }
  rewrite prec_read; [|exact Wp|apply T, dig_no|apply T; cbn; intuition; subst; reflexivity|apply T; cbn; intuition; subst; reflexivity].
  rewrite span_all; [|exact We|].
  - destruct d; reflexivity.
  - pose proof (conv_cases d W) as C. unfold head_not. cbn [app]. cbn in C. destruct C as [<-|[<-|[<-|[<-|[<-|[<-|[<-|[<-|[]]]]]]]]]; reflexivity.
Qed.
Definition enc (f : list Z) : list Z := flat_map (one false) f.
Lemma enc_app a b : enc (a ++ b) = enc a ++ enc b.
Proof. apply flat_map_app. Qed.
Lemma enc_id f : forallb (fun c => match one false c with [x] => x =? c | _ => false end) f = true -> enc f = f.
Proof.
  induction f as [|c f IH]; [reflexivity|]. cbn [forallb enc flat_map]. intros H. apply andb_prop in H. destruct H as [H1 H2].
  destruct (one false c) as [|x [|? ?]]; try discriminate. apply Z.eqb_eq in H1. subst x. cbn [app]. f_equal. exact (IH H2).
Qed.
Definition tame (c : Z) : Prop := 0 < c < 256 /\ match one false c with [x] => x =? c | _ => false end = true.
Lemma tame_flag c : isflag c = true -> tame c.
Proof. intros H. apply isflag_cases in H. unfold tame. intuition; subst; try reflexivity; lia. Qed.
Lemma tame_dig c : isdig c = true -> tame c.
Proof.
  intros H. assert (B : isbyte c) by (unfold isdig in H; apply andb_prop in H; destruct H as [H1 H2]; apply Z.leb_le in H1, H2; unfold isbyte; lia).
  assert (Q : (if isdig c then (0 <? c) && (match one false c with [x] => x =? c | _ => false end) else true) = true).
  { apply (bytes_forall (fun c => if isdig c then (0 <? c) && (match one false c with [x] => x =? c | _ => false end) else true)); [vm_compute; reflexivity|exact B]. }
  rewrite H in Q. apply andb_prop in Q. destruct Q as [Q1 Q2]. apply Z.ltb_lt in Q1. split; [unfold isbyte in B; lia|exact Q2].
Qed.
Lemma tame_all P l : (forall c, P c = true -> tame c) -> forallb P l = true -> Forall tame l.
Proof. intros H E. apply Forall_forall. intros c I. apply H. exact (proj1 (forallb_forall _ _) E c I). Qed.
Lemma tame_lit ds : lit_ok ds -> Forall tame ds.
Proof. intros L. destruct (lit_isdig ds L) as [d [t [E [D [F A]]]]]. exact (tame_all isdig ds tame_dig A). Qed.
Lemma tame_dir d : wf_dir d -> Forall tame (show_dir d).
Proof.
  intros W. pose proof (conv_cases d W) as C. rewrite show_dir_eq. destruct W as [Wf [Ww [Wp [We _]]]].
  assert (T : forall c, In c [42; 46; 108; 100; 105; 111; 117; 120; 88; 115; 99] -> tame c).
  { cbn. intros c H. unfold tame. intuition; subst; try reflexivity; lia. }
  apply Forall_app. split; [exact (tame_all isflag _ tame_flag Wf)|]. apply Forall_app. split.
  - destruct (width d) as [[ds|]|]; cbn [num_text show_num]; [exact (tame_lit ds Ww)|apply Forall_cons; [apply T; cbn; tauto|apply Forall_nil]|apply Forall_nil].
  - apply Forall_app. split.
    + destruct (prec d) as [[[|x ds]|]|]; cbn [prec_text show_num];
        [apply Forall_cons; [apply T; cbn; tauto|apply Forall_nil]|apply Forall_cons; [apply T; cbn; tauto|exact (tame_lit _ Wp)]
        |apply Forall_cons; [apply T; cbn; tauto|apply Forall_cons; [apply T; cbn; tauto|apply Forall_nil]]|apply Forall_nil].
    + apply Forall_app. split.
      * apply (tame_all (Z.eqb 108)); [|exact We]. intros c E. apply Z.eqb_eq in E. subst c. apply T. cbn. tauto.
      * apply Forall_cons; [apply T; cbn in *; tauto|apply Forall_nil].
Qed.
Lemma tame_enc f : Forall tame f -> enc f = f.
Proof. intros H. apply enc_id. apply forallb_forall. intros c I. exact (proj2 (proj1 (Forall_forall _ _) H c I)). Qed.

Section Run.
Variable fmt_int : list Z -> option Z -> option Z -> Z -> Z -> list Z.
Variable env : nat -> arg.
Local Notation Q := (run (sh_step fmt_int) (fun s => s)).
Local Notation value := (value env).
Local Notation word_value := (word_value env).
Local Notation exec := (exec fmt_int env).
Local Notation exec_all := (exec_all fmt_int env).
(* the shell's printf on the piece [seg] of a format takes the arguments [a] and writes [o] *)
Definition writes (seg : list Z) (a : list arg) (o : list Z) : Prop :=
  forall f o0 extra, Q (enc seg ++ f) (o0, a ++ extra) = Q f (o0 ++ o, extra).
Lemma writes_nil : writes [] [] [].
Proof. intros f o0 extra. cbn. rewrite app_nil_r. reflexivity. Qed.
Lemma writes_app s1 a1 o1 s2 a2 o2 : writes s1 a1 o1 -> writes s2 a2 o2 -> writes (s1 ++ s2) (a1 ++ a2) (o1 ++ o2).
Proof. intros H1 H2 f o0 extra. rewrite enc_app, <- !app_assoc. rewrite H1, H2, <- app_assoc. reflexivity. Qed.
Lemma writes_txt c : 0 < c < 256 -> c <> 37 -> writes [c] [] [c].
Proof.
  intros H N f o0 extra. unfold enc. cbn [flat_map]. rewrite app_nil_r.
  assert (B : isbyte c) by (unfold isbyte; lia).
  set (P := fun c => if (c =? 0) || (c =? 37) then true else match one false c with
     | [a] => (a =? c) && negb (a =? 92)
     | [a; b] => (a =? 92) && negb (isoct b) && match sh_fmt [92; b] with Some [x] => x =? c | _ => false end
     | _ => false end).
  assert (HP : P c = true) by (apply bytes_forall; [vm_compute; reflexivity|assumption]). unfold P in HP.
  destruct (Z.eqb_spec c 0); [lia|]. destruct (Z.eqb_spec c 37); [congruence|]. cbn [orb] in HP.
  destruct (one false c) as [|a [|b [|? ?]]]; try discriminate.
  - apply andb_prop in HP. destruct HP as [E1 E2]. apply Z.eqb_eq in E1. subst a. apply negb_true_iff in E2.
    cbn [app]. apply (run_step (sh_step fmt_int) (fun s => s) (sh_shrink fmt_int)). unfold sh_step.
    replace (c =? 37) with false by (symmetry; apply Z.eqb_neq; assumption). rewrite E2. reflexivity.
  - apply andb_prop in HP. destruct HP as [HP E3]. apply andb_prop in HP. destruct HP as [E1 E2]. apply Z.eqb_eq in E1. subst a. apply negb_true_iff in E2.
    cbn [app]. apply (run_step (sh_step fmt_int) (fun s => s) (sh_shrink fmt_int)). unfold sh_step.
    change (92 =? 37) with false. change (92 =? 92) with true. cbv beta iota. rewrite E2.
    destruct (sh_fmt [92; b]) as [[|x [|? ?]]|]; try discriminate. apply Z.eqb_eq in E3. subst x. reflexivity.
Qed.
Lemma writes_pct : writes [37; 37] [] [37].
Proof. intros f o0 extra. change (enc [37; 37]) with [37; 37]. cbn [app]. apply (run_step (sh_step fmt_int) (fun s => s) (sh_shrink fmt_int)). reflexivity. Qed.
Lemma writes_dir d a o : wf_dir d -> (forall extra, sh_dir fmt_int d (a ++ extra) = Some (o, extra)) -> writes (show (Dir d)) a o.
Proof.
  intros W H f o0 extra. unfold show. change (37 :: show_dir d) with ([37] ++ show_dir d). rewrite enc_app. change (enc [37]) with [37].
  rewrite (tame_enc _ (tame_dir d W)), <- app_assoc. cbn [app]. apply (run_step (sh_step fmt_int) (fun s => s) (sh_shrink fmt_int)).
  unfold sh_step. change (37 =? 37) with true. cbv beta iota.
  assert (NP : exists c t, show_dir d ++ f = c :: t /\ c <> 37).
  { assert (F : Forall (fun c => c <> 37) (show_dir d)).
    { pose proof (conv_cases d W) as C. rewrite show_dir_eq. destruct W as [Wf [Ww [Wp [We _]]]].
      assert (LD : forall ds, lit_ok ds -> Forall (fun c => c <> 37) ds).
      { intros ds L. destruct (lit_isdig ds L) as [x [t [E [D [F A]]]]]. apply Forall_forall. intros c I ->. pose proof (proj1 (forallb_forall _ _) A 37 I). discriminate. }
      apply Forall_app. split; [apply Forall_forall; intros c I ->; pose proof (proj1 (forallb_forall _ _) Wf 37 I); discriminate|]. apply Forall_app. split.
      - destruct (width d) as [[ds|]|]; cbn [num_text show_num]; [apply LD; exact Ww|repeat constructor; discriminate|constructor].
      - apply Forall_app. split.
        + destruct (prec d) as [[[|x ds]|]|]; cbn [prec_text show_num];
            [apply Forall_cons; [discriminate|apply Forall_nil]|apply Forall_cons; [discriminate|exact (LD _ Wp)]
            |repeat (apply Forall_cons; [discriminate|]); apply Forall_nil|apply Forall_nil].
        + apply Forall_app. split; [apply Forall_forall; intros c I ->; pose proof (proj1 (forallb_forall _ _) We 37 I); discriminate|].
          apply Forall_cons; [|apply Forall_nil]. intros E. rewrite E in C. cbn in C. intuition discriminate. }
    destruct (show_dir d) as [|c t] eqn:E; [exfalso; rewrite show_dir_eq in E; destruct (flags d); [|discriminate]; destruct (num_text (width d)); [|discriminate]; destruct (prec_text (prec d)); [|discriminate]; destruct (ells d); discriminate|].
    exists c, (t ++ f). split; [reflexivity|]. inversion F; assumption. }
  destruct NP as [c [t [E N]]]. pose proof (dir_read d f W) as G. rewrite E in G |- *. rewrite G, H.
  destruct c as [|p|p]; try reflexivity. do 6 (destruct p as [p|p|]; try reflexivity). congruence.
Qed.
Lemma all_app {A} (a b : list (option A)) x y : all a = Some x -> all b = Some y -> all (a ++ b) = Some (x ++ y).
Proof.
  revert x. induction a as [|[v|] a IH]; cbn [all app]; intros x Ha Hb; [inversion Ha; exact Hb| |discriminate].
  destruct (all a) as [z|]; [|discriminate]. cbn in Ha. inversion Ha. rewrite (IH z eq_refl Hb). reflexivity.
Qed.
Lemma exec_all_app a b x y : exec_all a = Some x -> exec_all b = Some y -> exec_all (a ++ b) = Some (x ++ y).
Proof.
  unfold ShPrintf.exec_all. rewrite map_app. destruct (all (map exec a)) as [u|] eqn:Ea; [|discriminate]. destruct (all (map exec b)) as [v|] eqn:Eb; [|discriminate].
  rewrite (all_app _ _ _ _ Ea Eb). cbn. intros Ex Ey. inversion Ex. inversion Ey. rewrite concat_app. reflexivity.
Qed.
Lemma exec_one c o : exec c = Some o -> exec_all [c] = Some o.
Proof. intros E. unfold ShPrintf.exec_all. cbn [map all]. rewrite E. cbn. rewrite app_nil_r. reflexivity. Qed.
Lemma enc_head c t : 0 < c < 256 -> (List.hd 0 (enc (c :: t)) =? 45) = (c =? 45).
Proof.
  intros H. assert (B : isbyte c) by (unfold isbyte; lia).
  assert (P : match one false c with x :: _ => Bool.eqb (x =? 45) (c =? 45) | [] => false end = true).
  { apply (bytes_forall (fun c => match one false c with x :: _ => Bool.eqb (x =? 45) (c =? 45) | [] => false end)); [vm_compute; reflexivity|exact B]. }
  unfold enc. cbn [flat_map]. destruct (one false c) as [|x r]; [discriminate|]. cbn [app List.hd]. apply eqb_prop. exact P.
Qed.
Lemma exec_seg seg old cur oa ca o : Forall (fun c => 0 < c < 256) seg -> all (map word_value old) = Some oa -> all (map word_value cur) = Some ca ->
  old = [] \/ cur = [] -> writes seg ca o -> exec_all (printf_call seg (old ++ cur) false) = Some o.
Proof.
  intros B Ho Hc E W. destruct seg as [|c t].
  - specialize (W [] [] []). cbn in W. unfold run in W. cbn in W. inversion W as [[W1 W2]]. reflexivity.
  - cbn [printf_call]. apply exec_one. unfold ShPrintf.exec. fold (literal_text false (c :: t)).
    rewrite (dquote_text false (c :: t)) by (eapply Forall_impl; [|exact B]; unfold isbyte; intros; lia).
    fold (enc (c :: t)). rewrite map_app, (all_app _ _ _ _ Ho Hc). rewrite enc_head by (inversion B; assumption).
    replace (negb (c =? 45) && (c =? 45)) with false by (destruct (c =? 45); reflexivity).
    assert (P : forall extra, sh_pass fmt_int (enc (c :: t)) (ca ++ extra) = Some (o, extra)).
    { intros extra. unfold sh_pass. specialize (W [] [] extra). rewrite app_nil_r in W. rewrite W. reflexivity. }
    destruct E as [->| ->].
    + cbn in Ho. inversion Ho. subst oa. cbn [app]. specialize (P []). rewrite app_nil_r in P. cbn [sh_printf]. rewrite P. reflexivity.
    + cbn in Hc. inversion Hc. subst ca. rewrite app_nil_r. specialize (P oa). cbn [app] in P. cbn [sh_printf]. rewrite P.
      destruct oa; [reflexivity|]. rewrite Nat.eqb_refl. reflexivity.
Qed.
(* taking the arguments of a conversion *)
Lemma num_split n pars w a : c_num n (map value pars) = Some (w, a) ->
  exists sw rest, pars = sw ++ rest /\ a = map value rest /\ length sw = is_star n /\
    (forall x, sh_num n (map value sw ++ x) = Some (w, x)) /\ all (map word_value (map WRef sw)) = Some (map value sw).
Proof.
  destruct n as [[ds|]|]; cbn [c_num is_star sh_num].
  - intros E. inversion E. exists [], pars. repeat split.
  - destruct pars as [|p pars]; [discriminate|]. cbn [map]. destruct (value p) as [v|] eqn:V; [|discriminate]. intros E. inversion E. subst.
    exists [p], pars. repeat split.
    + intros x. cbn [map app]. rewrite V. reflexivity.
    + cbn [map all ShPrintf.word_value]. rewrite V. reflexivity.
  - intros E. inversion E. exists [], pars. repeat split.
Qed.
Lemma dir_split d pars o a : c_dir fmt_int d (map value pars) = Some (o, a) ->
  exists sw sq p rest w q, pars = sw ++ sq ++ p :: rest /\ a = map value rest /\ length sw = is_star (width d) /\ length sq = is_star (prec d) /\
    (forall x, sh_num (width d) (map value sw ++ x) = Some (w, x)) /\ (forall x, sh_num (prec d) (map value sq ++ x) = Some (q, x)) /\
    all (map word_value (map WRef sw)) = Some (map value sw) /\ all (map word_value (map WRef sq)) = Some (map value sq) /\
    (width d = None -> w = None) /\ (prec d = None -> q = None) /\
    match value p with
    | VInt v => if isint (conv d) then o = fmt_int (flags d) w q (conv d) (c_value d v) else conv d = 99 /\ o = fmt_str (flags d) w None [v mod 256]
    | VStr s => conv d = 115 /\ o = fmt_str (flags d) w q s
    end.
Proof.
  unfold c_dir. destruct (c_num (width d) (map value pars)) as [[w a1]|] eqn:E1; [|discriminate].
  destruct (num_split _ _ _ _ E1) as [sw [r1 [P1 [A1 [L1 [S1 W1]]]]]]. subst a1.
  destruct (c_num (prec d) (map value r1)) as [[q a2]|] eqn:E2; [|discriminate].
  destruct (num_split _ _ _ _ E2) as [sq [r2 [P2 [A2 [L2 [S2 W2]]]]]]. subst a2.
  destruct r2 as [|p rest]; [discriminate|]. cbn [map]. intros H. exists sw, sq, p, rest, w, q. subst pars r1.
  split; [reflexivity|].
  assert (N1 : width d = None -> w = None) by (intros N; rewrite N in E1; cbn in E1; congruence).
  assert (N2 : prec d = None -> q = None) by (intros N; rewrite N in E2; cbn in E2; congruence).
  destruct (value p) as [v|s].
  - destruct (isint (conv d)); [inversion H; subst; auto 20|]. destruct (Z.eqb_spec (conv d) 99); [inversion H; subst; auto 20|discriminate].
  - destruct (Z.eqb_spec (conv d) 115); [inversion H; subst; auto 20|discriminate].
Qed.
Lemma strip_id s : last s 0 <> 10 -> strip_nl s = s.
Proof.
  intros H. unfold strip_nl. destruct (rev s) as [|c t] eqn:E.
  - apply (f_equal (@rev Z)) in E. rewrite rev_involutive in E. symmetry. exact E.
  - apply (f_equal (@rev Z)) in E. rewrite rev_involutive in E. cbn [rev] in E. subst s. rewrite last_last in H.
    replace ((fix drop l := match l with 10 :: t => drop t | _ => l end) (c :: t)) with (c :: t); [cbn; reflexivity|].
    destruct c as [|p|p]; try reflexivity. do 4 (destruct p as [p|p|]; try reflexivity). congruence.
Qed.
Lemma put_pstr_bytes s : Forall (fun c => 0 < c < 256) s -> all (map (fun c => sh_fmt (octal_word c)) s) = Some (map (fun c => [c]) s).
Proof.
  induction 1 as [|c s H _ IH]; [reflexivity|]. cbn [map all]. rewrite c25_octal by (unfold isbyte; lia). rewrite IH. reflexivity.
Qed.
Lemma concat_singles (s : list Z) : concat (map (fun c => [c]) s) = s.
Proof. induction s as [|c s IH]; [reflexivity|]. cbn. rewrite IH. reflexivity. Qed.
Lemma good_at d v sw sq p rest : length sw = is_star (width d) -> length sq = is_star (prec d) ->
  (forall v, nth_error (map value (sw ++ sq ++ p :: rest)) (stars d) = Some v -> good1 d v) -> value p = v -> good1 d v.
Proof.
  intros L1 L2 H V. apply H. rewrite nth_error_map. unfold stars.
  rewrite app_assoc, nth_error_app2; rewrite app_length, L1, L2; [|lia]. rewrite Nat.sub_diag. cbn. rewrite V. reflexivity.
Qed.
Lemma good_rest d sw sq (p : par) rest : length sw = is_star (width d) -> length sq = is_star (prec d) ->
  skipn (S (stars d)) (map value (sw ++ sq ++ p :: rest)) = map value rest.
Proof.
  intros L1 L2. unfold stars. change (p :: rest) with ([p] ++ rest). rewrite !app_assoc, map_app.
  rewrite skipn_app. rewrite map_length, !app_length, L1, L2. cbn [List.length].
  rewrite skipn_all2 by (rewrite map_length, !app_length, L1, L2; cbn; lia).
  replace (S (is_star (width d) + is_star (prec d)) - (is_star (width d) + is_star (prec d) + 1))%nat with 0%nat by lia. reflexivity.
Qed.
Lemma main : forall ps pars seg old cur oa ca o out o1 oc seen stale,
  Forall wf ps -> c_printf fmt_int ps (map value pars) = Some oc -> good ps (map value pars) -> no_stale ps seen stale = true ->
  exec_all out = Some o1 -> Forall (fun c => 0 < c < 256) seg -> all (map word_value old) = Some oa -> all (map word_value cur) = Some ca ->
  old = [] \/ cur = [] -> writes seg ca o -> (old <> [] -> stale = true) -> (cur <> [] -> seen = true) ->
  exists cmds, R (format ps) (cs seg (old ++ cur) pars out) = Some cmds /\ exec_all cmds = Some (o1 ++ o ++ oc).
Proof.
  induction ps as [|pc ps IH]; intros pars seg old cur oa ca o out o1 oc seen stale HW HC HG HS HO HB HA HU HE WR S1 S2.
  - cbn in HC. inversion HC. subst oc. exists (out ++ printf_call seg (old ++ cur) false). split; [reflexivity|].
    rewrite app_nil_r. apply exec_all_app; [exact HO|]. exact (exec_seg _ _ _ _ _ _ HB HA HU HE WR).
  - inversion HW as [|? ? W1 W2]; subst. unfold format. cbn [flat_map]. fold (format ps). destruct pc as [c| |d].
    + destruct W1 as [C1 C2]. cbn [show app c_printf good no_stale] in *. destruct (c_printf fmt_int ps (map value pars)) as [oc'|] eqn:HC'; [|discriminate].
      inversion HC. subst oc. rewrite r_txt by exact C2.
      destruct (IH pars (seg ++ [c]) old cur oa ca (o ++ [c]) out o1 oc' seen stale W2 HC' HG HS HO) as [cmds [E1 E2]]; auto.
      * apply Forall_app. auto.
      * rewrite <- (app_nil_r ca). apply writes_app; [exact WR|apply writes_txt; assumption].
      * exists cmds. split; [exact E1|]. rewrite E2, <- app_assoc. reflexivity.
    + cbn [show app c_printf good no_stale] in *. destruct (c_printf fmt_int ps (map value pars)) as [oc'|] eqn:HC'; [|discriminate].
      inversion HC. subst oc. rewrite r_pp.
      destruct (IH pars (seg ++ [37; 37]) old cur oa ca (o ++ [37]) out o1 oc' seen stale W2 HC' HG HS HO) as [cmds [E1 E2]]; auto.
      * apply Forall_app. split; [exact HB|]. repeat constructor; lia.
      * rewrite <- (app_nil_r ca). apply writes_app; [exact WR|apply writes_pct].
      * exists cmds. split; [exact E1|]. rewrite E2, <- app_assoc. reflexivity.
    + cbn [c_printf good no_stale wf] in HC, HG, HS, W1. destruct (c_dir fmt_int d (map value pars)) as [[od a]|] eqn:HD; [|discriminate].
      destruct (dir_split _ _ _ _ HD) as (sw & sq & p & rest & w & q & EP & EA & L1 & L2 & N1 & N2 & WW & WQ & NW & NQ & HV). subst a pars.
      destruct (c_printf fmt_int ps (map value rest)) as [oc'|] eqn:HC'; [|discriminate]. cbn in HC. inversion HC. subst oc. clear HC HD.
      destruct HG as [HG1 HG2]. rewrite (good_rest d sw sq p rest L1 L2) in HG2.
      assert (BD : Forall (fun c => 0 < c < 256) (show (Dir d))).
      { cbn [show]. constructor; [lia|]. eapply Forall_impl; [|exact (tame_dir d W1)]. intros c [T _]. exact T. }
      destruct (kept d) eqn:K.
      * (* kept in the argument list *)
        apply andb_prop in HS. destruct HS as [HS1 HS2]. apply negb_true_iff in HS1.
        assert (old = []) by (destruct old; [reflexivity|]; rewrite S1 in HS1 by discriminate; discriminate). subst old. cbn [app] in *.
        assert (X : exists wd, (forall f, R (show (Dir d) ++ f) (cs seg cur (sw ++ sq ++ p :: rest) out) =
                    R f (cs (seg ++ show (Dir d)) (cur ++ map WRef sw ++ map WRef sq ++ [wd]) rest out)) /\
                    exists v, word_value wd = Some v /\ (forall extra, sh_dir fmt_int d (map value sw ++ map value sq ++ v :: extra) = Some (od, extra))).
        { unfold kept in K. apply andb_prop in K. destruct K as [K1 K2]. apply negb_true_iff in K1, K2. apply Z.eqb_neq in K1.
          destruct (value p) as [v|s] eqn:V.
          - destruct (isint (conv d)) eqn:CI; [|destruct HV; congruence]. exists (WRef p). split; [intros f; apply r_int; assumption|].
            exists (VInt v). split; [cbn; rewrite V; reflexivity|]. intros extra. unfold sh_dir. rewrite N1, N2, CI. subst od.
            do 3 f_equal. pose proof (good_at d (VInt v) sw sq p rest L1 L2 HG1 V) as G. cbn [good1] in G. unfold c_value.
            replace (conv d =? 99) with false in G by (symmetry; apply Z.eqb_neq; exact K1).
            destruct ((conv d =? 100) || (conv d =? 105)) eqn:CD; [reflexivity|]. apply orb_false_iff in CD. destruct CD as [CD1 CD2]. apply Z.eqb_neq in CD1, CD2.
            destruct G as [G|[G|[G|G]]]; [congruence|congruence| |].
            + destruct (ells d); [congruence|]. reflexivity.
            + destruct (length (ells d) =? 0)%nat; [|reflexivity]. rewrite !Z.mod_small; [reflexivity|lia|]. split; [lia|]. apply Z.lt_trans with (2 ^ 32); [lia|reflexivity].
          - destruct HV as [C ->]. exists (WSub p). split; [intros f; apply r_s; assumption|].
            pose proof (good_at d (VStr s) sw sq p rest L1 L2 HG1 V) as [G1 G2]. specialize (G2 K2).
            exists (VStr s). split; [cbn; rewrite V, (strip_id s G2); reflexivity|]. intros extra. unfold sh_dir. rewrite N1, N2, C. reflexivity. }
        destruct X as [wd [XR [v [XV XD]]]]. rewrite XR.
        assert (AW : all (map word_value (map WRef sw ++ map WRef sq ++ [wd])) = Some (map value sw ++ map value sq ++ [v])).
        { rewrite !map_app. apply all_app; [exact WW|]. apply all_app; [exact WQ|]. cbn [map all]. rewrite XV. reflexivity. }
        destruct (IH rest (seg ++ show (Dir d)) [] (cur ++ map WRef sw ++ map WRef sq ++ [wd]) oa (ca ++ map value sw ++ map value sq ++ [v]) (o ++ od) out o1 oc' true stale W2 HC' HG2 HS2 HO) as [cmds [E1 E2]]; auto.
        -- apply Forall_app. split; [exact HB|exact BD].
        -- rewrite map_app. apply all_app; [exact HU|exact AW].
        -- apply writes_app; [exact WR|]. apply writes_dir; [exact W1|]. intros extra. rewrite <- !app_assoc. exact (XD extra).
        -- exists cmds. split; [exact E1|]. rewrite E2, <- app_assoc. reflexivity.
      * destruct (plain_s d) eqn:PS.
        -- (* plain %s *)
           pose proof PS as PS'. unfold plain_s in PS'. apply andb_prop in PS'. destruct PS' as [C PS']. apply Z.eqb_eq in C.
           destruct (width d) eqn:Ew; [discriminate|]. destruct (prec d) eqn:Ep; [discriminate|]. cbn in L1, L2.
           destruct sw; [|discriminate]. destruct sq; [|discriminate]. cbn [app] in *.
           destruct (value p) as [v|s] eqn:V; [rewrite C in HV; destruct HV; discriminate|]. destruct HV as [_ ->].
           rewrite (NW eq_refl), (NQ eq_refl). cbn [fmt_str].
           assert (G : good1 d (VStr s)).
           { apply (good_at d (VStr s) [] [] p rest); [rewrite Ew; reflexivity|rewrite Ep; reflexivity|exact HG1|exact V]. }
           destruct G as [G1 _]. rewrite (r_plain d _ _ _ _ _ _ W1 PS).
           destruct (IH rest [] (old ++ cur) [] (oa ++ ca) [] [] (out ++ printf_call seg (old ++ cur) false ++ [Cpstr p]) (o1 ++ o ++ s) oc' false (stale || seen) W2 HC' HG2 HS) as [cmds [E1 E2]]; auto.
           ++ apply exec_all_app; [exact HO|]. apply exec_all_app; [exact (exec_seg _ _ _ _ _ _ HB HA HU HE WR)|]. apply exec_one. cbn [ShPrintf.exec]. rewrite V.
              rewrite (put_pstr_bytes s G1). cbn [option_map]. rewrite concat_singles. reflexivity.
           ++ rewrite map_app. apply all_app; assumption.
           ++ exact writes_nil.
           ++ intros N. destruct old; [destruct cur; [exfalso; apply N; reflexivity|rewrite S2 by discriminate; apply orb_true_r]|rewrite S1 by discriminate; reflexivity].
           ++ rewrite app_nil_r in E1. exists cmds. split; [exact E1|]. rewrite E2. cbn [app]. rewrite <- !app_assoc. reflexivity.
        -- (* %c *)
           unfold kept in K. rewrite PS in K. cbn in K. rewrite andb_true_r in K. apply negb_false_iff in K. apply Z.eqb_eq in K.
           destruct W1 as [A1 [A2 [A3 [A4 A5]]]]. assert (EW : width d = None) by (destruct A5 as [H|[[H _]|[_ [_ H]]]]; [rewrite K in H; discriminate|rewrite K in H; discriminate|exact H]).
           rewrite EW in L1. cbn in L1. destruct sw; [|discriminate]. cbn [app] in *.
           destruct (value p) as [v|s] eqn:V; [|destruct HV as [HV _]; rewrite K in HV; discriminate]. rewrite K in HV. cbn in HV. destruct HV as [_ ->].
           rewrite (NW EW). cbn [fmt_str].
           pose proof (good_at d (VInt v) [] sq p rest) as G. rewrite EW in G. specialize (G eq_refl L2 HG1 V). cbn [good1] in G. rewrite K in G. cbn in G.
           rewrite Z.mod_small by exact G.
           rewrite (r_c d); [|repeat split; assumption|exact K|exact L2].
           destruct (IH rest [] [] [] [] [] [] (out ++ printf_call seg (old ++ cur) false ++ [comp_putchar_inline p]) (o1 ++ o ++ [v]) oc' false false W2 HC' HG2 HS) as [cmds [E1 E2]]; auto.
           ++ apply exec_all_app; [exact HO|]. apply exec_all_app; [exact (exec_seg _ _ _ _ _ _ HB HA HU HE WR)|]. apply exec_one.
              assert (OC : exec (Coct p) = Some [v]) by (cbn [ShPrintf.exec]; rewrite V; apply c25_octal; exact G).
              unfold comp_putchar_inline. destruct p as [c|k]; [|exact OC]. cbn in V. inversion V. subst c.
              destruct (putchar_literal v) as [t|] eqn:PL; [|exact OC]. destruct (c25_constant v t PL) as [wd [D1 D2]]. cbn [ShPrintf.exec]. rewrite D1. exact D2.
           ++ exact writes_nil.
           ++ exists cmds. split; [exact E1|]. rewrite E2. cbn [app]. rewrite <- !app_assoc. reflexivity.
Qed.
End Run.

(** ** The theorems *)
(* [printf("...", params)] with the conversions of C's printf in a format the compiler supports: the commands generated write what
   C's printf writes.  [fmt_int], how an integer is written in a field, is any function shared by C and the shell's printf. *)
Theorem c47_printf : forall fmt_int env ps params o, params <> [] -> Forall wf ps ->
  c_printf fmt_int ps (map (value env) params) = Some o ->
  good ps (map (value env) params) -> no_stale ps false false = true ->
  exists cmds, comp_printf (format ps) params = Some cmds /\ exec_all fmt_int env cmds = Some o.
Proof.
  intros fmt_int env ps params o N W C G S.
  destruct (main fmt_int env ps params [] [] [] [] [] [] [] [] o false false W C G S eq_refl) as [cmds [E1 E2]]; auto.
  - apply writes_nil.
  - exists cmds. split; [|exact E2]. destruct params; [congruence|]. exact E1.
Qed.
(* printf("..."), puts("..."), putstr("..."): the string is written as it is *)
Lemma single_writes fmt_int s : Forall (fun c => 0 < c < 256) s -> forall f o0 a,
  run (sh_step fmt_int) (fun x => x) (flat_map (one true) s ++ f) (o0, a) = run (sh_step fmt_int) (fun x => x) f (o0 ++ s, a).
Proof.
  induction 1 as [|c s H _ IH]; intros f o0 a; [rewrite app_nil_r; reflexivity|]. cbn [flat_map]. rewrite <- app_assoc.
  replace (o0 ++ c :: s) with ((o0 ++ [c]) ++ s) by (rewrite <- app_assoc; reflexivity).
  rewrite <- IH. destruct (Z.eq_dec c 37) as [->|N].
  - change (one true 37) with [37; 37]. cbn [app]. apply (run_step (sh_step fmt_int) (fun s => s) (sh_shrink fmt_int)). reflexivity.
  - pose proof (writes_txt fmt_int c H N (flat_map (one true) s ++ f) o0 a) as W. unfold enc in W. cbn [flat_map] in W. rewrite app_nil_r in W. cbn [app] in W.
    assert (E : one true c = one false c).
    { assert (B : isbyte c) by (unfold isbyte; lia).
      assert (P : (if c =? 37 then true else if list_eq_dec Z.eq_dec (one true c) (one false c) then true else false) = true).
      { apply (bytes_forall (fun c => if c =? 37 then true else if list_eq_dec Z.eq_dec (one true c) (one false c) then true else false)); [vm_compute; reflexivity|exact B]. }
      destruct (Z.eqb_spec c 37); [congruence|]. destruct (list_eq_dec Z.eq_dec (one true c) (one false c)); [assumption|discriminate]. }
    rewrite E. exact W.
Qed.
Theorem c47_single : forall fmt_int env s, Forall (fun c => 0 < c < 256) s ->
  exists cmds, comp_printf s [] = Some cmds /\ comp_puts s = cmds /\ exec_all fmt_int env cmds = Some s.
Proof.
  intros fmt_int env s H. eexists. split; [reflexivity|]. split; [reflexivity|]. destruct s as [|c t]; [reflexivity|].
  apply exec_one. unfold exec. fold (literal_text true (c :: t)). rewrite (dquote_text true (c :: t)) by (eapply Forall_impl; [|exact H]; unfold isbyte; intros; lia).
  cbn [map all].
  assert (HD : (List.hd 0 (flat_map (one true) (c :: t)) =? 45) = (c =? 45)).
  { assert (B : isbyte c) by (inversion H; subst; unfold isbyte; lia).
    assert (P : match one true c with x :: _ => Bool.eqb (x =? 45) (c =? 45) | [] => false end = true).
    { apply (bytes_forall (fun c => match one true c with x :: _ => Bool.eqb (x =? 45) (c =? 45) | [] => false end)); [vm_compute; reflexivity|exact B]. }
    cbn [flat_map]. destruct (one true c) as [|x r]; [discriminate|]. cbn [app List.hd]. apply eqb_prop. exact P. }
  rewrite HD. replace (negb (c =? 45) && (c =? 45)) with false by (destruct (c =? 45); reflexivity).
  cbn [List.length sh_printf]. unfold sh_pass. pose proof (single_writes fmt_int (c :: t) H [] [] []) as W. rewrite app_nil_r in W. rewrite W. reflexivity.
Qed.
(* so without parameters printf is right when the format has no conversions and no %% *)
Theorem c47_no_params : forall fmt_int env ps, Forall wf ps -> Forall (fun p => match p with Txt _ => True | _ => False end) ps ->
  exists cmds, comp_printf (format ps) [] = Some cmds /\ exec_all fmt_int env cmds = c_printf fmt_int ps [].
Proof.
  intros fmt_int env ps W T.
  assert (B : Forall (fun c => 0 < c < 256) (format ps)).
  { induction W as [|p ps H _ IH]; [constructor|]. inversion T; subst. destruct p; try contradiction. destruct H. constructor; [assumption|]. apply IH. assumption. }
  destruct (c47_single fmt_int env (format ps) B) as [cmds [E1 [_ E2]]]. exists cmds. split; [exact E1|]. rewrite E2. symmetry. clear -T.
  induction T as [|p ps H _ IH]; [reflexivity|]. destruct p; try contradiction. cbn [c_printf]. rewrite IH. reflexivity.
Qed.

(** ** Cases that meet the hypotheses, and cases outside them *)
Definition fi : list Z -> option Z -> option Z -> Z -> Z -> list Z := fun fl w p _ v => fmt_str fl w None (dec v).
Definition simple (c : Z) : dir := {| flags := []; width := None; prec := None; ells := []; conv := c |}.
Definition chars (l : list Z) : list piece := map Txt l.
Ltac wfp := first [exact I | solve [split; [lia|discriminate]] |
  solve [split; [reflexivity|split; [first [exact I|split; [lia|reflexivity]]|split; [first [exact I|split; [lia|reflexivity]]|split; [reflexivity|
    first [left; reflexivity|right; left; repeat split; discriminate|right; right; repeat split]]]]]]].
(* printf("[%-*.3ld] %s, %c%% \"%5s\"\n", 4, n, s, 'x', t) *)
Definition ps1 : list piece := [Txt 91; Dir {| flags := [45]; width := Some Star; prec := Some (Lit [51]); ells := [108]; conv := 100 |}; Txt 93; Txt 32;
  Dir (simple 115); Txt 44; Txt 32; Dir (simple 99); Pct; Txt 32; Txt 34;
  Dir {| flags := []; width := Some (Lit [53]); prec := None; ells := []; conv := 115 |}; Txt 34; Txt 10].
Definition env1 (k : nat) : arg := match k with 0%nat => VInt 4 | 1%nat => VInt (-7) | 2%nat => VStr [104; 105; 10] | _ => VStr [36; 97] end.
Definition params1 : list par := [ParExp 0; ParExp 1; ParExp 2; ParChar 120; ParExp 3].
Theorem c47_instance : Forall wf ps1 /\ good ps1 (map (value env1) params1) /\ no_stale ps1 false false = true /\
  c_printf fi ps1 (map (value env1) params1) = Some [91; 45; 55; 32; 32; 93; 32; 104; 105; 10; 44; 32; 120; 37; 32; 34; 32; 32; 32; 36; 97; 34; 10] /\
  exists cmds, comp_printf (format ps1) params1 = Some cmds /\ length cmds = 5%nat /\
    exec_all fi env1 cmds = c_printf fi ps1 (map (value env1) params1).
Proof.
  split. { repeat (apply Forall_cons; [wfp|]). apply Forall_nil. }
  split. { cbn. repeat split; try lia; intros v E; inversion E; subst; cbn; repeat constructor; try lia; discriminate. }
  split; [reflexivity|]. split; [vm_compute; reflexivity|]. eexists. split; [vm_compute; reflexivity|]. split; reflexivity.
Qed.
Definition shell_writes (ps : list piece) (env : nat -> arg) (params : list par) (o : list Z) : Prop :=
  exists cmds, comp_printf (format ps) params = Some cmds /\ exec_all fi env cmds = Some o.
(* printf("%d%s%d\n", 1, "a", 2) writes 1a1 and 2 on two lines: the parameters before %s are passed again *)
Definition ps2 : list piece := [Dir (simple 100); Dir (simple 115); Dir (simple 100); Txt 10].
Definition env2 (k : nat) : arg := match k with 0%nat => VInt 1 | 1%nat => VStr [97] | _ => VInt 2 end.
Theorem c47_stale_refuted : Forall wf ps2 /\ good ps2 (map (value env2) [ParExp 0; ParExp 1; ParExp 2]) /\
  c_printf fi ps2 (map (value env2) [ParExp 0; ParExp 1; ParExp 2]) = Some [49; 97; 50; 10] /\
  shell_writes ps2 env2 [ParExp 0; ParExp 1; ParExp 2] [49; 97; 49; 10; 50; 10].
Proof.
  split. { repeat (apply Forall_cons; [wfp|]). apply Forall_nil. }
  split. { cbn. repeat split; intros v E; inversion E; subst; cbn; auto. split; [repeat constructor; lia|discriminate]. }
  split; [reflexivity|]. eexists. split; [reflexivity|]. vm_compute. reflexivity.
Qed.
(* printf("%.s", "abc") writes abc *)
Theorem c47_empty_precision_refuted :
  let ps := [Dir {| flags := []; width := None; prec := Some (Lit []); ells := []; conv := 115 |}] in let env := fun _ => VStr [97; 98; 99] in
  c_printf fi ps (map (value env) [ParExp 0]) = Some [] /\ shell_writes ps env [ParExp 0] [97; 98; 99].
Proof. split; [reflexivity|]. eexists. split; [reflexivity|]. vm_compute. reflexivity. Qed.
(* printf("%4s", "ab\n") loses the newline *)
Theorem c47_newline_refuted :
  let ps := [Dir {| flags := []; width := Some (Lit [52]); prec := None; ells := []; conv := 115 |}] in let env := fun _ => VStr [97; 98; 10] in
  c_printf fi ps (map (value env) [ParExp 0]) = Some [32; 97; 98; 10] /\ shell_writes ps env [ParExp 0] [32; 32; 97; 98].
Proof. split; [reflexivity|]. eexists. split; [reflexivity|]. vm_compute. reflexivity. Qed.
(* printf("%u", -1) writes 2^64-1 *)
Theorem c47_unsigned_refuted :
  c_printf fi [Dir (simple 117)] (map (value (fun _ => VInt (-1))) [ParExp 0]) = Some (dec (2 ^ 32 - 1)) /\
  shell_writes [Dir (simple 117)] (fun _ => VInt (-1)) [ParExp 0] (dec (2 ^ 64 - 1)).
Proof. split; [reflexivity|]. eexists. split; [reflexivity|]. vm_compute. reflexivity. Qed.
(* printf("100%%\n") writes both % *)
Theorem c47_percent_refuted : c_printf fi (chars [49; 48; 48] ++ [Pct; Txt 10]) [] = Some [49; 48; 48; 37; 10] /\
  shell_writes (chars [49; 48; 48] ++ [Pct; Txt 10]) (fun _ => VInt 0) [] [49; 48; 48; 37; 37; 10].
Proof. split; [reflexivity|]. eexists. split; [reflexivity|]. vm_compute. reflexivity. Qed.
(* printf("%.0d", n) is rejected *)
Theorem c47_zero_precision_refuted : forall p,
  comp_printf (format [Dir {| flags := []; width := None; prec := Some (Lit [48]); ells := []; conv := 100 |}]) [p] = None.
Proof. reflexivity. Qed.
(* puts("hi") does not write the newline that C's puts adds *)
Theorem c47_puts_refuted : exec_all fi (fun _ => VInt 0) (comp_puts [104; 105]) = Some [104; 105].
Proof. vm_compute. reflexivity. Qed.

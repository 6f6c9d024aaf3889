(** * Machine arithmetic against C arithmetic (C34) *)
From Coq Require Import ZArith List Lia Bool Znumtheory.
From Verif Require Import Base X86 X86Proof X86Sem NMach NPtr CLang NGen NSupp.
Import ListNotations.
Open Scope Z_scope.

(** The word a machine binary operation leaves, from the words of the operands and the types pnut has for them. *)
Lemma Some_inj {A} (a b : A) : Some a = Some b -> a = b. Proof. congruence. Qed.
Section B.
Variable W : Z.
Notation MOD := (MOD W).
Notation HALF := (HALF W).
Notation sgn := (sgn W).
Definition okscale (w : Z) : bool := (1 <=? w) && (w <? 2 ^ 31).
Definition scaled (t : ty) (f : Z -> Z) : option Z :=
  match ref_type_width W t with Some w => if okscale w then Some (f w) else None | None => None end.
Definition mb (o : bop) (t1 t2 : ty) (x y : Z) : option Z :=
  let sg := is_sgn t1 && is_sgn t2 in
  if is_cmp o then match ccsem W (cond_of o sg) x y with Some b => Some (b2i b) | None => None end
  else match o with
  | Add => if is_ptr t1 && negb (is_ptr t2) then scaled t1 (fun w => (x + (y * w) mod MOD) mod MOD)
           else if is_ptr t2 && negb (is_ptr t1) then scaled t2 (fun w => ((x * w) mod MOD + y) mod MOD)
           else Some ((x + y) mod MOD)
  | Sub => if is_ptr t1 && is_ptr t2 then
             scaled t1 (fun w => if is_power_of_2 w then (sgn ((x - y) mod MOD) / w) mod MOD else (x - y) mod MOD / w)
           else if is_ptr t1 then scaled t1 (fun w => (x - (y * w) mod MOD) mod MOD)
           else if is_ptr t2 then scaled t2 (fun w => ((x * w) mod MOD - y) mod MOD)
           else Some ((x - y) mod MOD)
  | Mul => Some ((x * y) mod MOD)
  | Div => if sg then let q := Z.quot (sgn x) (sgn y) in
                      if negb (sgn y =? 0) && (- HALF <=? q) && (q <? HALF) then Some (q mod MOD) else None
           else if y =? 0 then None else Some (x / y)
  | Rem => if sg then let q := Z.quot (sgn x) (sgn y) in
                      if negb (sgn y =? 0) && (- HALF <=? q) && (q <? HALF) then Some (Z.rem (sgn x) (sgn y) mod MOD) else None
           else if y =? 0 then None else Some (x mod y)
  | And => Some (Z.land x y) | Or => Some (Z.lor x y) | Xor => Some (Z.lxor x y)
  | Shl => Some ((x * 2 ^ (y mod shift_count W)) mod MOD)
  | Shr => Some (if sg then (sgn x / 2 ^ (y mod shift_count W)) mod MOD else x / 2 ^ (y mod shift_count W))
  | _ => None
  end.

Definition eqm (k a b : Z) : Prop := a mod 2 ^ (8 * k) = b mod 2 ^ (8 * k).
Definition rep (m : mode) (w v : Z) : Prop :=
  match m with Mod k => eqm k w v | Truth => w = 0 <-> v = 0 end.

Hypothesis HW : W = 4 \/ W = 8.
Lemma pk k : 0 <= k -> 0 < 2 ^ (8 * k).
Proof. intros. apply Z.pow_pos_nonneg; lia. Qed.
Lemma eqm_mod k n a : 0 <= k <= n -> eqm k (a mod 2 ^ (8 * n)) a.
Proof.
  intros H. unfold eqm. symmetry. apply Zmod_div_mod; try (apply pk; lia).
  exists (2 ^ (8 * n - 8 * k)). rewrite <- Z.pow_add_r by lia. f_equal. lia.
Qed.
Lemma eqm_MOD k a : 0 <= k <= W -> eqm k (a mod MOD) a.
Proof. apply eqm_mod. Qed.
Lemma eqm_refl k a : eqm k a a. Proof. reflexivity. Qed.
Lemma eqm_sym k a b : eqm k a b -> eqm k b a. Proof. unfold eqm. auto. Qed.
Lemma eqm_trans k a b c : eqm k a b -> eqm k b c -> eqm k a c. Proof. unfold eqm. congruence. Qed.
Lemma eqm_add k a b c d : eqm k a b -> eqm k c d -> eqm k (a + c) (b + d).
Proof. unfold eqm. intros H1 H2. rewrite Zplus_mod, H1, H2, <- Zplus_mod. reflexivity. Qed.
Lemma eqm_sub k a b c d : eqm k a b -> eqm k c d -> eqm k (a - c) (b - d).
Proof. unfold eqm. intros H1 H2. rewrite Zminus_mod, H1, H2, <- Zminus_mod. reflexivity. Qed.
Lemma eqm_mul k a b c d : eqm k a b -> eqm k c d -> eqm k (a * c) (b * d).
Proof. unfold eqm. intros H1 H2. rewrite Zmult_mod, H1, H2, <- Zmult_mod. reflexivity. Qed.
Lemma eqm_bits k a b : 0 <= k -> eqm k a b <-> (forall i, 0 <= i < 8 * k -> Z.testbit a i = Z.testbit b i).
Proof.
  intros Hk. unfold eqm. rewrite <- !Z.land_ones by lia. split.
  - intros H i Hi. assert (E : Z.testbit (Z.land a (Z.ones (8 * k))) i = Z.testbit (Z.land b (Z.ones (8 * k))) i) by now rewrite H.
    rewrite !Z.land_spec, Z.ones_spec_low in E by lia. now rewrite !andb_true_r in E.
  - intros H. apply Z.bits_inj'. intros i Hi. rewrite !Z.land_spec. destruct (Z.lt_ge_cases i (8 * k)).
    + now rewrite H by lia.
    + rewrite Z.ones_spec_high by lia. now rewrite !andb_false_r.
Qed.
Lemma eqm_land k a b c d : 0 <= k -> eqm k a b -> eqm k c d -> eqm k (Z.land a c) (Z.land b d).
Proof. intros Hk. rewrite !eqm_bits by assumption. intros H1 H2 i Hi. now rewrite !Z.land_spec, H1, H2. Qed.
Lemma eqm_lor k a b c d : 0 <= k -> eqm k a b -> eqm k c d -> eqm k (Z.lor a c) (Z.lor b d).
Proof. intros Hk. rewrite !eqm_bits by assumption. intros H1 H2 i Hi. now rewrite !Z.lor_spec, H1, H2. Qed.
Lemma eqm_lxor k a b c d : 0 <= k -> eqm k a b -> eqm k c d -> eqm k (Z.lxor a c) (Z.lxor b d).
Proof. intros Hk. rewrite !eqm_bits by assumption. intros H1 H2 i Hi. now rewrite !Z.lxor_spec, H1, H2. Qed.
Lemma eqm_le k n a b : 0 <= k <= n -> eqm n a b -> eqm k a b.
Proof. intros H E. eapply eqm_trans; [apply eqm_sym, (eqm_mod k n); lia|]. unfold eqm in *. rewrite E. apply eqm_mod. lia. Qed.
(** A whole word is determined. *)
Lemma rep_word w v : 0 <= w < MOD -> rep (Mod W) w v -> w = v mod MOD.
Proof. intros H E. cbn in E. unfold eqm in E. fold MOD in E. rewrite Z.mod_small in E by lia. exact E. Qed.
Lemma rep_exact k v : 0 <= k <= W -> rep (Mod k) (v mod MOD) v.
Proof. intros. cbn. now apply eqm_MOD. Qed.

Definition isz (n : Z) : Prop := n = 1 \/ n = 2 \/ n = 4 \/ n = 8 /\ W = 8.
Lemma wf_int n s : wfty W (TInt n s) = true -> isz n.
Proof.
  cbn [wfty]. intros H. repeat rewrite orb_true_iff in H. rewrite andb_true_iff in H. repeat rewrite Z.eqb_eq in H.
  unfold isz. tauto.
Qed.
Lemma isz_pos n : isz n -> 1 <= n <= W.
Proof. unfold isz. destruct HW; lia. Qed.
Lemma HALFW : HALF = 2 ^ (8 * W - 1). Proof. reflexivity. Qed.

(** Case analysis on sizes. *)
Ltac szs := repeat match goal with H : isz _ |- _ => unfold isz in H end.

Lemma conv_id t v : (forall n s, t = TInt n s -> 1 <= n) -> inr_ W t v -> conv W t v = v.
Proof.
  intros Hn H. destruct t as [n [|]|t|t n| |]; cbn [inr_ conv] in *.
  - specialize (Hn _ _ eq_refl).
    assert (E : 2 ^ (8 * n) = 2 * 2 ^ (8 * n - 1)) by (rewrite <- Z.pow_succ_r by lia; f_equal; lia).
    set (h := 2 ^ (8 * n - 1)) in *. rewrite E.
    destruct (Z.le_gt_cases 0 v).
    + rewrite Z.mod_small by lia. destruct (Z.leb_spec h v); lia.
    + assert (v mod (2 * h) = v + 2 * h) as ->.
      { symmetry. apply Z.mod_unique with (-1); lia. }
      destruct (Z.leb_spec h (v + 2 * h)); lia.
  - apply Z.mod_small. lia.
  - apply Z.mod_small. lia.
  - apply Z.mod_small. lia.
  - reflexivity.
  - now symmetry.
Qed.
Lemma conv_inr t v : (forall n s, t = TInt n s -> 1 <= n) -> inr_ W t (conv W t v).
Proof.
  intros Hn. pose proof (MOD_pos W HW). destruct t as [n [|]|t|t n| |]; cbn [inr_ conv]; try apply Z.mod_pos_bound; try lia.
  - specialize (Hn _ _ eq_refl).
    assert (E : 2 ^ (8 * n) = 2 * 2 ^ (8 * n - 1)) by (rewrite <- Z.pow_succ_r by lia; f_equal; lia).
    assert (0 < 2 ^ (8 * n - 1)) by (apply Z.pow_pos_nonneg; lia).
    rewrite E. set (h := 2 ^ (8 * n - 1)) in *. pose proof (Z.mod_pos_bound v (2 * h)).
    destruct (Z.leb_spec h (v mod (2 * h))); lia.
  - apply pk. specialize (Hn _ _ eq_refl). lia.
Qed.
Lemma conv_eqm t n s v k : t = TInt n s -> 0 <= k <= n -> eqm k (conv W t v) v.
Proof.
  intros -> Hk. cbn [conv]. destruct s; [|now apply eqm_mod].
  destruct (_ <=? _); [|now apply eqm_mod].
  eapply eqm_trans; [|apply (eqm_mod k n); exact Hk]. unfold eqm.
  replace (2 ^ (8 * n)) with (2 ^ (8 * n - 8 * k) * 2 ^ (8 * k)) by (rewrite <- Z.pow_add_r by lia; f_equal; lia).
  rewrite <- (Z.mod_add _ (2 ^ (8 * n - 8 * k)) (2 ^ (8 * k))) by (pose proof (pk k); lia).
  f_equal. lia.
Qed.
Lemma conv_eqm_sc t v k : scalar t = true -> wfty W t = true -> 0 <= k <= csize W t -> eqm k (conv W t v) v.
Proof.
  destruct t as [n s|t|t n| |]; cbn [scalar csize]; intros Hs Hw Hk; try discriminate.
  - eapply conv_eqm; eauto.
  - cbn [conv]. apply eqm_MOD. exact Hk.
Qed.
Lemma subr_inr t u v : wfty W t = true -> wfty W u = true -> subr t u = true -> inr_ W t v -> inr_ W u v.
Proof.
  destruct t as [n1 s1| | | |]; try discriminate. destruct u as [n2 s2| | | |]; try discriminate.
  intros H1 H2. apply wf_int in H1, H2. cbn [subr inr_].
  assert (P : forall a b, 1 <= a <= b -> 2 ^ (8 * a - 1) <= 2 ^ (8 * b - 1)) by (intros; apply Z.pow_le_mono_r; lia).
  assert (P2 : forall a b, 1 <= a <= b -> 2 ^ (8 * a) <= 2 ^ (8 * b)) by (intros; apply Z.pow_le_mono_r; lia).
  assert (P3 : forall a b, 1 <= a < b -> 2 ^ (8 * a) <= 2 ^ (8 * b - 1)) by (intros; apply Z.pow_le_mono_r; lia).
  pose proof (isz_pos _ H1). pose proof (isz_pos _ H2).
  destruct s1, s2; cbn [Bool.eqb negb andb]; intros E Hv; try discriminate.
  - apply Z.leb_le in E. specialize (P n1 n2 ltac:(lia)). lia.
  - apply Z.ltb_lt in E. specialize (P3 n1 n2 ltac:(lia)). assert (0 < 2 ^ (8 * n2 - 1)) by (apply Z.pow_pos_nonneg; lia). lia.
  - apply Z.leb_le in E. specialize (P2 n1 n2 ltac:(lia)). lia.
Qed.
(** Values of well-formed types: signed ones and small ones are in the signed range of a word. *)
Lemma inr_half n s v : isz n -> inr_ W (TInt n s) v -> s = true \/ n < W -> - HALF <= v < HALF.
Proof.
  intros Hn Hv Hs. pose proof (isz_pos _ Hn). rewrite HALFW.
  assert (P : 2 ^ (8 * n - 1) <= 2 ^ (8 * W - 1)) by (apply Z.pow_le_mono_r; lia).
  destruct s; cbn [inr_] in Hv; [lia|]. destruct Hs as [|Hs]; [discriminate|].
  assert (2 ^ (8 * n) <= 2 ^ (8 * W - 1)) by (apply Z.pow_le_mono_r; lia). lia.
Qed.
Lemma promote_wf t : wfty W t = true -> wfty W (promote t) = true.
Proof. destruct t as [n s| | | |]; cbn [promote]; auto. destruct (n <? 4); auto. Qed.
Lemma promote_sub n s v : isz n -> inr_ W (TInt n s) v -> inr_ W (promote (TInt n s)) v.
Proof.
  intros Hn Hv. cbn [promote]. destruct (Z.ltb_spec n 4); [|exact Hv]. unfold tint. cbn [inr_].
  szs. destruct Hn as [-> | [-> | [-> | [-> _]]]]; try lia; destruct s; cbn in Hv |- *; lia.
Qed.
Lemma uac_wf t1 t2 rt : wfty W t1 = true -> wfty W t2 = true -> uac t1 t2 = Some rt -> exists n s, rt = TInt n s /\ isz n /\ 4 <= n.
Proof.
  intros H1 H2. apply promote_wf in H1, H2. unfold uac.
  destruct t1 as [n1 s1| | | |]; try discriminate. destruct t2 as [n2 s2| | | |]; try (destruct (promote _); discriminate).
  assert (P : forall n s, exists n' s', promote (TInt n s) = TInt n' s' /\ 4 <= n').
  { intros. cbn [promote]. destruct (Z.ltb_spec n 4); [exists 4, true|exists n, s]; split; auto; lia. }
  destruct (P n1 s1) as (m1 & q1 & E1 & L1). destruct (P n2 s2) as (m2 & q2 & E2 & L2). rewrite E1, E2 in *.
  apply wf_int in H1, H2. intros E. injection E as <-.
  assert (isz (Z.max m1 m2)) by (destruct (Z.max_spec m1 m2) as [[_ ->]|[_ ->]]; auto).
  repeat match goal with |- context [if ?b then _ else _] => destruct b end; repeat eexists; auto; lia.
Qed.
(** With a signed common type nothing is converted. *)
Lemma uac_signed n1 s1 n2 s2 n : isz n1 -> isz n2 -> uac (TInt n1 s1) (TInt n2 s2) = Some (TInt n true) ->
  (forall v, inr_ W (TInt n1 s1) v -> inr_ W (TInt n true) v) /\ (forall v, inr_ W (TInt n2 s2) v -> inr_ W (TInt n true) v).
Proof.
  intros H1 H2 E.
  assert (U1 := fun v => promote_sub n1 s1 v H1). assert (U2 := fun v => promote_sub n2 s2 v H2).
  assert (W1 := promote_wf (TInt n1 s1)). assert (W2 := promote_wf (TInt n2 s2)).
  assert (F : forall a s, isz a -> wfty W (TInt a s) = true).
  { intros a s Ha. cbn [wfty]. repeat rewrite orb_true_iff. rewrite andb_true_iff. repeat rewrite Z.eqb_eq. unfold isz in Ha. tauto. }
  specialize (W1 (F _ _ H1)). specialize (W2 (F _ _ H2)).
  assert (Wr : wfty W (TInt n true) = true).
  { destruct (uac_wf _ _ _ (F _ _ H1) (F _ _ H2) E) as (a & b & E' & Ha & _). rewrite E'. now apply F. }
  unfold uac in E.
  assert (K : forall n s, exists n' s', promote (TInt n s) = TInt n' s') by (intros; cbn [promote]; unfold tint; destruct (_ <? 4); eauto).
  destruct (K n1 s1) as (m1 & q1 & E1). destruct (K n2 s2) as (m2 & q2 & E2). rewrite E1, E2 in *.
  assert (S : subr (TInt m1 q1) (TInt n true) = true /\ subr (TInt m2 q2) (TInt n true) = true).
  { injection E as E. cbn [subr]. destruct q1, q2; cbn [Bool.eqb negb andb] in *.
    - injection E as <-. split; apply Z.leb_le; lia.
    - destruct (Z.leb_spec m1 m2); [discriminate|]. injection E as <-. split; [apply Z.leb_le|apply Z.ltb_lt]; lia.
    - destruct (Z.leb_spec m2 m1); [discriminate|]. injection E as <-. split; [apply Z.ltb_lt|apply Z.leb_le]; lia.
    - discriminate. }
  destruct S as [S1 S2]. split; intros v Hv; eapply subr_inr; [| | |apply U1, Hv| | | |apply U2, Hv]; eauto.
Qed.
Lemma uac_small n1 s1 n2 s2 rt : isz n1 -> isz n2 -> small W (TInt n1 s1) = true -> small W (TInt n2 s2) = true ->
  uac (TInt n1 s1) (TInt n2 s2) = Some rt ->
  (forall v, inr_ W (TInt n1 s1) v -> inr_ W rt v) /\ (forall v, inr_ W (TInt n2 s2) v -> inr_ W rt v).
Proof.
  intros H1 H2 S1 S2 E. cbn [small] in S1, S2. apply andb_true_iff in S1 as [S1 L1], S2 as [S2 L2].
  apply negb_true_iff in S1, S2. apply Z.ltb_lt in L1, L2. subst s1 s2.
  unfold uac in E. cbn [promote] in E.
  szs. destruct H1 as [-> | [-> | [-> | [-> ?]]]], H2 as [-> | [-> | [-> | [-> ?]]]]; try lia; cbn in E; injection E as <-; split; intros v Hv; cbn in *; lia.
Qed.

Lemma inrb_inr t v : inrb W t v = true -> inr_ W t v.
Proof. destruct t as [n [|]|t|t n| |]; cbn [inrb inr_]; intros H; auto; try (apply andb_true_iff in H as [H1 H2]); lia. Qed.
Lemma fit_ok n s v v' : isz n -> fit W (TInt n s) v = Some v' ->
  inr_ W (TInt n s) v' /\ (s = true -> v' = v) /\ (forall k, 0 <= k <= n -> eqm k v' v).
Proof.
  intros Hn H. pose proof (isz_pos _ Hn). destruct s; cbn [fit] in H.
  - destruct (inrb W _ v) eqn:E; [|discriminate]. injection H as <-. split; [now apply inrb_inr|]. split; auto. intros. apply eqm_refl.
  - injection H as <-. split; [cbn; apply Z.mod_pos_bound, pk; lia|]. split; [discriminate|]. intros. now apply eqm_mod.
Qed.
(** Operands of an operation with a signed common type. *)
Lemma word_signed t v w : 0 <= w < MOD -> - HALF <= v < HALF -> rep (Mod W) w v -> inr_ W t v -> sgn w = v.
Proof. intros Hw Hv R _. rewrite (rep_word w v Hw R). now apply sgn_mod. Qed.
Lemma word_small n s v w : isz n -> small W (TInt n s) = true -> 0 <= w < MOD -> rep (Mod W) w v -> inr_ W (TInt n s) v ->
  w = v /\ sgn w = v /\ 0 <= v < HALF.
Proof.
  intros Hn S Hw R Hv. cbn [small] in S. apply andb_true_iff in S as [S L]. apply negb_true_iff in S. subst s. apply Z.ltb_lt in L.
  pose proof (inr_half n false v Hn Hv (or_intror L)) as Hh. cbn [inr_] in Hv. destruct (MODHALF W HW).
  pose proof (rep_word w v Hw R) as E. rewrite Z.mod_small in E by lia. subst w. split; auto. split; [|lia].
  unfold X86Sem.sgn. destruct (Z.leb_spec HALF v); lia.
Qed.
Lemma wf_isz n s : isz n -> wfty W (TInt n s) = true.
Proof. intros Ha. cbn [wfty]. repeat rewrite orb_true_iff. rewrite andb_true_iff. repeat rewrite Z.eqb_eq. unfold isz in Ha. tauto. Qed.
Lemma cond_cmp o sg : is_cmp o = true -> forall x y, 
  ccsem W (cond_of o sg) x y = Some (if sg then cmpv o (sgn x) (sgn y) else cmpv o x y) \/ ((o = Eq \/ o = Ne) /\ ccsem W (cond_of o sg) x y = Some (cmpv o x y)).
Proof.
  intros Hc x y. destruct o; try discriminate; destruct sg; cbn [cond_of cmpv]; unfold ccsem; cbn -[X86Sem.sgn Z.ltb Z.leb]; auto.
Qed.
Lemma ccsem_eq sg x y : ccsem W (cond_of Eq sg) x y = Some (x =? y). Proof. reflexivity. Qed.
Lemma ccsem_ne sg x y : ccsem W (cond_of Ne sg) x y = Some (negb (x =? y)). Proof. reflexivity. Qed.
Lemma b2i_word b : 0 <= b2i b < MOD.
Proof. pose proof (MOD_pos W HW). assert (2 <= MOD) by (unfold X86Sem.MOD; destruct HW as [-> | ->]; discriminate). destruct b; cbn; lia. Qed.
Lemma b2i_tint b : inr_ W tint (b2i b).
Proof. destruct b; cbn; lia. Qed.
Lemma mod_inj_half a b : - HALF <= a < HALF -> - HALF <= b < HALF -> a mod MOD = b mod MOD -> a = b.
Proof. intros Ha Hb E. rewrite <- (sgn_mod W a HW Ha), <- (sgn_mod W b HW Hb). now rewrite E. Qed.

Lemma int_signed_opnds n1 s1 n2 s2 n x y wx wy : isz n1 -> isz n2 -> uac (TInt n1 s1) (TInt n2 s2) = Some (TInt n true) ->
  inr_ W (TInt n1 s1) x -> inr_ W (TInt n2 s2) y -> 0 <= wx < MOD -> 0 <= wy < MOD -> rep (Mod W) wx x -> rep (Mod W) wy y ->
  conv W (TInt n true) x = x /\ conv W (TInt n true) y = y /\ sgn wx = x /\ sgn wy = y /\ - HALF <= x < HALF /\ - HALF <= y < HALF.
Proof.
  intros H1 H2 E Hx Hy Bx By Rx Ry.
  destruct (uac_wf _ _ _ (wf_isz _ s1 H1) (wf_isz _ s2 H2) E) as (n' & s' & E' & Hn & _). injection E' as <- <-.
  destruct (uac_signed n1 s1 n2 s2 n H1 H2 E) as [C1 C2]. pose proof (isz_pos _ Hn).
  pose proof (inr_half n true x Hn (C1 _ Hx) (or_introl eq_refl)). pose proof (inr_half n true y Hn (C2 _ Hy) (or_introl eq_refl)).
  assert (P : forall m s, TInt n true = TInt m s -> 1 <= m) by (intros m s Q; injection Q as <- <-; lia).
  split; [apply conv_id; auto|]. split; [apply conv_id; auto|].
  split; [eapply word_signed; eauto|]. split; [eapply word_signed; eauto|]. lia.
Qed.
Lemma int_small_opnds n1 s1 n2 s2 n s x y wx wy : isz n1 -> isz n2 -> uac (TInt n1 s1) (TInt n2 s2) = Some (TInt n s) ->
  small W (TInt n1 s1) && small W (TInt n2 s2) = true ->
  inr_ W (TInt n1 s1) x -> inr_ W (TInt n2 s2) y -> 0 <= wx < MOD -> 0 <= wy < MOD -> rep (Mod W) wx x -> rep (Mod W) wy y ->
  conv W (TInt n s) x = x /\ conv W (TInt n s) y = y /\ wx = x /\ wy = y /\ sgn wx = x /\ sgn wy = y /\ 0 <= x < HALF /\ 0 <= y < HALF.
Proof.
  intros H1 H2 E S Hx Hy Bx By Rx Ry. apply andb_true_iff in S as [S1 S2].
  destruct (uac_wf _ _ _ (wf_isz _ s1 H1) (wf_isz _ s2 H2) E) as (n' & s' & E' & Hn & _). injection E' as <- <-.
  destruct (uac_small n1 s1 n2 s2 _ H1 H2 S1 S2 E) as [C1 C2]. pose proof (isz_pos _ Hn).
  assert (P : forall m s0, TInt n s = TInt m s0 -> 1 <= m) by (intros m s0 Q; injection Q as <- <-; lia).
  destruct (word_small n1 s1 x wx H1 S1 Bx Rx Hx) as (E1 & E2 & E3). destruct (word_small n2 s2 y wy H2 S2 By Ry Hy) as (E4 & E5 & E6).
  split; [apply conv_id; auto|]. split; [apply conv_id; auto|]. auto 10.
Qed.
Lemma int_uns_opnds n x wx : n = W -> 0 <= wx < MOD -> rep (Mod W) wx x -> conv W (TInt n false) x = wx.
Proof. intros -> Hx R. cbn [conv]. fold MOD. symmetry. now apply rep_word. Qed.

Lemma quot_range_le a b : 0 <= a -> 0 < b -> 0 <= Z.quot a b <= a.
Proof. intros. rewrite Z.quot_div_nonneg by lia. split; [apply Z.div_pos; lia|apply Z.div_le_upper_bound; nia]. Qed.

Definition post (k : Z) (rt : ty) (v : Z) (o : option Z) : Prop :=
  exists wz, o = Some wz /\ 0 <= wz < MOD /\ rep (Mod k) wz v /\ inr_ W rt v.
Lemma post_intro k rt v wz : 0 <= wz < MOD -> rep (Mod k) wz v -> inr_ W rt v -> post k rt v (Some wz).
Proof. intros. exists wz. auto. Qed.
Lemma log_range a : 0 <= a -> (forall i, 8 * W <= i -> Z.testbit a i = false) -> a < MOD.
Proof.
  intros Ha H. destruct (Z.lt_ge_cases a MOD) as [|Hge]; auto. exfalso.
  pose proof (MOD_pos W HW) as HP. assert (0 < a) by lia.
  assert (L : 8 * W <= Z.log2 a) by (apply Z.log2_le_pow2; [lia|exact Hge]).
  pose proof (Z.bit_log2 a ltac:(lia)) as B. rewrite H in B by lia. discriminate.
Qed.
Lemma high_bits a i : 0 <= a < MOD -> 8 * W <= i -> Z.testbit a i = false.
Proof.
  intros Ha Hi. destruct (Z.eq_dec a 0) as [->|]; [apply Z.testbit_0_l|].
  apply Z.bits_above_log2; [lia|]. apply Z.lt_le_trans with (8 * W); auto. apply Z.log2_lt_pow2; [lia|]. exact (proj2 Ha).
Qed.
Lemma land_range a b : 0 <= a < MOD -> 0 <= b < MOD -> 0 <= Z.land a b < MOD.
Proof.
  intros Ha Hb. assert (0 <= Z.land a b) by (apply Z.land_nonneg; lia). split; auto. apply log_range; auto.
  intros i Hi. rewrite Z.land_spec, (high_bits a), (high_bits b) by auto. reflexivity.
Qed.
Lemma lor_range a b : 0 <= a < MOD -> 0 <= b < MOD -> 0 <= Z.lor a b < MOD.
Proof.
  intros Ha Hb. assert (0 <= Z.lor a b) by (apply Z.lor_nonneg; lia). split; auto. apply log_range; auto.
  intros i Hi. rewrite Z.lor_spec, (high_bits a), (high_bits b) by auto. reflexivity.
Qed.
Lemma lxor_range a b : 0 <= a < MOD -> 0 <= b < MOD -> 0 <= Z.lxor a b < MOD.
Proof.
  intros Ha Hb. assert (0 <= Z.lxor a b) by (apply Z.lxor_nonneg; lia). split; auto. apply log_range; auto.
  intros i Hi. rewrite Z.lxor_spec, (high_bits a), (high_bits b) by auto. reflexivity.
Qed.

Lemma conv_cong k n1 s1 n2 s2 n s x y : 0 <= k -> isz n1 -> isz n2 -> uac (TInt n1 s1) (TInt n2 s2) = Some (TInt n s) ->
  s || (k <=? n) = true -> inr_ W (TInt n1 s1) x -> inr_ W (TInt n2 s2) y ->
  eqm k (conv W (TInt n s) x) x /\ eqm k (conv W (TInt n s) y) y.
Proof.
  intros Hk H1 H2 U G Hx Hy.
  destruct (uac_wf _ _ _ (wf_isz _ s1 H1) (wf_isz _ s2 H2) U) as (n' & s' & E' & Hn & _). injection E' as <- <-.
  destruct s; cbn [orb] in G.
  - destruct (uac_signed n1 s1 n2 s2 n H1 H2 U) as [C1 C2]. pose proof (isz_pos _ Hn).
    assert (P : forall m s, TInt n true = TInt m s -> 1 <= m) by (intros m s Q; injection Q as <- <-; lia).
    rewrite !conv_id; auto. split; apply eqm_refl.
  - apply Z.leb_le in G. split; eapply conv_eqm; eauto.
Qed.
Lemma fit_cong k n s v v' : 0 <= k -> isz n -> s || (k <=? n) = true -> fit W (TInt n s) v = Some v' ->
  eqm k v' v /\ inr_ W (TInt n s) v'.
Proof.
  intros Hk Hn G F. destruct (fit_ok n s v v' Hn F) as (I1 & I2 & I3). split; auto.
  destruct s; [rewrite I2 by auto; apply eqm_refl|]. apply I3. cbn in G. apply Z.leb_le in G. lia.
Qed.
Lemma shift_mod y wy n : isz n -> 4 <= n -> 0 <= wy < MOD -> rep (Mod W) wy y -> 0 <= y < 8 * n -> wy mod shift_count W = y.
Proof.
  intros Hn H4 By Ry Hy. rewrite (rep_word wy y By Ry). pose proof (isz_pos _ Hn).
  assert (64 < MOD) by (unfold X86Sem.MOD; destruct HW as [-> | ->]; reflexivity).
  rewrite (Z.mod_small y) by (destruct HW; lia). apply Z.mod_small. unfold shift_count.
  destruct (Z.eqb_spec W 8); destruct HW; lia.
Qed.
Lemma ediv_range x y : 0 <= y -> forall h, - h <= x < h -> - h <= x / 2 ^ y < h.
Proof.
  intros Hy h Hx. assert (0 < 2 ^ y) by (apply Z.pow_pos_nonneg; lia). split.
  - apply Z.div_le_lower_bound; nia.
  - apply Z.div_lt_upper_bound; nia.
Qed.

Section Int.
Variables (k n1 n2 a1 a2 x y wx wy : Z) (s1 s2 b1 b2 : bool).
Hypothesis Hk : 0 <= k <= W.
Hypothesis H1 : isz n1.
Hypothesis H2 : isz n2.
Hypothesis Hx : inr_ W (TInt n1 s1) x.
Hypothesis Hy : inr_ W (TInt n2 s2) y.
Hypothesis Bx : 0 <= wx < MOD.
Hypothesis By : 0 <= wy < MOD.
Notation T1 := (TInt n1 s1).
Notation T2 := (TInt n2 s2).
Notation V1 := (TInt a1 b1).
Notation V2 := (TInt a2 b2).

Definition gcmp (o : bop) (n : Z) (s : bool) : bool :=
  match o with
  | Eq | Ne => s || (n =? W) || (small W T1 && small W T2)
  | _ => if s then (b1 && b2) || (small W T1 && small W T2) else if n =? W then negb (b1 && b2) else small W T1 && small W T2
  end.
Lemma eq_int n s : uac T1 T2 = Some (TInt n s) -> rep (Mod W) wx x -> rep (Mod W) wy y ->
  s || (n =? W) || (small W T1 && small W T2) = true ->
  (wx =? wy) = (conv W (TInt n s) x =? conv W (TInt n s) y).
Proof.
  intros U Rx Ry G. destruct s.
  - destruct (int_signed_opnds n1 s1 n2 s2 n x y wx wy H1 H2 U Hx Hy Bx By Rx Ry) as (Cx & Cy & Sx & Sy & Lx & Ly).
    rewrite Cx, Cy. destruct (Z.eqb_spec wx wy) as [E|E], (Z.eqb_spec x y) as [E'|E']; try congruence.
    exfalso. apply E. rewrite (rep_word _ _ Bx Rx), (rep_word _ _ By Ry). congruence.
  - cbn [orb] in G. destruct (Z.eqb_spec n W) as [Hw|Hw].
    + rewrite (int_uns_opnds n x wx Hw Bx Rx), (int_uns_opnds n y wy Hw By Ry). reflexivity.
    + cbn [orb] in G. destruct (int_small_opnds n1 s1 n2 s2 n false x y wx wy H1 H2 U G Hx Hy Bx By Rx Ry) as (-> & -> & -> & -> & _). reflexivity.
Qed.
Lemma ord_int n s : uac T1 T2 = Some (TInt n s) -> rep (Mod W) wx x -> rep (Mod W) wy y ->
  (if s then (b1 && b2) || (small W T1 && small W T2) else if n =? W then negb (b1 && b2) else small W T1 && small W T2) = true ->
  conv W (TInt n s) x = (if b1 && b2 then sgn wx else wx) /\ conv W (TInt n s) y = (if b1 && b2 then sgn wy else wy).
Proof.
  intros U Rx Ry G. destruct s.
  - destruct (int_signed_opnds n1 s1 n2 s2 n x y wx wy H1 H2 U Hx Hy Bx By Rx Ry) as (Cx & Cy & Sx & Sy & Lx & Ly).
    destruct (b1 && b2); cbn [orb] in G; [now rewrite Cx, Cy, Sx, Sy|].
    destruct (int_small_opnds n1 s1 n2 s2 n true x y wx wy H1 H2 U G Hx Hy Bx By Rx Ry) as (-> & -> & -> & -> & _). auto.
  - destruct (Z.eqb_spec n W) as [Hw|Hw].
    + apply negb_true_iff in G. rewrite G. now rewrite (int_uns_opnds n x wx Hw Bx Rx), (int_uns_opnds n y wy Hw By Ry).
    + destruct (int_small_opnds n1 s1 n2 s2 n false x y wx wy H1 H2 U G Hx Hy Bx By Rx Ry) as (E1 & E2 & E3 & E4 & E5 & E6 & _).
      rewrite E1, E2, E5, E6. destruct (b1 && b2); split; congruence.
Qed.
Lemma cmp_int o n s : is_cmp o = true -> uac T1 T2 = Some (TInt n s) -> rep (Mod W) wx x -> rep (Mod W) wy y ->
  gcmp o n s = true ->
  ccsem W (cond_of o (b1 && b2)) wx wy = Some (cmpv o (conv W (TInt n s) x) (conv W (TInt n s) y)).
Proof.
  intros Hc U Rx Ry G. destruct o; try discriminate Hc; cbn [gcmp] in G.
  1-4: destruct (ord_int n s U Rx Ry G) as [-> ->]; destruct (b1 && b2); reflexivity.
  - rewrite ccsem_eq, (eq_int n s U Rx Ry G). reflexivity.
  - rewrite ccsem_ne, (eq_int n s U Rx Ry G). reflexivity.
Qed.

Lemma bval_int o v m1 m2 rt : bmodes W o k T1 T2 V1 V2 = Some (m1, m2) -> rep m1 wx x -> rep m2 wy y ->
  bval W o T1 T2 x y = Some v -> btype W o T1 T2 = Some rt -> post k rt v (mb o V1 V2 wx wy).
Proof.
  intros HB Rx Ry HV HT. unfold bmodes in HB. cbn [decay] in HB.
  destruct (uac T1 T2) as [u|] eqn:U; [|discriminate]. cbn [isint andb negb] in HB.
  destruct (uac_wf _ _ _ (wf_isz _ s1 H1) (wf_isz _ s2 H2) U) as (n & s & -> & Hn & Hn4).
  pose proof (isz_pos _ Hn) as Hnp. pose proof (MOD_pos W HW) as MP. destruct (MODHALF W HW) as [HM HP].
  unfold bval in HV. cbn [decay] in HV. unfold btype in HT. cbn [decay] in HT.
  assert (HH : s = true -> HALF = 2 ^ (8 * n - 1) \/ 2 ^ (8 * n - 1) <= HALF).
  { intros. right. rewrite HALFW. apply Z.pow_le_mono_r; lia. }
  destruct o; cbn [is_cmp sgnd csize is_sgn] in HB, HV, HT; unfold mb; cbn [is_cmp is_ptr andb negb is_sgn];
    rewrite ?U in HV, HT; cbn [exact] in HV.
  - (* Add *) destruct (s || (k <=? n)) eqn:G; [|discriminate]. injection HB as <- <-. injection HT as <-.
    destruct (conv_cong k n1 s1 n2 s2 n s x y (proj1 Hk) H1 H2 U G Hx Hy) as [Cx Cy].
    destruct (fit_cong k n s _ v (proj1 Hk) Hn G HV) as [F I]. apply post_intro; [apply Z.mod_pos_bound; lia| |exact I].
    cbn [rep] in *. eapply eqm_trans; [now apply eqm_MOD|]. eapply eqm_trans; [|apply eqm_sym, F].
    apply eqm_add; eapply eqm_trans; eauto using eqm_sym.
  - destruct (s || (k <=? n)) eqn:G; [|discriminate]. injection HB as <- <-. injection HT as <-.
    destruct (conv_cong k n1 s1 n2 s2 n s x y (proj1 Hk) H1 H2 U G Hx Hy) as [Cx Cy].
    destruct (fit_cong k n s _ v (proj1 Hk) Hn G HV) as [F I]. apply post_intro; [apply Z.mod_pos_bound; lia| |exact I].
    cbn [rep] in *. eapply eqm_trans; [now apply eqm_MOD|]. eapply eqm_trans; [|apply eqm_sym, F].
    apply eqm_sub; eapply eqm_trans; eauto using eqm_sym.
  - destruct (s || (k <=? n)) eqn:G; [|discriminate]. injection HB as <- <-. injection HT as <-.
    destruct (conv_cong k n1 s1 n2 s2 n s x y (proj1 Hk) H1 H2 U G Hx Hy) as [Cx Cy].
    destruct (fit_cong k n s _ v (proj1 Hk) Hn G HV) as [F I]. apply post_intro; [apply Z.mod_pos_bound; lia| |exact I].
    cbn [rep] in *. eapply eqm_trans; [now apply eqm_MOD|]. eapply eqm_trans; [|apply eqm_sym, F].
    apply eqm_mul; eapply eqm_trans; eauto using eqm_sym.
  - (* Div *) injection HT as <-.
    destruct (Z.eqb_spec (conv W (TInt n s) y) 0) as [|Hy0]; [discriminate|].
    destruct s.
    + destruct (_ || _) eqn:G in HB; [|discriminate]. injection HB as <- <-.
      destruct (int_signed_opnds n1 s1 n2 s2 n x y wx wy H1 H2 U Hx Hy Bx By Rx Ry) as (Cx & Cy & Sx & Sy & Lx & Ly).
      rewrite Cx, Cy in *. destruct (fit_ok n true _ v Hn HV) as (I1 & I2 & _). specialize (I2 eq_refl).
      pose proof (inr_half n true v Hn I1 (or_introl eq_refl)) as Lv.
      destruct (b1 && b2) eqn:MS.
      * rewrite Sx, Sy, <- I2. destruct (Z.eqb_spec y 0); [contradiction|]. cbn [negb andb].
        destruct (Z.leb_spec (- HALF) v), (Z.ltb_spec v HALF); try lia. cbn [andb].
        apply post_intro; [apply Z.mod_pos_bound; lia|now apply rep_exact|exact I1].
      * cbn [orb] in G. destruct (int_small_opnds n1 s1 n2 s2 n true x y wx wy H1 H2 U G Hx Hy Bx By Rx Ry) as (_ & _ & -> & -> & _ & _ & Px & Py).
        destruct (Z.eqb_spec y 0); [contradiction|]. rewrite <- Z.quot_div_nonneg by lia. pose proof (quot_range_le x y).
        apply post_intro; [lia|rewrite I2; apply eqm_refl|exact I1].
    + destruct (Z.eqb_spec n W) as [Hw|Hw].
      * destruct (negb (b1 && b2)) eqn:G in HB; [|discriminate]. injection HB as <- <-. apply negb_true_iff in G. rewrite G.
        rewrite (int_uns_opnds n x wx Hw Bx Rx), (int_uns_opnds n y wy Hw By Ry) in *.
        destruct (Z.eqb_spec wy 0); [contradiction|]. cbn [fit] in HV. apply Some_inj in HV. subst v. rewrite <- Z.quot_div_nonneg by lia.
        pose proof (quot_range_le wx wy). apply post_intro; [lia| |cbn; apply Z.mod_pos_bound, pk; lia].
        apply eqm_sym. apply eqm_mod; lia.
      * destruct (small W T1 && small W T2) eqn:G in HB; [|discriminate]. injection HB as <- <-.
        destruct (int_small_opnds n1 s1 n2 s2 n false x y wx wy H1 H2 U G Hx Hy Bx By Rx Ry) as (Cx & Cy & Ex & Ey & Sx & Sy & Px & Py).
        rewrite Cx, Cy in *. destruct (fit_ok n false _ v Hn HV) as (I1 & _ & _). pose proof (quot_range_le x y).
        assert (v = Z.quot x y) as ->.
        { cbn [fit] in HV. apply Some_inj in HV. subst v. apply Z.mod_small.
          pose proof (conv_inr (TInt n false) x (fun m s Q => ltac:(injection Q as <- <-; lia))) as CI.
          rewrite Cx in CI. cbn [inr_] in CI. lia. }
        destruct (b1 && b2).
        -- rewrite Sx, Sy. destruct (Z.eqb_spec y 0); [contradiction|]. cbn [negb andb].
           destruct (Z.leb_spec (- HALF) (Z.quot x y)), (Z.ltb_spec (Z.quot x y) HALF); try lia. cbn [andb].
           apply post_intro; [apply Z.mod_pos_bound; lia|now apply rep_exact|exact I1].
        -- rewrite Ex, Ey. destruct (Z.eqb_spec y 0); [contradiction|]. rewrite <- Z.quot_div_nonneg by lia.
           apply post_intro; [lia|apply eqm_refl|exact I1].
  - (* Rem *) injection HT as <-.
    destruct (Z.eqb_spec (conv W (TInt n s) y) 0) as [|Hy0]; [discriminate|].
    destruct s.
    + destruct (_ || _) eqn:G in HB; [|discriminate]. injection HB as <- <-.
      destruct (int_signed_opnds n1 s1 n2 s2 n x y wx wy H1 H2 U Hx Hy Bx By Rx Ry) as (Cx & Cy & Sx & Sy & Lx & Ly).
      rewrite Cx, Cy in *. destruct (inrb W (TInt n true) (Z.quot x y)) eqn:Iq; cbn [negb andb] in HV; [|discriminate].
      apply inrb_inr in Iq. pose proof (inr_half n true _ Hn Iq (or_introl eq_refl)) as Lq.
      destruct (fit_ok n true _ v Hn HV) as (I1 & I2 & _). specialize (I2 eq_refl).
      destruct (b1 && b2) eqn:MS.
      * rewrite Sx, Sy. destruct (Z.eqb_spec y 0); [contradiction|]. cbn [negb andb].
        destruct (Z.leb_spec (- HALF) (Z.quot x y)), (Z.ltb_spec (Z.quot x y) HALF); try lia. cbn [andb]. rewrite <- I2.
        apply post_intro; [apply Z.mod_pos_bound; lia|now apply rep_exact|exact I1].
      * cbn [orb] in G. destruct (int_small_opnds n1 s1 n2 s2 n true x y wx wy H1 H2 U G Hx Hy Bx By Rx Ry) as (_ & _ & -> & -> & _ & _ & Px & Py).
        destruct (Z.eqb_spec y 0); [contradiction|]. rewrite Z.rem_mod_nonneg in I2 by lia. pose proof (Z.mod_pos_bound x y).
        apply post_intro; [lia|rewrite I2; apply eqm_refl|exact I1].
    + cbn [andb] in HV. destruct (Z.eqb_spec n W) as [Hw|Hw].
      * destruct (negb (b1 && b2)) eqn:G in HB; [|discriminate]. injection HB as <- <-. apply negb_true_iff in G. rewrite G.
        rewrite (int_uns_opnds n x wx Hw Bx Rx), (int_uns_opnds n y wy Hw By Ry) in *.
        destruct (Z.eqb_spec wy 0); [contradiction|]. cbn [fit] in HV. apply Some_inj in HV. subst v. rewrite Z.rem_mod_nonneg by lia.
        pose proof (Z.mod_pos_bound wx wy). apply post_intro; [lia| |cbn; apply Z.mod_pos_bound, pk; lia].
        apply eqm_sym. apply eqm_mod; lia.
      * destruct (small W T1 && small W T2) eqn:G in HB; [|discriminate]. injection HB as <- <-.
        destruct (int_small_opnds n1 s1 n2 s2 n false x y wx wy H1 H2 U G Hx Hy Bx By Rx Ry) as (Cx & Cy & Ex & Ey & Sx & Sy & Px & Py).
        rewrite Cx, Cy in *. destruct (fit_ok n false _ v Hn HV) as (I1 & _ & _). pose proof (quot_range_le x y).
        pose proof (Z.mod_pos_bound x y).
        assert (v = x mod y) as ->.
        { cbn [fit] in HV. apply Some_inj in HV. subst v. rewrite Z.rem_mod_nonneg by lia. apply Z.mod_small.
          pose proof (conv_inr (TInt n false) y (fun m s Q => ltac:(injection Q as <- <-; lia))) as CI.
          rewrite Cy in CI. cbn [inr_] in CI. lia. }
        destruct (b1 && b2).
        -- rewrite Sx, Sy. destruct (Z.eqb_spec y 0); [contradiction|]. cbn [negb andb].
           destruct (Z.leb_spec (- HALF) (Z.quot x y)), (Z.ltb_spec (Z.quot x y) HALF); try lia. cbn [andb].
           rewrite Z.rem_mod_nonneg by lia.
           apply post_intro; [apply Z.mod_pos_bound; lia|now apply rep_exact|exact I1].
        -- rewrite Ex, Ey. destruct (Z.eqb_spec y 0); [contradiction|].
           apply post_intro; [lia|apply eqm_refl|exact I1].
  - destruct (s || (k <=? n)) eqn:G; [|discriminate]. injection HB as <- <-. injection HT as <-.
    destruct (conv_cong k n1 s1 n2 s2 n s x y (proj1 Hk) H1 H2 U G Hx Hy) as [Cx Cy].
    destruct (fit_cong k n s _ v (proj1 Hk) Hn G HV) as [F I]. apply post_intro; [now apply land_range| |exact I].
    cbn [rep] in *. eapply eqm_trans; [|apply eqm_sym, F].
    apply eqm_land; [lia| |]; eapply eqm_trans; eauto using eqm_sym.
  - destruct (s || (k <=? n)) eqn:G; [|discriminate]. injection HB as <- <-. injection HT as <-.
    destruct (conv_cong k n1 s1 n2 s2 n s x y (proj1 Hk) H1 H2 U G Hx Hy) as [Cx Cy].
    destruct (fit_cong k n s _ v (proj1 Hk) Hn G HV) as [F I]. apply post_intro; [now apply lor_range| |exact I].
    cbn [rep] in *. eapply eqm_trans; [|apply eqm_sym, F].
    apply eqm_lor; [lia| |]; eapply eqm_trans; eauto using eqm_sym.
  - destruct (s || (k <=? n)) eqn:G; [|discriminate]. injection HB as <- <-. injection HT as <-.
    destruct (conv_cong k n1 s1 n2 s2 n s x y (proj1 Hk) H1 H2 U G Hx Hy) as [Cx Cy].
    destruct (fit_cong k n s _ v (proj1 Hk) Hn G HV) as [F I]. apply post_intro; [now apply lxor_range| |exact I].
    cbn [rep] in *. eapply eqm_trans; [|apply eqm_sym, F].
    apply eqm_lxor; [lia| |]; eapply eqm_trans; eauto using eqm_sym.
  - (* Shl *) 
    pose proof (promote_sub n1 s1 x H1 Hx) as Px. pose proof (promote_wf _ (wf_isz _ s1 H1)) as Wp.
    assert (K : exists a b, promote T1 = TInt a b /\ 4 <= a) by (cbn [promote]; unfold tint; destruct (Z.ltb_spec n1 4); eauto 6 with zarith).
    destruct K as (a & b & Ep & Ha). rewrite Ep in *. apply wf_int in Wp. pose proof (isz_pos _ Wp). cbn [sgnd csize] in HB. unfold bits in HV. cbn [csize] in HV.
    destruct (b || (k <=? a)) eqn:G; [|discriminate]. injection HB as <- <-. injection HT as <-.
    destruct (Z.leb_spec 0 y), (Z.ltb_spec y (8 * a)); cbn [andb] in HV; try discriminate.
    assert (F : fit W (TInt a b) (x * 2 ^ y) = Some v) by (destruct b; [destruct (0 <=? x); [exact HV|discriminate]|exact HV]).
    destruct (fit_cong k a b _ v (proj1 Hk) Wp G F) as [Fe I]. rewrite (shift_mod y wy a Wp Ha By Ry) by lia.
    apply post_intro; [apply Z.mod_pos_bound; lia| |exact I]. cbn [rep] in *. eapply eqm_trans; [now apply eqm_MOD|].
    eapply eqm_trans; [|apply eqm_sym, Fe]. apply eqm_mul; [exact Rx|apply eqm_refl].
  - (* Shr *)
    pose proof (promote_sub n1 s1 x H1 Hx) as Px. pose proof (promote_wf _ (wf_isz _ s1 H1)) as Wp.
    assert (K : exists a b, promote T1 = TInt a b /\ 4 <= a) by (cbn [promote]; unfold tint; destruct (Z.ltb_spec n1 4); eauto 6 with zarith).
    destruct K as (a & b & Ep & Ha). rewrite Ep in *. apply wf_int in Wp. pose proof (isz_pos _ Wp). cbn [sgnd csize] in HB. unfold bits in HV. cbn [csize] in HV.
    destruct (Z.leb_spec 0 y), (Z.ltb_spec y (8 * a)); cbn [andb] in HV; try discriminate. injection HV as <-. injection HT as <-.
    assert (Rg : inr_ W (TInt a b) (x / 2 ^ y)).
    { assert (0 < 2 ^ y) by (apply Z.pow_pos_nonneg; lia). cbn [inr_] in *. destruct b; [apply ediv_range; auto|].
      split; [apply Z.div_pos; lia|]. apply Z.le_lt_trans with x; [apply Z.div_le_upper_bound; nia|lia]. }
    destruct b.
    + destruct ((b1 && b2) || _) eqn:G in HB; [|discriminate]. injection HB as <- <-. rewrite (shift_mod y wy a Wp Ha By Ry) by lia.
      pose proof (inr_half a true x Wp Px (or_introl eq_refl)) as Lx.
      destruct (b1 && b2).
      * rewrite (word_signed (TInt a true) x wx Bx Lx Rx Px). apply post_intro; [apply Z.mod_pos_bound; lia|now apply rep_exact|exact Rg].
      * cbn [orb] in G. destruct (word_small n1 s1 x wx H1 G Bx Rx Hx) as (-> & _ & P0).
        apply post_intro; [|apply eqm_refl|exact Rg].
        assert (0 < 2 ^ y) by (apply Z.pow_pos_nonneg; lia). split; [apply Z.div_pos; lia|].
        apply Z.le_lt_trans with x; [apply Z.div_le_upper_bound; nia|lia].
    + destruct (negb (b1 && b2) || _) eqn:G in HB; [|discriminate]. injection HB as <- <-. rewrite (shift_mod y wy a Wp Ha By Ry) by lia.
      cbn [inr_] in Px. assert (Px' : 0 <= x < MOD).
      { split; [lia|]. apply Z.lt_le_trans with (2 ^ (8 * a)); [lia|]. unfold X86Sem.MOD. apply Z.pow_le_mono_r; lia. }
      assert (Ew : wx = x) by (rewrite (rep_word wx x Bx Rx); now apply Z.mod_small).
      assert (P2 : 0 < 2 ^ y) by (apply Z.pow_pos_nonneg; lia).
      destruct (b1 && b2); cbn [negb orb] in G.
      * apply Z.ltb_lt in G. pose proof (inr_half a false x Wp Px (or_intror G)) as Lx.
        rewrite (word_signed (TInt a false) x wx Bx Lx Rx Px). apply post_intro; [apply Z.mod_pos_bound; lia|now apply rep_exact|exact Rg].
      * rewrite Ew. apply post_intro; [|apply eqm_refl|exact Rg]. split; [apply Z.div_pos; lia|].
        apply Z.le_lt_trans with x; [apply Z.div_le_upper_bound; nia|lia].
  - destruct (gcmp Lt n s) eqn:G; cbn [gcmp] in G; rewrite ?G in HB; [|discriminate HB].
    injection HB as <- <-. injection HT as <-. rewrite U in HV. injection HV as <-. rewrite (cmp_int Lt n s eq_refl U Rx Ry G).
    apply post_intro; [apply b2i_word|apply eqm_refl|apply b2i_tint].
  - destruct (gcmp Gt n s) eqn:G; cbn [gcmp] in G; rewrite ?G in HB; [|discriminate HB].
    injection HB as <- <-. injection HT as <-. rewrite U in HV. injection HV as <-. rewrite (cmp_int Gt n s eq_refl U Rx Ry G).
    apply post_intro; [apply b2i_word|apply eqm_refl|apply b2i_tint].
  - destruct (gcmp Le n s) eqn:G; cbn [gcmp] in G; rewrite ?G in HB; [|discriminate HB].
    injection HB as <- <-. injection HT as <-. rewrite U in HV. injection HV as <-. rewrite (cmp_int Le n s eq_refl U Rx Ry G).
    apply post_intro; [apply b2i_word|apply eqm_refl|apply b2i_tint].
  - destruct (gcmp Ge n s) eqn:G; cbn [gcmp] in G; rewrite ?G in HB; [|discriminate HB].
    injection HB as <- <-. injection HT as <-. rewrite U in HV. injection HV as <-. rewrite (cmp_int Ge n s eq_refl U Rx Ry G).
    apply post_intro; [apply b2i_word|apply eqm_refl|apply b2i_tint].
  - destruct (gcmp Eq n s) eqn:G; cbn [gcmp] in G; rewrite ?G in HB; [|discriminate HB].
    injection HB as <- <-. injection HT as <-. rewrite U in HV. injection HV as <-. rewrite (cmp_int Eq n s eq_refl U Rx Ry G).
    apply post_intro; [apply b2i_word|apply eqm_refl|apply b2i_tint].
  - destruct (gcmp Ne n s) eqn:G; cbn [gcmp] in G; rewrite ?G in HB; [|discriminate HB].
    injection HB as <- <-. injection HT as <-. rewrite U in HV. injection HV as <-. rewrite (cmp_int Ne n s eq_refl U Rx Ry G).
    apply post_intro; [apply b2i_word|apply eqm_refl|apply b2i_tint].
Qed.
End Int.

Lemma ty_eqb_eq a : forall b, ty_eqb a b = true -> a = b.
Proof.
  induction a as [n s|a IH|a IH n| |u i z]; intros [n' s'|b|b n'| |u' i' z']; cbn [ty_eqb]; intros H; try discriminate; auto.
  - apply andb_true_iff in H as [H1 H2]. apply Z.eqb_eq in H1. apply eqb_prop in H2. now subst.
  - f_equal. auto.
  - apply andb_true_iff in H as [H1 H2]. apply Z.eqb_eq in H2. subst. f_equal. auto.
  - apply andb_true_iff in H as [H1 H3]. apply andb_true_iff in H1 as [H1 H2]. apply eqb_prop in H1. apply Z.eqb_eq in H2, H3. now subst.
Qed.
Lemma width_csize t : is_arr t = false -> width_of W t false = csize W t.
Proof. destruct t; cbn; auto; discriminate. Qed.
Lemma width_true t : width_of W t true = csize W t.
Proof. induction t as [n s|t IH|t IH n| |]; cbn [width_of csize]; auto. now rewrite IH. Qed.
Lemma scalar_arr t : scalar t = true -> is_arr t = false.
Proof. destruct t; auto; discriminate. Qed.
Lemma scalar_arr' t : (scalar t || is_struct t) = true -> is_arr t = false.
Proof. destruct t; auto; discriminate. Qed.
Lemma compat_ref c v t : wfty W v = true -> compat c v = true -> decay c = TPtr t ->
  ref_type_width W v = Some (csize W t) /\ is_ptr v = true /\ is_ptr c = true /\ deref_ty v = Some t /\ target c = Some t.
Proof.
  intros Hw Hc Ed. unfold compat in Hc. rewrite Ed in Hc. unfold ref_type_width, type_width.
  assert (is_ptr c = true /\ target c = Some t) as [-> ->] by (destruct c; cbn in Ed |- *; try discriminate; injection Ed as <-; auto).
  destruct v as [n s|u|u n| |]; cbn [decay] in Hc; try discriminate; apply ty_eqb_eq in Hc; subst u; cbn [deref_ty is_ptr wfty] in *;
    rewrite width_csize; auto; repeat rewrite andb_true_iff in Hw.
  - now apply negb_true_iff.
  - apply scalar_arr'. tauto.
Qed.
Lemma ptr_word x wx : 0 <= wx < MOD -> 0 <= x < MOD -> rep (Mod W) wx x -> wx = x.
Proof. intros Hw Hx R. rewrite (rep_word wx x Hw R). now apply Z.mod_small. Qed.
Lemma inr_ptr t u x : decay t = TPtr u -> inr_ W t x -> 0 <= x < MOD.
Proof. destruct t; cbn; try discriminate; auto. Qed.
Lemma is_int_ex v : isint v = true -> exists n s, v = TInt n s.
Proof. destruct v; try discriminate; eauto. Qed.

(** The machine operation computes the C operation. *)
Lemma bval_rep o k t1 t2 v1 v2 m1 m2 rt v x y wx wy : 0 <= k <= W ->
  wfty W t1 = true -> wfty W t2 = true -> wfty W v1 = true -> wfty W v2 = true ->
  inr_ W t1 x -> inr_ W t2 y -> 0 <= wx < MOD -> 0 <= wy < MOD ->
  bmodes W o k t1 t2 v1 v2 = Some (m1, m2) -> rep m1 wx x -> rep m2 wy y ->
  bval W o t1 t2 x y = Some v -> btype W o t1 t2 = Some rt -> post k rt v (mb o v1 v2 wx wy).
Proof.
  intros Hk W1 W2 U1 U2 Hx Hy Bx By HB Rx Ry HV HT. pose proof (MOD_pos W HW) as MP. destruct (MODHALF W HW) as [HM HP].
  assert (B1 : forall t (Q : bool), (if Q && ((1 <=? csize W t) && (csize W t <? 2 ^ 31)) then Some (Mod W, Mod W) else None) = Some (m1, m2) -> 
     okscale (csize W t) = true /\ Q = true /\ m1 = Mod W /\ m2 = Mod W).
  { intros t Q H. destruct (Q && _) eqn:E; [|discriminate]. injection H as <- <-. apply andb_true_iff in E as [-> E]. auto. }
  destruct (decay t1) as [n1 s1|p1|a n| |] eqn:D1.
  - assert (t1 = TInt n1 s1) as -> by (destruct t1; cbn in D1; congruence).
    destruct (decay t2) as [n2 s2|p2|a n| |] eqn:D2.
    + assert (t2 = TInt n2 s2) as -> by (destruct t2; cbn in D2; congruence).
      assert (J : exists a1 b1 a2 b2, v1 = TInt a1 b1 /\ v2 = TInt a2 b2).
      { unfold bmodes in HB. cbn [decay] in HB. destruct (uac _ _); [|discriminate].
        destruct (isint v1 && isint v2) eqn:E; [|discriminate]. apply andb_true_iff in E as [E1 E2].
        apply is_int_ex in E1 as (? & ? & ->), E2 as (? & ? & ->). eauto 6. }
      destruct J as (a1 & b1 & a2 & b2 & -> & ->). apply wf_int in W1, W2. exact (bval_int k n1 n2 a1 a2 x y wx wy s1 s2 b1 b2 Hk W1 W2 Hx Hy Bx By o v m1 m2 rt HB Rx Ry HV HT).
    + unfold bmodes in HB. rewrite D2 in HB. cbn [decay] in HB.
      destruct (compat t2 v2) eqn:Cp; [|discriminate]. destruct (isint v1) eqn:I1; [|discriminate]. cbn [andb negb] in HB.
      apply is_int_ex in I1 as (a1 & b1 & ->). destruct (compat_ref t2 v2 p2 U2 Cp D2) as (Rf & Ip & _).
      pose proof (inr_ptr t2 p2 y D2 Hy) as Ry'. unfold bval in HV. cbn [decay] in HV. rewrite D2 in HV.
      unfold btype in HT. cbn [decay] in HT. rewrite D2 in HT.
      destruct o; try discriminate; unfold mb; cbn [is_cmp is_ptr andb negb].
      * destruct (B1 p2 true HB) as (Os & _ & -> & ->). rewrite Ip. cbn [negb andb]. unfold scaled. rewrite Rf, Os.
        rewrite (ptr_word y wy By Ry' Ry). rewrite (rep_word wx x Bx Rx). injection HT as <-.
        destruct (Z.leb_spec 0 (y + x * csize W p2)), (Z.ltb_spec (y + x * csize W p2) MOD); cbn [andb] in HV; try discriminate.
        apply Some_inj in HV. subst v. apply post_intro; [apply Z.mod_pos_bound; lia| |cbn; lia]. cbn [rep].
        eapply eqm_trans; [now apply eqm_MOD|]. rewrite (Z.add_comm y). apply eqm_add; [|apply eqm_refl].
        eapply eqm_trans; [now apply eqm_MOD|]. apply eqm_mul; [now apply eqm_MOD|apply eqm_refl].
      * injection HB as <- <-. injection HT as <-. injection HV as <-. rewrite ccsem_eq, (ptr_word y wy By Ry' Ry), (rep_word wx x Bx Rx).
        apply post_intro; [apply b2i_word|apply eqm_refl|apply b2i_tint].
      * injection HB as <- <-. injection HT as <-. injection HV as <-. rewrite ccsem_ne, (ptr_word y wy By Ry' Ry), (rep_word wx x Bx Rx).
        apply post_intro; [apply b2i_word|apply eqm_refl|apply b2i_tint].
    + exfalso. destruct t2; cbn in D2; discriminate.
    + unfold bmodes in HB. rewrite D2 in HB. cbn [decay] in HB. discriminate.
    + unfold bmodes in HB. rewrite D2 in HB. cbn [decay] in HB. discriminate.
  - pose proof (inr_ptr t1 p1 x D1 Hx) as Rx'. unfold bmodes in HB. rewrite D1 in HB.
    unfold bval in HV. rewrite D1 in HV. unfold btype in HT. rewrite D1 in HT.
    destruct (decay t2) as [n2 s2|p2|a n| |] eqn:D2; try discriminate.
    + destruct (compat t1 v1) eqn:Cp; [|discriminate]. destruct (isint v2) eqn:I1; [|discriminate]. cbn [andb negb] in HB.
      apply is_int_ex in I1 as (a1 & b1 & ->). destruct (compat_ref t1 v1 p1 U1 Cp D1) as (Rf & Ip & _).
      destruct o; try discriminate; unfold mb; cbn [is_cmp is_ptr andb negb].
      * destruct (B1 p1 true HB) as (Os & _ & -> & ->). rewrite Ip. cbn [negb andb]. unfold scaled. rewrite Rf, Os.
        rewrite (ptr_word x wx Bx Rx' Rx). rewrite (rep_word wy y By Ry). injection HT as <-.
        destruct (Z.leb_spec 0 (x + y * csize W p1)), (Z.ltb_spec (x + y * csize W p1) MOD); cbn [andb] in HV; try discriminate.
        apply Some_inj in HV. subst v. apply post_intro; [apply Z.mod_pos_bound; lia| |cbn; lia]. cbn [rep].
        eapply eqm_trans; [now apply eqm_MOD|]. apply eqm_add; [apply eqm_refl|].
        eapply eqm_trans; [now apply eqm_MOD|]. apply eqm_mul; [now apply eqm_MOD|apply eqm_refl].
      * destruct (B1 p1 true HB) as (Os & _ & -> & ->). rewrite Ip. cbn [negb andb]. unfold scaled. rewrite Rf, Os.
        rewrite (ptr_word x wx Bx Rx' Rx). rewrite (rep_word wy y By Ry). injection HT as <-.
        destruct (Z.leb_spec 0 (x - y * csize W p1)), (Z.ltb_spec (x - y * csize W p1) MOD); cbn [andb] in HV; try discriminate.
        apply Some_inj in HV. subst v. apply post_intro; [apply Z.mod_pos_bound; lia| |cbn; lia]. cbn [rep].
        eapply eqm_trans; [now apply eqm_MOD|]. apply eqm_sub; [apply eqm_refl|].
        eapply eqm_trans; [now apply eqm_MOD|]. apply eqm_mul; [now apply eqm_MOD|apply eqm_refl].
      * injection HB as <- <-. injection HT as <-. injection HV as <-. rewrite ccsem_eq, (ptr_word x wx Bx Rx' Rx), (rep_word wy y By Ry).
        apply post_intro; [apply b2i_word|apply eqm_refl|apply b2i_tint].
      * injection HB as <- <-. injection HT as <-. injection HV as <-. rewrite ccsem_ne, (ptr_word x wx Bx Rx' Rx), (rep_word wy y By Ry).
        apply post_intro; [apply b2i_word|apply eqm_refl|apply b2i_tint].
    + pose proof (inr_ptr t2 p2 y D2 Hy) as Ry'.
      destruct (compat t1 v1) eqn:Cp; [|discriminate]. destruct (compat t2 v2) eqn:Cp2; [|discriminate]. cbn [andb negb] in HB.
      destruct (compat_ref t1 v1 p1 U1 Cp D1) as (Rf & Ip & _). destruct (compat_ref t2 v2 p2 U2 Cp2 D2) as (_ & Ip2 & _).
      destruct o; try discriminate; unfold mb; cbn [is_cmp].
      * destruct (_ && _ && is_power_of_2 _) eqn:G in HB; [|discriminate]. injection HB as <- <-. apply andb_true_iff in G as [Os P2].
        rewrite Ip, Ip2. cbn [andb]. unfold scaled. rewrite Rf. unfold okscale. rewrite Os, P2. injection HT as <-.
        rewrite (ptr_word x wx Bx Rx' Rx), (ptr_word y wy By Ry' Ry).
        destruct (Z.leb_spec (- HALF) (x - y)), (Z.ltb_spec (x - y) HALF); cbn [andb] in HV; try discriminate.
        destruct (Z.eqb_spec ((x - y) mod csize W p1) 0); [|discriminate]. apply Some_inj in HV. subst v.
        rewrite sgn_mod by (auto; lia). apply andb_true_iff in Os as [Os _]. apply Z.leb_le in Os.
        apply post_intro; [apply Z.mod_pos_bound; lia|now apply rep_exact|].
        cbn [inr_]. rewrite <- HALFW. split; [apply Z.div_le_lower_bound; nia|apply Z.div_lt_upper_bound; nia].
      * injection HB as <- <-. injection HT as <-. injection HV as <-. rewrite ccsem_eq, (ptr_word x wx Bx Rx' Rx), (ptr_word y wy By Ry' Ry).
        apply post_intro; [apply b2i_word|apply eqm_refl|apply b2i_tint].
      * injection HB as <- <-. injection HT as <-. injection HV as <-. rewrite ccsem_ne, (ptr_word x wx Bx Rx' Rx), (ptr_word y wy By Ry' Ry).
        apply post_intro; [apply b2i_word|apply eqm_refl|apply b2i_tint].
  - exfalso. destruct t1; cbn in D1; discriminate.
  - unfold bmodes in HB. rewrite D1 in HB. discriminate.
  - unfold bmodes in HB. rewrite D1 in HB. discriminate.
Qed.
End B.
